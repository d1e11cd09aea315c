(** One operation on ciphertexts. *)
From Verif Require Import Base Alu AluProofs Graph MuxGraph MuxGraphProofs FheGraph SpecFhe PolyRing Eval SpecTfhe SpecGlwe SpecBoot SpecTrace SpecSwitch SpecCbs SpecEval FluentIntProofs TfheProofs TfheProofs2 TfheProofs3 TfheGlweProofs TfheGlweProofs2 TfheGlweProofs3 TfheGlweProofs4 TfheBootProofs TfheBootProofs2 TfheBootProofs3 TfheBootProofs4 TfheTraceProofs TfheTraceProofs2 TfheSwitchProofs Props_Boot Props_Trace Props_Switch TfheCbsProofs Props_Cbs Props_Glwe Props_Tfhe EvalProofs.
Ltac Zify.zify_post_hook ::= idtac.
Open Scope Z_scope.
Local Hint Resolve word64 : core.

Section S.
Context (P : params) (B : bounds) (sk : secret_key) (pc : proc) (f : fenv).
Context (HP : params_ok P) (HB : bounds_ok B) (Hsk : secret_ok P sk) (Hpc : proc_ok P B sk pc) (Hf : fenv_ok P B f).
Local Notation N := (p_N P). Local Notation k := (p_k P).
Local Notation enc := (encrypts P sk).

Lemma plus_ok E E' p q x y : length p = N -> length q = N -> enc E (CGlwe1 p) (KGlwe1 x) -> enc E' (CGlwe1 q) (KGlwe1 y) ->
  enc (E + E') (CGlwe1 (pxor p q)) (KGlwe1 (glwe_plus x y)).
Proof.
  intros Lp Lq (Wx & _ & Nx) (Wy & _ & Ny).
  destruct (glwe_perturb_ok N 64 k x y word64 Wx (proj1 Wy)) as (W & Ph). split; [exact W|]. split; [rewrite pxor_len; congruence|].
  eapply pnear_peq; [| |exact (pnear_add N 64 _ _ _ _ _ _ Nx Ny)].
  - symmetry. apply (Ph (s_glwe1 sk)).
  - transitivity (pscale (2 ^ 63) (padd (bpoly p) (bpoly q))).
    + intros i Hi. apply zeq_refl'. unfold padd, pscale. ring.
    + apply half_poly. intros i Hi. unfold padd. rewrite !bpoly_nth, pxor_nth by congruence. apply b2z_xor.
Qed.

Lemma mul_xn_ok E p x n : Z.of_nat n < 2 ^ 64 -> enc E (CGlwe1 p) (KGlwe1 x) -> enc E (CGlwe1 (rotr n p)) (KGlwe1 (ev_mul_xn P (glwe_new N k) x n)).
Proof.
  intros Hn (Wx & Lp & Nx). destruct (N_facts P HP) as (H2 & HN & Hk & H64). unfold ev_mul_xn. cbv zeta. set (z := if Z.of_nat n <? 2 ^ 63 then Z.of_nat n else Z.of_nat n - 2 ^ 64).
  assert (Hz : z = Z.of_nat n \/ z = Z.of_nat n - 2 ^ 64) by (unfold z; destruct (_ <? _); auto).
  destruct (glwe_rot_ok N 64 k (glwe_new N k) x z word64 HN (glwe_new_shape N k) Wx) as (W & Ph).
  split; [exact W|]. split; [now rewrite rotr_len|].
  eapply pnear_peq; [symmetry; apply Ph| |exact (pnear_mono N 64 _ z _ _ Nx)]. now apply half_mono.
Qed.

Lemma cmux_enc E0 E1 Es p q b x y s : enc E0 (CGlwe1 p) (KGlwe1 x) -> enc E1 (CGlwe1 q) (KGlwe1 y) -> enc Es (CGgsw1 b) (KGgsw1 s) ->
  exists r, ev_cmux (pc_hw pc) (pc_pr pc) P (glwe_new N k) s x y f = Ok r /\
    enc (Z.max E0 E1 + sel_noise P B Es) (CGlwe1 (if b : bool then q else p)) (KGlwe1 r).
Proof.
  intros (Wx & Lp & Nx) (Wy & Lq & Ny) Hs. pose proof (encrypts_nonneg P sk HP _ _ _ Hs) as HEs. destruct Hs as (Vs & Ws & Es').
  destruct (po_cbs P HP) as (Hl & Hc & Hlc). destruct HB as (_ & _ & _ & _ & _ & HD).
  destruct (cmux_ok N 64 (pc_hw pc) (pc_pr pc) (r_log (p_cbs P)) (r_count (p_cbs P)) k (glwe_new N k) x y s (fe_sel f O) (b_sel B)
    word64 (po_dim P HP) (pk_add _ _ _ _ Hpc) (pk_sub _ _ _ _ Hpc) Hl Hc Hlc (glwe_new_shape N k) Wx Wy Vs HD (fo_sel _ _ _ Hf O)) as (r & Er & Wr & Pr).
  exists r. split; [exact Er|]. split; [exact Wr|]. split; [destruct b; assumption|].
  specialize (Pr (s_glwe1 sk) (Z.b2z b) Es (so_glwe _ _ Hsk) (so_glweb _ _ Hsk) ltac:(destruct b; auto) HEs Es').
  rewrite Z.add_comm. destruct b; cbn [Z.b2z] in Pr.
  - change (1 =? 1) with true in Pr. cbv iota in Pr. eapply pnear_trans; [exact Pr|]. apply (pnear_weaken N 64 E1); [lia|exact Ny].
  - change (0 =? 1) with false in Pr. cbv iota in Pr. eapply pnear_trans; [exact Pr|]. apply (pnear_weaken N 64 E0); [lia|exact Nx].
Qed.

Lemma glev_cmux_enc E0 E1 Es p q b x y s : enc E0 (CGlev1 p) (KGlev1 x) -> enc E1 (CGlev1 q) (KGlev1 y) -> enc Es (CGgsw1 b) (KGgsw1 s) ->
  exists r, ev_glev_cmux (pc_hw pc) (pc_pr pc) P (repeat (glwe_new N k) (r_count (p_cbs P))) s x y f = Ok r /\
    enc (Z.max E0 E1 + sel_noise P B Es) (CGlev1 (if b : bool then q else p)) (KGlev1 r).
Proof.
  intros (Lx & Wx & Nx) (Ly & Wy & Ny) Hs. pose proof (encrypts_nonneg P sk HP _ _ _ Hs) as HEs. destruct Hs as (Vs & Ws & Es').
  destruct (po_cbs P HP) as (Hl & Hc & Hlc). destruct HB as (_ & _ & _ & _ & _ & HD).
  destruct (glev_cmux_correct (pc_hw pc) (pc_pr pc) 64 (r_log (p_cbs P)) (r_count (p_cbs P)) N k (b_sel B) s (s_glwe1 sk) (Z.b2z b) Es
    word64 (po_dim P HP) (pk_add _ _ _ _ Hpc) (pk_sub _ _ _ _ Hpc) Hl Hc Hlc HD HEs Vs (so_glwe _ _ Hsk) (so_glweb _ _ Hsk) ltac:(destruct b; auto) Es'
    (repeat (glwe_new N k) (r_count (p_cbs P))) x y (fe_sel f)) as (r & Er & Lr & Wr & Pr).
  { rewrite repeat_length. congruence. } { rewrite repeat_length. congruence. }
  { apply Forall_forall. intros c Hi. apply repeat_spec in Hi. subst c. apply glwe_new_shape. }
  { assumption. } { assumption. } { apply (fo_sel _ _ _ Hf). }
  exists r. split; [exact Er|]. split; [rewrite Lr; apply repeat_length|]. split; [exact Wr|].
  specialize (Pr (Z.max E0 E1) (r_log (p_cbs P)) (pconst (Z.b2z p)) (pconst (Z.b2z q))
    (glev_enc_weaken P sk E0 (Z.max E0 E1) _ _ _ (Z.le_max_l _ _) Nx) (glev_enc_weaken P sk E1 (Z.max E0 E1) _ _ _ (Z.le_max_r _ _) Ny)).
  rewrite Z.add_comm. destruct b; cbn [Z.b2z] in Pr; [change (1 =? 1) with true in Pr|change (0 =? 1) with false in Pr]; exact Pr.
Qed.

Lemma multiply_enc E0 Es p b x s : enc E0 (CGlwe1 p) (KGlwe1 x) -> enc Es (CGgsw1 b) (KGgsw1 s) ->
  exists r, ev_multiply (pc_pr pc) P x s f = Ok r /\ enc (E0 + sel_noise P B Es) (CGlwe1 (if b : bool then p else pzero N)) (KGlwe1 r).
Proof.
  intros Hx Hs. pose proof (encrypts_nonneg P sk HP _ _ _ Hs) as HEs. pose proof (encrypts_nonneg P sk HP _ _ _ Hx) as HE0.
  destruct Hx as (Wx & Lp & Nx), Hs as (Vs & Ws & Es').
  destruct (po_cbs P HP) as (Hl & Hc & Hlc). pose proof HB as (_ & _ & _ & _ & _ & HD). destruct (N_facts P HP) as (H2 & HN & Hk & H64).
  apply ggsw_valid_iff in Vs as (Lg & Fg). pose proof (so_glwe _ _ Hsk) as Hs. pose proof (so_glweb _ _ Hsk) as Hbin.
  destruct (glwe_ggsw_mad_ok N 64 (pc_pr pc) (r_log (p_cbs P)) (r_count (p_cbs P)) k (glwe_new N k) x s H2 word64 Hl Hc Hlc (glwe_new_shape N k) Wx Lg Fg) as (c & Ec & Sc & Wc & Pc).
  specialize (Wc (glwe_new_wf N 64 k ltac:(lia))). destruct (fo_sel _ _ _ Hf O) as (Sd & Hd). pose proof (fo_sel _ _ _ Hf O) as Hd0.
  destruct (glwe_perturb_ok N 64 k c (fe_sel f O) word64 Wc Sd) as (Wq & Pq).
  unfold ev_multiply. rewrite Ec. cbn [bind]. eexists. split; [reflexivity|]. split; [exact Wq|].
  split; [destruct b; [assumption|apply repeat_length]|].
  assert (Hl1 : Forall (fun s => l1bnd N (Z.of_nat N) (coef s)) (s_glwe1 sk)).
  { destruct Hs as (Ls & Fs). clear - Fs Hbin. induction Fs as [|t l Hs Fs IH]; constructor.
    - apply Forall_cons_iff in Hbin as [? ?]. now apply l1bnd_binary.
    - apply IH. now apply Forall_cons_iff in Hbin as [? ?]. }
  assert (Hm : l1bnd N 1 (pconst (Z.b2z b))) by (apply (l1bnd_weaken N (Z.abs (Z.b2z b))); [destruct b; cbn; lia|now apply l1bnd_const]).
  specialize (Pc (s_glwe1 sk) (pconst (Z.b2z b)) (Z.of_nat N) 1 Es HEs (proj1 Hs) Hl1 Hm Es').
  pose proof (fft_err_phase N 64 k (b_sel B) _ _ HD Hd0 Hs Hbin) as Pe.
  unfold sel_noise, cmux_noise. unfold extprod_bound in Pc. rewrite Z.mul_1_l in Pc.
  pose proof (pnear_add N 64 _ _ _ _ _ _ Pc Pe) as Q. rewrite Z.add_comm.
  eapply pnear_trans; [eapply pnear_peq; [| |exact Q]|].
  - symmetry. apply Pq.
  - transitivity (pscale (Z.b2z b) (glwe_phase N (s_glwe1 sk) x)); [|reflexivity]. rewrite (glwe_phase_new N 64 k (s_glwe1 sk)), (pconst_mul N 64 (Z.b2z b)).
    intros i Hi. apply zeq_refl'. unfold padd, p0. ring.
  - destruct b; cbn [Z.b2z].
    + eapply pnear_peq; [| |exact Nx]; [|reflexivity]. intros i Hi. apply zeq_refl'. unfold pscale. ring.
    + apply (pnear_weaken N 64 0); [assumption|]. apply pnear_refl. intros i Hi. apply zeq_refl'. unfold pscale. rewrite bpoly_pzero. ring.
Qed.

Lemma cbs_enc_raw h pr ck E b x : add_exact h pr 64 -> sub_exact h pr 64 -> key_ok P B sk ck -> boot_margin P E -> enc E (CLwe0 b) (KLwe0 x) ->
  exists g, ev_cbs h pr P ck (ggsw_new N k (r_count (p_cbs P))) x f = Ok g /\ enc (boot_noise P B) (CGgsw1 b) (KGgsw1 g).
Proof.
  intros Ha Hs K Hm Hx. pose proof (encrypts_nonneg P sk HP _ _ _ Hx) as HE. destruct Hx as (Wx & Nx).
  pose proof HB as (B1 & B2 & B3 & B4 & HD & _).
  destruct (po_cbs P HP) as (Hl & Hc & Hlc), (po_pbs P HP) as (Hl1 & Hc1 & Hlc1), (po_tr P HP) as (Hl2 & Hc2 & Hlc2), (po_ss P HP) as (Hl3 & Hc3 & Hlc3).
  destruct (circuit_bootstrap_correct h pr 64 (r_log (p_pbs P)) (r_log (p_tr P)) (r_log (p_ss P)) (r_log (p_cbs P)) (r_count (p_pbs P)) (r_count (p_tr P)) (r_count (p_ss P))
    (r_count (p_cbs P)) (p_n P) N k x (k_bs ck) (k_auto ck) (k_ss ck) (fe_lwe f) (fe_glwe f) (fe_glev f) (fe_d1 f) (fe_d2 f) (fe_d3 f)
    (b_fp B) (s_glwe1 sk) (s_lwe0 sk) (b_bs B) (b_auto B) (b_ss B) E (Z.b2z b)) as (g & Eg & Vg & Wg & Pg);
    try assumption; try apply Hf; try apply K; try apply Hsk; try apply HP; auto.
  - split; [assumption|apply (po_cnt P HP)].
  - destruct b; cbn; lia.
  - exists g. split; [exact Eg|]. split; [assumption|]. split; assumption.
Qed.
Lemma cbs_enc E b x : boot_margin P E -> enc E (CLwe0 b) (KLwe0 x) ->
  exists g, ev_cbs (pc_hw pc) (pc_pr pc) P (pc_key pc) (ggsw_new N k (r_count (p_cbs P))) x f = Ok g /\ enc (boot_noise P B) (CGgsw1 b) (KGgsw1 g).
Proof. apply cbs_enc_raw; apply Hpc. Qed.

Lemma schsw_enc E b x : enc E (CGlev1 b) (KGlev1 x) ->
  exists g, ev_scheme_switch (pc_pr pc) P (pc_key pc) (ggsw_new N k (r_count (p_cbs P))) x f = Ok g /\ enc (schsw_noise P B E) (CGgsw1 b) (KGgsw1 g).
Proof.
  intros Hx. pose proof (encrypts_nonneg P sk HP _ _ _ Hx) as HE. destruct Hx as (Lx & Wx & Nx).
  pose proof HB as (B1 & B2 & B3 & B4 & HD & _). pose proof (pk_key _ _ _ _ Hpc) as K. destruct (po_ss P HP) as (Hl3 & Hc3 & Hlc3).
  destruct (scheme_switch_fft_correct (pc_pr pc) 64 (r_log (p_ss P)) (r_count (p_ss P)) (r_count (p_cbs P)) N k x (k_ss (pc_key pc)) (s_glwe1 sk) (b_ss B) E (r_log (p_cbs P))
    (pconst (Z.b2z b)) (fe_d3 f) (b_fp B)) as (g & Eg & Vg & Wg & Pg); try assumption; try apply Hf; try apply K; try apply Hsk; auto.
  - apply (N_facts P HP).
  - exists g. split; [exact Eg|]. split; [assumption|]. split; assumption.
Qed.

Lemma keyswitch_enc E b x : enc E (CLwe1 b) (KLwe1 x) ->
  exists r, ev_keyswitch (pc_pr pc) P (pc_key pc) (lwe_new (p_n P)) x = Ok r /\ enc (E + switch_noise P B) (CLwe0 b) (KLwe0 r).
Proof.
  intros (Wx & Nx). pose proof HB as (B1 & B2 & B3 & B4 & HD & _). pose proof (pk_key _ _ _ _ Hpc) as K. destruct (po_ks P HP) as (Hl & Hc & Hlc).
  destruct (N_facts P HP) as (H2 & HN & Hk & H64). destruct (so_glwe _ _ Hsk) as (Ls & Fs). pose proof (so_lwe _ _ Hsk) as Ln. pose proof (po_n P HP) as Hn.
  assert (Lc : length (concat (s_glwe1 sk)) = (k * N)%nat). { rewrite <- Ls. clear - Fs. induction Fs as [|a l H F IH]; cbn [concat length]; [reflexivity|]. rewrite app_length, IH, H. lia. }
  destruct (keyswitch_phase (pc_pr pc) 64 (r_log (p_ks P)) (r_count (p_ks P)) (concat (s_glwe1 sk)) (s_lwe0 sk) (lwe_new (p_n P)) x (k_ks (pc_key pc)) 1 (b_ks B)) as (r & Er & Wr & Nr);
    try assumption; auto.
  - intros E0. rewrite E0 in Lc. cbn in Lc. nia.
  - intros E0. rewrite E0 in Ln. cbn in Ln. lia.
  - cbn [lwe_new lwe_a]. now rewrite repeat_length.
  - now rewrite Lc.
  - rewrite Lc, Ln. apply K.
  - pose proof (so_glweb _ _ Hsk) as Hb. clear - Hb. induction Hb as [|a l Ha Hb IH]; cbn [concat]; [constructor|]. apply Forall_app. split; [|exact IH].
    eapply Forall_impl; [|exact Ha]. intros z [-> | ->]; cbn; lia.
  - apply K.
  - exists r. rewrite Lc, Ln in *. split; [exact Er|]. split; [assumption|]. rewrite Z.add_comm. eapply near_trans; [|exact Nx].
    unfold switch_noise. rewrite Z.mul_1_l in Nr. exact Nr.
Qed.

Lemma extract_enc E p x i : (i < N)%nat -> enc E (CGlwe1 p) (KGlwe1 x) ->
  exists r, ev_sample_extract P (lwe_new (k * N)) x i = Ok r /\ enc E (CLwe1 (nth i p false)) (KLwe1 r).
Proof.
  intros Hi (Wx & Lp & Nx). destruct (sample_extract_ok N 64 k (lwe_new (k * N)) x i word64 Hi Wx) as (r & Er & Wr & Pr); [apply repeat_length|].
  exists r. split; [exact Er|]. split; [exact Wr|]. eapply near_congr; [symmetry; apply (Pr (s_glwe1 sk)), Hsk| |exact (pnear_coef N 64 _ _ _ i Hi Nx)].
  apply zeq_refl'. unfold pscale. rewrite bpoly_nth. ring.
Qed.

Lemma const_enc t b m : const_ct N t b = Ok m -> exists c, kconst pc t b = Ok c /\ enc (match t with TGgsw1 => boot_noise P B | _ => 0 end) m c.
Proof.
  destruct t; cbn [const_ct kconst]; intros H; try discriminate; injection H as <-; eexists; (split; [reflexivity|]); destruct b; apply Hpc.
Qed.

Theorem op_refines cells kcells cell op ins kins ns o : (forall t r, enc (cell t r) (cells t r) (kcells t r)) ->
  matched P sk ins kins ns -> op_cond P op ns -> exec_op N cells op ins = Ok o ->
  exists co, kexec_op pc f kcells op kins = Ok co /\ encrypts_out P sk (op_noise P B cell op ns) o co.
Proof.
  intros Hcells Hm Hc He. unfold exec_op, kexec_op in *. rewrite (pk_params _ _ _ _ Hpc). destruct (validate N op ins) as [[]| |] eqn:Ev; try discriminate. cbn [bind] in He.
  rewrite (validate_same N op (shapes kins) ins (matched_same P sk _ _ _ Hm)), Ev. cbn [bind].
  unfold krun_op. rewrite (pk_params _ _ _ _ Hpc). cbv zeta. unfold run_op in He.
  destruct op; cbn [op_cond op_noise] in *.
  - injection He as <-. eexists. split; [reflexivity|]. split; [apply Hcells|exact I].
  - destruct (inp0 ins) as [m| |] eqn:E0; try discriminate. destruct (matched_0 P sk _ _ _ _ Hm E0) as (c & -> & Ec). cbn [bind] in *.
    destruct m as [m|]; [|discriminate]. destruct c as [c|]; [|contradiction]. destruct (encrypts_ty P sk _ _ _ Ec) as (_ & ->).
    destruct (cty_eqb (ty_of m) t); [|discriminate]. injection He as <-. eexists. split; [reflexivity|]. split; [exact I|]. cbn [snd]. auto.
  - destruct (inp0 ins) as [m| |] eqn:E0; try discriminate. destruct (matched_0 P sk _ _ _ _ Hm E0) as (c & -> & Ec). cbn [bind] in *.
    destruct (FheGraph.glwe m) as [p| |] eqn:Ep; try discriminate. destruct (enc_glwe_inv P sk _ _ _ _ Ec Ep) as (x & -> & Ex). cbn [bind] in *. injection He as <-.
    assert (Hi : (i < N)%nat). { unfold validate in Ev. destruct (validate_inputs _ _); try discriminate. cbn [bind] in Ev. destruct (Nat.leb_spec N i); [discriminate|assumption]. }
    destruct (extract_enc _ _ _ i Hi Ex) as (r & -> & Er). cbn [bind]. eexists. split; [reflexivity|]. split; [exact Er|exact I].
  - destruct (inp0 ins) as [m| |] eqn:E0; try discriminate. destruct (matched_0 P sk _ _ _ _ Hm E0) as (c & -> & Ec). cbn [bind] in *.
    destruct (FheGraph.lwe1 m) as [p| |] eqn:Ep; try discriminate. destruct (enc_lwe1_inv P sk _ _ _ _ Ec Ep) as (x & -> & Ex). cbn [bind] in *. injection He as <-.
    destruct (keyswitch_enc _ _ _ Ex) as (r & -> & Er). cbn [bind]. eexists. split; [reflexivity|]. split; [exact Er|exact I].
  - destruct (inp0 ins) as [m| |] eqn:E0; try discriminate. destruct (matched_0 P sk _ _ _ _ Hm E0) as (c & -> & Ec). cbn [bind] in *.
    destruct (FheGraph.glwe m) as [p| |] eqn:Ep; try discriminate. destruct (enc_glwe_inv P sk _ _ _ _ Ec Ep) as (x & -> & Ex). cbn [bind] in *. injection He as <-.
    eexists. split; [reflexivity|]. split; [|exact I]. cbn [fst encrypts_opt]. unfold ev_not. rewrite <- (Z.add_0_r (noise0 ns)). apply plus_ok; [apply Ex|apply pconst_len|exact Ex|apply Hpc].
  - destruct (inp0 ins) as [m| |] eqn:E0; try discriminate. destruct (matched_0 P sk _ _ _ _ Hm E0) as (c & -> & Ec). cbn [bind] in *.
    destruct (FheGraph.glwe m) as [p| |] eqn:Ep; try discriminate. destruct (enc_glwe_inv P sk _ _ _ _ Ec Ep) as (x & -> & Ex). cbn [bind] in *.
    destruct (inp1 ins) as [m'| |] eqn:E1; try discriminate. destruct (matched_1 P sk _ _ _ _ Hm E1) as (c' & -> & Ec'). cbn [bind] in *.
    destruct (FheGraph.glwe m') as [q| |] eqn:Eq; try discriminate. destruct (enc_glwe_inv P sk _ _ _ _ Ec' Eq) as (y & -> & Ey). cbn [bind] in *. injection He as <-.
    eexists. split; [reflexivity|]. split; [|exact I]. cbn [fst encrypts_opt]. unfold ev_xor. apply plus_ok; [apply Ex|apply Ey|exact Ex|exact Ey].
  - destruct (inpl ELow ins) as [m| |] eqn:E0; try discriminate. destruct (matched_l P sk _ _ _ _ _ Hm E0) as (c & -> & Ec). cbn [bind] in *.
    destruct (FheGraph.glwe m) as [p| |] eqn:Ep; try discriminate. destruct (enc_glwe_inv P sk _ _ _ _ Ec Ep) as (x & -> & Ex). cbn [bind] in *.
    destruct (inpl EHigh ins) as [m'| |] eqn:E1; try discriminate. destruct (matched_l P sk _ _ _ _ _ Hm E1) as (c' & -> & Ec'). cbn [bind] in *.
    destruct (FheGraph.glwe m') as [q| |] eqn:Eq; try discriminate. destruct (enc_glwe_inv P sk _ _ _ _ Ec' Eq) as (y & -> & Ey). cbn [bind] in *.
    destruct (inpl ESel ins) as [m''| |] eqn:E2; try discriminate. destruct (matched_l P sk _ _ _ _ _ Hm E2) as (c'' & -> & Ec''). cbn [bind] in *.
    destruct (FheGraph.ggsw m'') as [s| |] eqn:Es; try discriminate. destruct (enc_ggsw_inv P sk _ _ _ _ Ec'' Es) as (z & -> & Ez). cbn [bind] in *. injection He as <-.
    destruct (cmux_enc _ _ _ _ _ _ _ _ _ Ex Ey Ez) as (r & -> & Er). cbn [bind]. eexists. split; [reflexivity|]. split; [exact Er|exact I].
  - destruct (inpl ELow ins) as [m| |] eqn:E0; try discriminate. destruct (matched_l P sk _ _ _ _ _ Hm E0) as (c & -> & Ec). cbn [bind] in *.
    destruct (FheGraph.glev m) as [p| |] eqn:Ep; try discriminate. destruct (enc_glev_inv P sk _ _ _ _ Ec Ep) as (x & -> & Ex). cbn [bind] in *.
    destruct (inpl EHigh ins) as [m'| |] eqn:E1; try discriminate. destruct (matched_l P sk _ _ _ _ _ Hm E1) as (c' & -> & Ec'). cbn [bind] in *.
    destruct (FheGraph.glev m') as [q| |] eqn:Eq; try discriminate. destruct (enc_glev_inv P sk _ _ _ _ Ec' Eq) as (y & -> & Ey). cbn [bind] in *.
    destruct (inpl ESel ins) as [m''| |] eqn:E2; try discriminate. destruct (matched_l P sk _ _ _ _ _ Hm E2) as (c'' & -> & Ec''). cbn [bind] in *.
    destruct (FheGraph.ggsw m'') as [s| |] eqn:Es; try discriminate. destruct (enc_ggsw_inv P sk _ _ _ _ Ec'' Es) as (z & -> & Ez). cbn [bind] in *. injection He as <-.
    destruct (glev_cmux_enc _ _ _ _ _ _ _ _ _ Ex Ey Ez) as (r & -> & Er). cbn [bind]. eexists. split; [reflexivity|]. split; [exact Er|exact I].
  - destruct (inpl EGlwe ins) as [m| |] eqn:E0; try discriminate. destruct (matched_l P sk _ _ _ _ _ Hm E0) as (c & -> & Ec). cbn [bind] in *.
    destruct (FheGraph.glwe m) as [p| |] eqn:Ep; try discriminate. destruct (enc_glwe_inv P sk _ _ _ _ Ec Ep) as (x & -> & Ex). cbn [bind] in *.
    destruct (inpl EGgsw ins) as [m''| |] eqn:E2; try discriminate. destruct (matched_l P sk _ _ _ _ _ Hm E2) as (c'' & -> & Ec''). cbn [bind] in *.
    destruct (FheGraph.ggsw m'') as [s| |] eqn:Es; try discriminate. destruct (enc_ggsw_inv P sk _ _ _ _ Ec'' Es) as (z & -> & Ez). cbn [bind] in *. injection He as <-.
    destruct (multiply_enc _ _ _ _ _ _ Ex Ez) as (r & -> & Er). cbn [bind]. eexists. split; [reflexivity|]. split; [exact Er|exact I].
  - destruct (inp0 ins) as [m| |] eqn:E0; try discriminate. destruct (matched_0 P sk _ _ _ _ Hm E0) as (c & -> & Ec). cbn [bind] in *.
    destruct (FheGraph.lwe0 m) as [p| |] eqn:Ep; try discriminate. destruct (enc_lwe0_inv P sk _ _ _ _ Ec Ep) as (x & -> & Ex). cbn [bind] in *. injection He as <-.
    destruct (cbs_enc _ _ _ Hc Ex) as (r & -> & Er). cbn [bind]. eexists. split; [reflexivity|]. split; [exact Er|exact I].
  - destruct (inpl EUnary ins) as [m| |] eqn:E0; try discriminate. destruct (matched_l P sk _ _ _ _ _ Hm E0) as (c & -> & Ec). cbn [bind] in *.
    destruct (FheGraph.glev m) as [p| |] eqn:Ep; try discriminate. destruct (enc_glev_inv P sk _ _ _ _ Ec Ep) as (x & -> & Ex). cbn [bind] in *. injection He as <-.
    destruct (schsw_enc _ _ _ Ex) as (r & -> & Er). cbn [bind]. eexists. split; [reflexivity|]. split; [exact Er|exact I].
  - destruct (const_ct N t false) as [m| |] eqn:Em; try discriminate. injection He as <-. destruct (const_enc _ _ _ Em) as (c & -> & Ec). cbn [bind].
    eexists. split; [reflexivity|]. split; [|exact I]. destruct t; exact Ec.
  - destruct (const_ct N t true) as [m| |] eqn:Em; try discriminate. injection He as <-. destruct (const_enc _ _ _ Em) as (c & -> & Ec). cbn [bind].
    eexists. split; [reflexivity|]. split; [|exact I]. destruct t; exact Ec.
  - injection He as <-. eexists. split; [reflexivity|]. split; exact I.
  - injection He as <-. eexists. split; [reflexivity|]. split; exact I.
  - destruct (inpl EUnary ins) as [m| |] eqn:E0; try discriminate. destruct (matched_l P sk _ _ _ _ _ Hm E0) as (c & -> & Ec). cbn [bind] in *.
    destruct (FheGraph.glwe m) as [p| |] eqn:Ep; try discriminate. destruct (enc_glwe_inv P sk _ _ _ _ Ec Ep) as (x & -> & Ex). cbn [bind] in *. injection He as <-.
    eexists. split; [reflexivity|]. split; [|exact I]. now apply mul_xn_ok.
Qed.
End S.
