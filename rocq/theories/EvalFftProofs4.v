(** Set-up, encryption and decryption through the FFT. *)
From Coq Require Import Reals ZArith List Lia Lra Bool.
From Coquelicot Require Import Complex.
From Verif Require Import Base Alu AluProofs Graph MuxGraph MuxGraphProofs FheGraph FheProofs PolyRing Tfhe TfheGlwe TfheBoot TfheTrace TfheSwitch TfheCbs Eval SpecFhe SpecTfhe SpecGlwe SpecBoot SpecTrace SpecSwitch SpecCbs SpecEval
  FluentIntProofs TfheProofs TfheProofs2 TfheProofs3
  TfheGlweProofs TfheGlweProofs2 TfheGlweProofs3 TfheGlweProofs4 TfheBootProofs TfheBootProofs2 TfheBootProofs3 TfheBootProofs4 TfheSwitchProofs EvalProofs EvalProofs2 EvalProofs3 EvalProofs4 Props_Trace Props_Switch.
From Verif Require Import Fft FftGlwe FftCbs EvalFft SpecFft SpecFftGlwe SpecFftCbs SpecEvalFft FftProofs FftProofs5 FftProofs6 FftGlweProofs FftGlweProofs2 FftGlweProofs3
  FftRep FftCbsProofs FftCbsProofs2 FftCbsProofs3 Props_Fft Props_FftGlwe Props_FftCbs EvalFftProofs EvalFftProofs2 EvalFftProofs3.
Import ListNotations.
Ltac Zify.zify_post_hook ::= idtac.
Open Scope Z_scope.

Lemma generate_ak_words pr w log count N n k ak0 sk sc rnd E ak : word w -> N = (2 * n)%nat -> is_pow2 N = true -> 1 <= log -> log * Z.of_nat count <= w -> polys_shape N k sk -> 0 <= E -> polys_shape N k sc ->
  length ak0 = Nat.log2 N -> Forall (fun ksk => length ksk = k /\ Forall (fun r => length r = count /\ Forall (glwe_fresh N k) r) ksk) ak0 ->
  (forall j, length (rnd j) = k /\ Forall (fun r => length r = count /\ Forall (glwe_rnd_ok N k w E) r) (rnd j)) ->
  generate_ak pr w log count N k ak0 sk sc rnd = Ok ak -> ak_words w N k count ak.
Proof.
  intros Hw -> H2 Hl Hs Hsk HE Hsc L F Hr G. unfold generate_ak in G. destruct (_ && _) in G; [|discriminate].
  destruct (ak_loop_wf w Hw n k pr log count sk E H2 Hl Hs Hsk HE ak0 sc 1%nat rnd ak Hsc F Hr G) as (A1 & A2). split; [congruence|exact A2].
Qed.
Lemma generate_ssk_words pr w log count N n k ssk0 sk fm rnd E ssk : word w -> N = (2 * n)%nat -> is_pow2 N = true -> 1 <= log -> (1 <= count)%nat -> log * Z.of_nat count <= w -> polys_shape N k sk -> 0 <= E ->
  length ssk0 = tri_count k -> Forall (fun r => length r = count /\ Forall (glwe_fresh N k) r) ssk0 -> (forall a c, In a sk -> In c sk -> length (fm a c) = N) ->
  (forall i, length (rnd i) = count /\ Forall (glwe_rnd_ok N k w E) (rnd i)) ->
  generate_ssk pr w log count N k ssk0 sk fm rnd = Ok ssk -> ssk_words w N k count ssk.
Proof.
  intros Hw -> H2 Hl Hc Hs Hsk HE L F Hm Hr G. unfold generate_ssk in G. destruct (_ && _) in G; [|discriminate]. rewrite tri_collect_all in G. cbn [bind] in G.
  assert (Lpr : length (tri_pairs sk) = length ssk0) by (rewrite tri_pairs_len, L; f_equal; apply Hsk).
  rewrite firstn_all2 in G by lia.
  destruct (ssk_loop_wf w Hw n k pr log count sk fm E H2 Hl Hc Hs Hsk HE (tri_pairs sk) ssk0 rnd ssk Lpr) as (A1 & A2); try assumption.
  { intros q Hq. destruct (tri_in sk q Hq) as (I1 & I2). apply (Hm _ _ I1 I2). }
  split; [congruence|exact A2].
Qed.

Section Setup.
Context (X : ext) (m : mad_kernel) (h : hw) (pr : profile) (P : params) (B : bounds) (A : accuracy) (HP : params_ok P) (HB : bounds_ok B) (Hok : fft_ok X h P B A).
Context (sk : secret_key) (Hsk : secret_ok P sk).
Local Notation N := (p_N P). Local Notation k := (p_k P). Local Notation cnt := (r_count (p_cbs P)). Local Notation n := (p_N P / 2)%nat.
Local Notation gform := (Forall2 (Forall2 (fourier_form n 64 k (sel_err A P) (sel_size P)))).

Lemma product_exact s t : binary s -> binary t -> length s = N -> length t = N ->
  length (key_product X (hw_x86 h) m 64 n s t) = N /\ peq N (2 ^ 64) (coef (key_product X (hw_x86 h) m 64 n s t)) (pmul N (coef s) (coef t)).
Proof using HP Hok.
  intros Bs Bt Ls Lt. destruct (top_lg X h P B A HP Hok) as (lg & H1 & H2 & H3 & H4).
  destruct (C109_key_product_exact X lg 64 (hw_x86 h) m s t H1 H4 word64) as (r & E & L & Q); try assumption; try congruence.
  { exists (acc_u A), (acc_eta A), (acc_tau A), (acc_delta A). rewrite <- H3. split; [exact (fk_round _ _ _ _ _ Hok)|]. split; [exact (fk_acc _ _ _ _ _ Hok)|exact (fk_bin _ _ _ _ _ Hok)]. }
  unfold key_product. rewrite H3, E, H2. auto.
Qed.
Lemma rnd_ok r : key_rnd_fft_ok P B r -> key_rnd_ok P B sk (with_fft_products X h m P r).
Proof using HP Hok Hsk.
  intros [R1 R2 R3 R4 R5 R6]. constructor; cbn [with_fft_products kr_bs kr_ks kr_ss kr_auto kr_mul kr_scratch]; try assumption.
  intros a b Ia Ib. pose proof (so_glweb _ _ Hsk) as Hb. destruct (so_glwe _ _ Hsk) as (_ & Hl). apply product_exact; try (now apply (proj1 (Forall_forall _ _) Hb)); now apply (proj1 (Forall_forall _ _) Hl).
Qed.

Lemma generated_words r ck : key_rnd_fft_ok P B r -> key_generate pr P sk (with_fft_products X h m P r) = Ok ck -> key_words P ck.
Proof using HP HB Hok Hsk.
  intros Hr G. pose proof (rnd_ok r Hr) as HrK. destruct HB as (B1 & B2 & B3 & B4 & HD & _). destruct (N_facts P HP) as (H2 & HN & Hk & H64).
  destruct (po_pbs P HP) as (Hl1 & Hc1 & Hlc1), (po_tr P HP) as (Hl2 & Hc2 & Hlc2), (po_ss P HP) as (Hl3 & Hc3 & Hlc3).
  pose proof (po_dim P HP) as Hdim. pose proof (so_glwe _ _ Hsk) as Hs. pose proof (top_size X h P B A HP Hok) as (EN & _).
  unfold key_generate in G. cbv zeta in G. set (r' := with_fft_products X h m P r) in *.
  destruct (generate_bsk _ _ _ _ _ _ _ _ _ _ _) as [bs| |] eqn:G1; try discriminate. cbn [bind] in G.
  destruct (lwe_gen_ksk _ _ _ _ _ _ _ _ _ _) as [ks| |]; try discriminate. cbn [bind] in G.
  destruct (generate_ssk _ _ _ _ _ _ _ _ _ _) as [ss| |] eqn:G2; try discriminate. cbn [bind] in G.
  destruct (generate_ak _ _ _ _ _ _ _ _ _ _) as [au| |] eqn:G3; try discriminate. cbn [bind] in G. injection G as <-.
  unfold key_words. cbn [k_bs k_auto k_ss].
  assert (FR : Forall (fun g => length g = S k /\ Forall (fun r => length r = r_count (p_pbs P) /\ Forall (glwe_fresh N k) r) g) (repeat (ggsw_new N k (r_count (p_pbs P))) (p_n P))).
  { apply Forall_forall. intros g Hg. apply repeat_spec in Hg. subst. apply fresh_ggsw. }
  destruct (generate_bsk_wf pr 64 (r_log (p_pbs P)) (r_count (p_pbs P)) (p_n P) N k _ (s_lwe0 sk) (s_glwe1 sk) (kr_bs r') (b_bs B) bs word64 Hdim Hl1 Hc1 Hlc1 (so_lweb _ _ Hsk) (so_lwe _ _ Hsk) Hs
    (repeat_length _ _) FR B1 (kro_bs _ _ _ _ HrK) G1) as (Lb & Wb).
  split; [exact Lb|]. split; [exact Wb|]. split.
  - apply (generate_ak_words pr 64 (r_log (p_tr P)) (r_count (p_tr P)) N n k (repeat (repeat (repeat (glwe_new N k) (r_count (p_tr P))) k) (Nat.log2 N)) (s_glwe1 sk) (kr_scratch r') (kr_auto r') (b_auto B) au word64 EN H2 Hl2 ltac:(lia) Hs B2 (kro_scratch _ _ _ _ HrK)
      (repeat_length _ _)); [|exact (kro_auto _ _ _ _ HrK)|exact G3].
    apply Forall_forall. intros g Hg. apply repeat_spec in Hg. subst. split; [apply repeat_length|]. apply Forall_forall. intros c Hc. apply repeat_spec in Hc. subst. split; [apply repeat_length|apply fresh_rows].
  - apply (generate_ssk_words pr 64 (r_log (p_ss P)) (r_count (p_ss P)) N n k (repeat (repeat (glwe_new N k) (r_count (p_ss P))) (tri_count k)) (s_glwe1 sk) (kr_mul r') (kr_ss r') (b_ss B) ss word64 EN H2 Hl3 Hc3 ltac:(lia) Hs B3 (repeat_length _ _)); [| |exact (kro_ss _ _ _ _ HrK)|exact G2].
    + apply Forall_forall. intros g Hg. apply repeat_spec in Hg. subst. split; [apply repeat_length|apply fresh_rows].
    + intros a c Ia Ic. apply (kro_mul _ _ _ _ HrK a c Ia Ic).
Qed.

Lemma cbs_both ck fk s E b x : key_ok P B sk ck -> key_words P ck -> key_fft X P ck = Ok fk -> scratch_ok P s -> add_exact h pr 64 -> sub_exact h pr 64 -> boot_margin P E ->
  encrypts P sk E (CLwe0 b) (KLwe0 x) -> exists gf, rev_cbs X m h pr P fk (ggsw_fft_zero N k cnt) x s = Ok gf /\ rencrypts A P sk (boot_noise P B) (CGgsw1 b) (RGgsw1 gf).
Proof using All.
  intros K W F Hs Ha Hb Hm Hx. destruct (t_cbs X m h pr P B A HP HB Hok ck fk s x W F Hs) as (f & Hf & R).
  destruct (cbs_enc_raw P B sk f HP HB Hsk Hf h pr ck E b x Ha Hb K Hm Hx) as (g & Eg & Pg). rewrite Eg in R.
  destruct (rev_cbs _ _ _ _ _ _ _ _ _) as [gf| |]; cbn [res_rel] in R; try contradiction. exists gf. split; [reflexivity|]. exists (KGgsw1 g). split; [exact (proj1 R)|exact Pg].
Qed.

Lemma rsetup r s0 s1 : key_rnd_fft_ok P B r -> add_exact h pr 64 -> sub_exact h pr 64 -> scratch_ok P s0 -> scratch_ok P s1 -> boot_margin P 0 ->
  exists fk rpc, key_generate_fft X m h pr P sk r = Ok fk /\ rproc_new X m h pr P fk s0 s1 = Ok rpc /\ rproc_ok X A P B sk h pr rpc.
Proof using All.
  intros Hr Ha Hs S0 S1 Hm. destruct (keys_ok P B sk HP HB Hsk pr _ (rnd_ok r Hr)) as (ck & Ek & K). pose proof (generated_words r ck Hr Ek) as W.
  destruct (t_key X m h pr P B A HP HB Hok ck W) as (fk & Ef & _). exists fk. unfold key_generate_fft. rewrite Ek. cbn [bind]. rewrite Ef. unfold rproc_new.
  destruct (triv_lwe_ok (p_n P) false (po_n P HP)) as (z & -> & Wz & Nz). cbn [bind].
  assert (Ez : encrypts P sk 0 (CLwe0 false) (KLwe0 z)) by (split; [assumption|apply Nz]).
  destruct (cbs_both ck fk s0 0 false z K W Ef S0 Ha Hs Hm Ez) as (g0 & -> & E0). cbn [bind].
  destruct (triv_lwe_ok (p_n P) true (po_n P HP)) as (o & -> & Wo & No). cbn [bind].
  assert (Eo : encrypts P sk 0 (CLwe0 true) (KLwe0 o)) by (split; [assumption|apply No]).
  destruct (cbs_both ck fk s1 0 true o K W Ef S1 Ha Hs Hm Eo) as (g1 & -> & E1). cbn [bind].
  destruct (triv_glwe_ok P sk HP false) as (zg & -> & Ezg). cbn [bind]. destruct (triv_glwe_ok P sk HP true) as (og & -> & Eog). cbn [bind].
  destruct (triv_glev_ok P sk HP pr false) as (zl & -> & Ezl). cbn [bind]. destruct (triv_glev_ok P sk HP pr true) as (ol & -> & Eol). cbn [bind].
  eexists. split; [reflexivity|]. split; [reflexivity|]. destruct W as (W1 & W2 & W3 & W4).
  constructor; cbn [rp_params rp_hw rp_pr rp_key rp_zero_lwe0 rp_one_lwe0 rp_zero_glwe1 rp_one_glwe1 rp_zero_ggsw1 rp_one_ggsw1 rp_zero_glev1 rp_one_glev1];
    try assumption; try reflexivity; try (eexists; split; [|eassumption]; reflexivity).
  exists ck. auto 10.
Qed.

(** ** Fresh ciphertexts *)
Lemma to_fft_form n' u eta tau delta (Hac : accurate X n' u eta tau delta) (Hn : (0 < n')%nat) (Hp2 : is_pow2 n' = true) (H4096 : (2 * n' <= 4096)%nat) (Hm8 : hw_x86 h = true -> (n' mod 8 = 0)%nat)
  ls cs cg g : 1 <= ls -> (1 <= cs)%nat -> ls * Z.of_nat cs < 64 -> ggsw_wf 64 (2 * n') k cg g ->
  exists gf, ggsw_to_fft X 64 (2 * n') k cg g = Ok gf /\ Forall2 (rowrep n' 64 k (ss_e n' u eta tau delta 64 k ls cs) (ss_s n' 64 k ls cs)) gf g.
Proof using X m h pr P.
  intros Hl Hc Hlc (Lg & Fg). assert (F : Forall (Forall (glwe_wf 64 (2 * n') k)) g) by (eapply Forall_impl; [|exact Fg]; intros r Hr; apply Hr).
  destruct (rows_to_fft_rep X n' u eta tau delta Hac Hn 64 word64 Hp2 H4096 h m Hm8 k g F) as (gf & Ef & R). exists gf. split.
  - unfold ggsw_to_fft. rewrite (ggsw_wf_valid 64 (2 * n') k cg g) by (split; assumption). exact Ef.
  - pose proof (fe_pos X n' u eta tau delta Hac Hn 64 word64 Hp2 H4096 (hw_x86 h) m Hm8 k pr ls cs Hl Hc Hlc) as FP.
    assert (A0 : (0 <= IZR (2 ^ (64 - 1)))%R) by (apply IZR_le; lia). assert (B0 : (0 <= IZR (2 ^ (ls - 1)))%R) by (apply IZR_le; apply Z.pow_nonneg; lia).
    destruct (FP _ A0) as (P1 & P2). destruct (FP _ B0) as (P3 & P4). pose proof (FftProofs3.Hu X n' u eta tau delta Hac) as HU. pose proof (FftProofs3.Heta X n' u eta tau delta Hac) as HE.
    clear - R P1 P2 P3 P4 HU HE. induction R as [|rf r gf g Hr _ IH]; constructor; [|assumption]. clear - Hr P1 P2 P3 P4 HU HE. unfold rowrep in *. induction Hr as [|c f cs' fs' Hc _ IH]; constructor; [|assumption].
    eapply crep_mono; [| |exact Hc].
    + unfold ss_e. apply mads_err_ge; lra.
    + unfold ss_s. pose proof (pos_INR (k * cs)). pose proof (Rmult_le_pos _ _ P2 P4). pose proof (Rmult_le_pos _ _ H H0). lra.
Qed.
Lemma renc_ggsw1_ok b rnd E : 0 <= E -> ggsw_rnd_ok N k cnt 64 E rnd -> exists c, renc_ggsw1 X pr P sk b rnd = Ok c /\ rencrypts A P sk E (CGgsw1 b) (RGgsw1 c).
Proof using All.
  intros HE Hr. destruct (enc_ggsw1_ok P sk HP Hsk pr b rnd E HE Hr) as (g & Eg & Pg). pose proof (top_size X h P B A HP Hok) as (EN & Hn & Hp2 & H4096 & Hm8).
  destruct (po_ss P HP) as (Hl3 & Hc3 & Hlc3). pose proof (encrypts_cwf P sk E _ _ Pg) as W. cbn [cwf] in W.
  destruct (to_fft_form n _ _ _ _ (fk_acc _ _ _ _ _ Hok) Hn Hp2 H4096 Hm8 (r_log (p_ss P)) (r_count (p_ss P)) cnt g Hl3 Hc3 Hlc3) as (gf & Ef & R); [rewrite <- EN; exact W|].
  rewrite <- EN in Ef. exists gf. unfold renc_ggsw1. rewrite Eg. cbn [bind]. split; [exact Ef|]. exists (KGgsw1 g). split; [exact R|exact Pg].
Qed.

(** ** Decryption *)
Lemma from_fft_rows n' u eta tau delta (Hac : accurate X n' u eta tau delta) (Hn : (0 < n')%nat) (Hp2 : is_pow2 n' = true) (H4096 : (2 * n' <= 4096)%nat) (Hm8 : hw_x86 h = true -> (n' mod 8 = 0)%nat)
  (Hr : f64_rounding (ef_fl X)) e s D : (untwist_err n' u eta tau delta e s + 3 / 2 <= IZR D)%R -> forall rf r, rowrep n' 64 k e s rf r -> Forall (glwe_wf 64 (2 * n') k) r ->
  exists r', mapM (glwe_from_fft X 64 (2 * n')) rf = Ok r' /\ Forall2 (fun c c' => exists d, c' = glwe_perturb 64 c d /\ SpecBoot.fft_err (2 * n') k D d) r r'.
Proof using X m h pr P HP.
  destruct (po_cbs P HP) as (Hl & Hc0 & Hlc). intros HD. induction 1 as [|f c rf r Hc _ IH]; intros W; [exists []; split; [reflexivity|constructor]|]. apply Forall_cons_iff in W as [Wc W].
  destruct (IH W) as (r' & Er & Fr). cbn [mapM].
  destruct (from_fft_rep X n' u eta tau delta Hac Hn 64 word64 Hp2 H4096 (hw_x86 h) m Hm8 k pr _ _ Hl Hc0 Hlc Hr e s f c D Hc Wc HD) as (d & Ed & Hd).
  rewrite Ed. cbn [bind]. rewrite Er. cbn [bind]. eexists. split; [reflexivity|]. constructor; [eauto|assumption].
Qed.
Lemma from_fft_rowss n' u eta tau delta (Hac : accurate X n' u eta tau delta) (Hn : (0 < n')%nat) (Hp2 : is_pow2 n' = true) (H4096 : (2 * n' <= 4096)%nat) (Hm8 : hw_x86 h = true -> (n' mod 8 = 0)%nat)
  (Hr : f64_rounding (ef_fl X)) e s D : (untwist_err n' u eta tau delta e s + 3 / 2 <= IZR D)%R -> forall gf g, Forall2 (rowrep n' 64 k e s) gf g -> Forall (Forall (glwe_wf 64 (2 * n') k)) g ->
  exists g', mapM (mapM (glwe_from_fft X 64 (2 * n'))) gf = Ok g' /\ Forall2 (Forall2 (fun c c' => exists d, c' = glwe_perturb 64 c d /\ SpecBoot.fft_err (2 * n') k D d)) g g'.
Proof using X m h pr P HP.
  intros HD. induction 1 as [|f c rf r Hc _ IH]; intros W; [exists []; split; [reflexivity|constructor]|]. apply Forall_cons_iff in W as [Wc W].
  destruct (IH W) as (r' & Er & Fr). cbn [mapM].
  destruct (from_fft_rows n' u eta tau delta Hac Hn Hp2 H4096 Hm8 Hr e s D HD f c Hc Wc) as (d & Ed & Hd).
  rewrite Ed. cbn [bind]. rewrite Er. cbn [bind]. eexists. split; [reflexivity|]. constructor; assumption.
Qed.
Lemma form_valid n' e s cg gf g : (0 < n')%nat -> Forall2 (rowrep n' 64 k e s) gf g -> ggsw_wf 64 (2 * n') k cg g -> ggsw_fft_valid (2 * n') k cg gf = true.
Proof using Type.
  intros Hn R (L & F). unfold ggsw_fft_valid. rewrite (F2_len _ _ _ R), L. replace (S k =? k + 1)%nat with true by (symmetry; apply Nat.eqb_eq; lia). cbn [andb].
  clear L. induction R as [|rf r gf g Hr R IH]; [reflexivity|]. apply Forall_cons_iff in F as [(Lr & _) F]. cbn [forallb]. rewrite (IH F), andb_true_r. rewrite (F2_len _ _ _ Hr), Lr, Nat.eqb_refl. cbn [andb].
  clear - Hr Hn. unfold rowrep in Hr. induction Hr as [|f c rf r ((A1 & A2 & A3) & _) Hr IH]; [reflexivity|]. cbn [forallb]. rewrite IH, andb_true_r. unfold glwe_fft_valid.
  assert (E : (2 * n' / 2 = n')%nat) by (rewrite Nat.mul_comm; apply Nat.div_mul; lia). rewrite E, A1, A3, !Nat.eqb_refl, andb_true_r. cbn [andb].
  apply forallb_forall. intros q Hq. apply Nat.eqb_eq. exact (proj1 (Forall_forall _ _) A2 q Hq).
Qed.
Definition perturbed (D : Z) (c c' : glwe) : Prop := exists d, c' = glwe_perturb 64 c d /\ SpecBoot.fft_err N k D d.
Lemma perturbed_glev D E log mm r r' : 0 <= D -> Forall2 (perturbed D) r r' -> Forall (glwe_wf 64 N k) r -> glev_enc N k 64 log E (s_glwe1 sk) mm r ->
  Forall (glwe_wf 64 N k) r' /\ glev_enc N k 64 log (E + D * (1 + Z.of_nat k * Z.of_nat N)) (s_glwe1 sk) mm r'.
Proof using Hsk.
  intros HD F W H. assert (G : forall j c', nth_error r' j = Some c' -> exists c, nth_error r j = Some c /\ perturbed D c c').
  { clear - F. induction F as [|c c' r r' Hc F IH]; intros [|j] x; cbn [nth_error]; try discriminate; [intros [= <-]; eauto|apply IH]. }
  assert (Q : forall j c', nth_error r' j = Some c' -> glwe_wf 64 N k c' /\ pnear N 64 (E + D * (1 + Z.of_nat k * Z.of_nat N)) (glwe_phase N (s_glwe1 sk) c') (pscale (2 ^ (64 - log * (Z.of_nat j + 1))) mm)).
  { intros j c' Hj. destruct (G j c' Hj) as (c & Hc & d & -> & Hd). pose proof (proj1 (Forall_forall _ _) W c (nth_error_In _ _ Hc)) as Wc.
    destruct (glwe_perturb_ok N 64 k c d word64 Wc (proj1 Hd)) as (Wp & Ph). split; [exact Wp|]. destruct (H j c Hc) as (_ & Hp).
    eapply pnear_peq; [symmetry; apply Ph| |].
    2:{ apply pnear_add; [exact Hp|]. apply (fft_err_phase N 64 k D d (s_glwe1 sk) HD Hd (so_glwe _ _ Hsk) (so_glweb _ _ Hsk)). }
    intros i Hi. unfold padd, p0. apply zeq_refl'. ring. }
  split.
  - apply Forall_forall. intros c' Hin. apply In_nth_error in Hin as (j & Hj). apply (Q j c' Hj).
  - intros j c' Hj. destruct (Q j c' Hj) as (Wc & Hp). split; [apply Wc|exact Hp].
Qed.
Lemma perturbed_ggsw D E b g g' : 0 <= D -> Forall2 (Forall2 (perturbed D)) g g' -> encrypts P sk E (CGgsw1 b) (KGgsw1 g) -> encrypts P sk (E + D * (1 + Z.of_nat k * Z.of_nat N)) (CGgsw1 b) (KGgsw1 g').
Proof using Hsk.
  intros HD F (V & W & L1 & L2 & R1 & R2).
  assert (G : forall j r', nth_error g' j = Some r' -> exists r, nth_error g j = Some r /\ Forall2 (perturbed D) r r').
  { clear - F. induction F as [|c c' r r' Hc F IH]; intros [|j] x; cbn [nth_error]; try discriminate; [intros [= <-]; eauto|apply IH]. }
  assert (LL : length g' = S k) by (rewrite <- (F2_len _ _ _ F); exact L1).
  assert (Wf : Forall (Forall (glwe_wf 64 N k)) g').
  { apply Forall_forall. intros r' Hin. apply In_nth_error in Hin as (j & Hj). destruct (G j r' Hj) as (r & Hr & Fr).
    pose proof (proj1 (Forall_forall _ _) W r (nth_error_In _ _ Hr)) as Wr. clear - Fr Wr. induction Fr as [|c c' r r' (d & -> & Hd) Fr IH]; [constructor|]. apply Forall_cons_iff in Wr as [Wc Wr]. constructor; [|now apply IH].
    apply (glwe_perturb_ok N 64 k c d word64 Wc (proj1 Hd)). }
  assert (LR : Forall (fun r => length r = cnt) g').
  { apply Forall_forall. intros r' Hin. apply In_nth_error in Hin as (j & Hj). destruct (G j r' Hj) as (r & Hr & Fr). rewrite <- (F2_len _ _ _ Fr). apply (proj1 (Forall_forall _ _) L2 r (nth_error_In _ _ Hr)). }
  split; [|split; [exact Wf|]].
  - apply ggsw_valid_iff. split; [exact LL|]. apply Forall_forall. intros r Hin. split; [exact (proj1 (Forall_forall _ _) LR r Hin)|].
    eapply Forall_impl; [|exact (proj1 (Forall_forall _ _) Wf r Hin)]. intros c Hc. apply Hc.
  - split; [exact LL|]. split; [exact LR|]. split.
    + intros i s r' Hs Hj. destruct (G i r' Hj) as (r & Hr & Fr). apply (perturbed_glev D E _ _ r r' HD Fr); [exact (proj1 (Forall_forall _ _) W r (nth_error_In _ _ Hr))|]. exact (R1 i s r Hs Hr).
    + intros r' Hj. destruct (G k r' Hj) as (r & Hr & Fr). apply (perturbed_glev D E _ _ r r' HD Fr); [exact (proj1 (Forall_forall _ _) W r (nth_error_In _ _ Hr))|]. exact (R2 r Hr).
Qed.

Lemma rdecrypts_ok E mm c : rencrypts A P sk E mm c -> decrypt_noise P B (ty_of mm) E < decrypt_bound P (ty_of mm) -> rdecrypts_to X pr P sk mm c.
Proof using All.
  intros (kc & R & H) HE. destruct c as [x|x|x|gf|x], kc as [y|y|y|g|y]; cbn [represents] in R; try contradiction.
  1-3,5: subst y; pose proof (encrypts_ty P sk _ _ _ H) as (_ & Ety); destruct mm; cbn [cty_of ty_of] in Ety; try discriminate; apply (decrypts_ok P sk HP Hsk pr E _ _ H HE).
  pose proof (encrypts_ty P sk _ _ _ H) as (_ & Ety). destruct mm; cbn [cty_of ty_of] in Ety; try discriminate. cbn [decrypt_noise ty_of] in HE.
  pose proof (top_size X h P B A HP Hok) as (EN & Hn & Hp2 & H4096 & Hm8). pose proof (encrypts_cwf P sk E _ _ H) as W. cbn [cwf] in W.
  assert (W' : Forall (Forall (glwe_wf 64 (2 * n) k)) g) by (rewrite <- EN; apply H).
  destruct (from_fft_rowss n _ _ _ _ (fk_acc _ _ _ _ _ Hok) Hn Hp2 H4096 Hm8 (fk_round _ _ _ _ _ Hok) _ _ (b_sel B) (fk_inv _ _ _ _ _ Hok) gf g R W') as (g' & Eg & Fg).
  pose proof (form_valid n _ _ cnt gf g Hn R ltac:(rewrite <- EN; exact W)) as V. rewrite <- EN in V, Eg, Fg.
  unfold rdecrypts_to, rdec_ggsw1, ggsw_from_fft. rewrite V, Eg. cbn [bind].
  pose proof HB as (_ & _ & _ & _ & _ & HS).
  exact (decrypts_ok P sk HP Hsk pr _ (CGgsw1 b) (KGgsw1 g') (perturbed_ggsw (b_sel B) E b g g' HS Fg H) HE).
Qed.
End Setup.
