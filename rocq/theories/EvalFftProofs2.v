(** Running operations through the FFT and on the integer model side by side. *)
From Coq Require Import Reals ZArith List Lia Lra Bool.
From Coquelicot Require Import Complex.
From Verif Require Import Base Alu AluProofs Graph MuxGraph MuxGraphProofs FheGraph FheProofs PolyRing Tfhe TfheGlwe TfheBoot TfheTrace TfheSwitch TfheCbs Eval SpecFhe SpecTfhe SpecGlwe SpecBoot SpecTrace SpecSwitch SpecCbs SpecEval
  FluentIntProofs TfheProofs TfheProofs2 TfheProofs3
  TfheGlweProofs TfheGlweProofs2 TfheGlweProofs3 TfheGlweProofs4 TfheBootProofs TfheBootProofs2 TfheBootProofs3 TfheBootProofs4 TfheSwitchProofs EvalProofs EvalProofs2 EvalProofs3 EvalProofs4.
From Verif Require Import Fft FftGlwe FftCbs EvalFft SpecFft SpecFftGlwe SpecFftCbs SpecEvalFft FftProofs FftProofs5 FftProofs6 FftGlweProofs FftGlweProofs2 FftGlweProofs3
  FftRep FftCbsProofs FftCbsProofs2 FftCbsProofs3 Props_Fft Props_FftGlwe Props_FftCbs EvalFftProofs.
Import ListNotations.
Ltac Zify.zify_post_hook ::= idtac.
Open Scope Z_scope.

Section Top.
Context (X : ext) (m : mad_kernel) (h : hw) (pr : profile) (P : params) (B : bounds) (A : accuracy) (HP : params_ok P) (HB : bounds_ok B) (Hok : fft_ok X h P B A).
Local Notation N := (p_N P). Local Notation k := (p_k P). Local Notation cnt := (r_count (p_cbs P)).
Local Notation n := (p_N P / 2)%nat.
Local Notation gform := (Forall2 (Forall2 (fourier_form n 64 k (sel_err A P) (sel_size P)))).

Lemma top_lg : exists lg, (1 <= lg <= 12)%nat /\ N = (2 ^ lg)%nat /\ n = (2 ^ (lg - 1))%nat /\ (hw_x86 h = true -> (4 <= lg)%nat).
Proof using HP Hok.
  destruct (N_facts P HP) as (H2 & HN & _ & _). pose proof (fk_N _ _ _ _ _ Hok) as [L U]. pose proof (fk_x86 _ _ _ _ _ Hok) as Hx.
  unfold is_pow2 in H2. apply andb_prop in H2 as [_ H2]. apply Nat.eqb_eq in H2. exists (Nat.log2 N).
  assert (L1 : (1 <= Nat.log2 N)%nat) by (change 1%nat with (Nat.log2 2); now apply Nat.log2_le_mono).
  assert (L2 : (Nat.log2 N <= 12)%nat) by (change 12%nat with (Nat.log2 4096); now apply Nat.log2_le_mono).
  split; [lia|]. split; [congruence|]. split.
  - rewrite <- H2 at 1. rewrite <- (half_pow (Nat.log2 N)) by lia. rewrite Nat.mul_comm. apply Nat.div_mul. lia.
  - intros Q. change 4%nat with (Nat.log2 16). apply Nat.log2_le_mono. auto.
Qed.
Lemma top_size : N = (2 * n)%nat /\ (0 < n)%nat /\ is_pow2 n = true /\ (2 * n <= 4096)%nat /\ (hw_x86 h = true -> (n mod 8 = 0)%nat).
Proof using HP Hok.
  destruct top_lg as (lg & H1 & H2 & H3 & H4). destruct (size lg h H1 H4) as (S1 & S2 & S3 & S4 & S5). rewrite H3. split; [|auto]. congruence.
Qed.
Definition EN := proj1 top_size.
Definition Hn := proj1 (proj2 top_size).
Definition Hp2 := proj1 (proj2 (proj2 top_size)).
Definition H4096 := proj1 (proj2 (proj2 (proj2 top_size))).
Definition Hm8 := proj2 (proj2 (proj2 (proj2 top_size))).
Definition Hac := fk_acc _ _ _ _ _ Hok.
Definition Hr := fk_round _ _ _ _ _ Hok.
Local Notation u := (acc_u A). Local Notation eta := (acc_eta A). Local Notation tau := (acc_tau A). Local Notation delta := (acc_delta A).
Local Notation fe := (fwd_err n u eta tau delta).
Local Notation A63 := (IZR (2 ^ (64 - 1))).
Lemma HDp : (prod_bound n u eta tau delta 64 k (r_log (p_pbs P)) (r_count (p_pbs P)) <= IZR (b_fp B))%R.
Proof using Hok. exact (fk_pbs _ _ _ _ _ Hok). Qed.
Lemma HDt : (key_bound n u eta tau delta (r_log (p_tr P)) (r_count (p_tr P)) (fe A63) (freq n A63) k <= IZR (b_fp B))%R.
Proof using Hok. rewrite <- key_bound_fft. exact (fk_tr _ _ _ _ _ Hok). Qed.
Lemma HDs : (key_bound n u eta tau delta (r_log (p_cbs P)) cnt (sel_err A P) (sel_size P) (S k) <= IZR (b_sel B))%R.
Proof using Hok. change (sel_err A P) with (ss_e n u eta tau delta 64 k (r_log (p_ss P)) (r_count (p_ss P))). change (sel_size P) with (ss_s n 64 k (r_log (p_ss P)) (r_count (p_ss P))). rewrite <- ss_bound. exact (fk_sel _ _ _ _ _ Hok). Qed.

Lemma t_cmux out a b g gf : glwe_wf 64 N k a -> glwe_wf 64 N k b -> ggsw_wf 64 N k cnt g -> gform gf g ->
  exists d, SpecBoot.fft_err N k (b_sel B) d /\
    cmux_fft X m h pr 64 (r_log (p_cbs P)) cnt N k out a b gf = cmux h pr 64 (r_log (p_cbs P)) cnt N k out a b g d /\
    forall r, cmux h pr 64 (r_log (p_cbs P)) cnt N k out a b g d = Ok r -> glwe_wf 64 N k r.
Proof using All. exact (cmux_rel X m h pr P B HP HB n u eta tau delta EN Hn Hp2 H4096 Hm8 Hac Hr HDp HDt HDs out a b g gf). Qed.
Lemma t_glev_cmux g gf : ggsw_wf 64 N k cnt g -> gform gf g -> forall out a b, Forall (glwe_wf 64 N k) out -> Forall (glwe_wf 64 N k) a -> Forall (glwe_wf 64 N k) b ->
  exists ds, (forall i, SpecBoot.fft_err N k (b_sel B) (ds i)) /\
    glev_cmux_fft X m h pr 64 (r_log (p_cbs P)) cnt N k out a b gf = glev_cmux h pr 64 (r_log (p_cbs P)) cnt N k out a b g ds /\
    forall r, glev_cmux h pr 64 (r_log (p_cbs P)) cnt N k out a b g ds = Ok r -> length r = length out /\ Forall (glwe_wf 64 N k) r.
Proof using All. exact (glev_cmux_rel X m h pr P B HP HB n u eta tau delta EN Hn Hp2 H4096 Hm8 Hac Hr HDp HDt HDs g gf). Qed.
Lemma t_multiply x g gf : glwe_wf 64 N k x -> ggsw_wf 64 N k cnt g -> gform gf g ->
  exists pe d, SpecBoot.fft_err N k (b_sel B) d /\ rev_multiply X m h pr P x gf = Ok (glwe_perturb 64 pe d) /\
    glwe_ggsw_mad pr 64 (r_log (p_cbs P)) cnt N k (glwe_new N k) x g = Ok pe /\ glwe_wf 64 N k (glwe_perturb 64 pe d).
Proof using All. exact (multiply_rel X m h pr P B HP HB n u eta tau delta EN Hn Hp2 H4096 Hm8 Hac Hr HDp HDt HDs x g gf). Qed.
Lemma t_cbs ck fk s x : key_words P ck -> key_fft X P ck = Ok fk -> scratch_ok P s ->
  exists f, fenv_ok P B f /\ res_rel (fun gf g => gform gf g /\ ggsw_wf 64 N k cnt g)
    (rev_cbs X m h pr P fk (ggsw_fft_zero N k cnt) x s) (ev_cbs h pr P ck (ggsw_new N k cnt) x f).
Proof using All. exact (cbs_rel X m h pr P B HP HB n u eta tau delta EN Hn Hp2 H4096 Hm8 Hac Hr HDp HDt HDs ck fk s x). Qed.
Lemma t_schsw ck fk s x : key_words P ck -> key_fft X P ck = Ok fk -> scratch_ok P s -> length x = cnt -> Forall (glwe_wf 64 N k) x ->
  exists f, fenv_ok P B f /\ res_rel (fun gf g => gform gf g /\ ggsw_wf 64 N k cnt g)
    (rev_scheme_switch X m h pr P fk (ggsw_fft_zero N k cnt) x) (ev_scheme_switch pr P ck (ggsw_new N k cnt) x f).
Proof using All. exact (schsw_rel X m h pr P B HP HB n u eta tau delta EN Hn Hp2 H4096 Hm8 Hac Hr HDp HDt HDs ck fk s x). Qed.
Lemma t_key ck : key_words P ck -> exists fk, key_fft X P ck = Ok fk /\ fk_ks fk = k_ks ck.
Proof using All. exact (key_fft_ok X m h pr P B HP HB n u eta tau delta EN Hn Hp2 H4096 Hm8 Hac Hr HDp HDt HDs ck). Qed.

(** ** Side by side *)
Definition cwf (c : cct) : Prop :=
  match c with KLwe0 _ | KLwe1 _ => True | KGlwe1 c => glwe_wf 64 N k c | KGgsw1 g => ggsw_wf 64 N k cnt g | KGlev1 l => length l = cnt /\ Forall (glwe_wf 64 N k) l end.
Definition rel (rc : rct) (c : cct) : Prop := represents A P rc c /\ cwf c.
Lemma encrypts_cwf sk E mm c : encrypts P sk E mm c -> cwf c.
Proof using Type.
  destruct mm, c; cbn [encrypts cwf]; try tauto. intros (V & W & _). apply ggsw_valid_iff in V as (V1 & V2). split; [assumption|].
  clear - V2 W. induction V2 as [|r g Hr _ IH]; [constructor|]. apply Forall_cons_iff in W as [W1 W]. constructor; [|now apply IH]. split; [apply Hr|assumption].
Qed.
Definition irel (a : fedge * option rct) (b : fedge * option cct) : Prop := fst a = fst b /\ opt_rel rel (snd a) (snd b).
Definition orel (a : routcome) (b : coutcome) : Prop :=
  opt_rel (represents A P) (fst a) (fst b) /\ opt_rel (fun x y => fst x = fst y /\ represents A P (snd x) (snd y)) (snd a) (snd b).

Lemma rel_ty rc c : represents A P rc c -> rty_of rc = cty_of c /\ rshape_of rc = shape_of c.
Proof using Type. destruct rc, c; cbn; tauto. Qed.
Lemma rshapes_eq ri ki : Forall2 irel ri ki -> rshapes ri = shapes ki.
Proof using Type.
  induction 1 as [|[l a] [l' b] ri ki (E & H) _ IH]; [reflexivity|]. unfold rshapes, shapes in *. cbn [map fst snd] in *. rewrite IH. f_equal. subst l'. f_equal.
  destruct a, b; cbn in H; try contradiction; [|reflexivity]. cbn. f_equal. apply rel_ty, H.
Qed.
Lemma irel_0 ri ki : Forall2 irel ri ki -> res_rel (opt_rel rel) (rin0 ri) (kin0 ki).
Proof using Type. intros H. destruct H as [|a b ri ki (_ & H) F]; cbn; [exact I|exact H]. Qed.
Lemma irel_1 ri ki : Forall2 irel ri ki -> res_rel (opt_rel rel) (rin1 ri) (kin1 ki).
Proof using Type. intros H. destruct H as [|a b ri ki _ H]; cbn; [exact I|]. destruct H as [|c d ri ki (_ & H) F]; cbn; [exact I|exact H]. Qed.
Lemma irel_l l ri ki : Forall2 irel ri ki -> res_rel (opt_rel rel) (rinl l ri) (kinl l ki).
Proof using Type.
  induction 1 as [|[l1 a] [l2 b] ri ki (E & H) _ IH]; [exact I|]. unfold rinl, kinl in *. cbn [find fst] in *. subst l2. destruct (fedge_eqb l1 l); [exact H|exact IH].
Qed.
Lemma rel_lwe0 a b : opt_rel rel a b -> res_rel eq (ras_lwe0 a) (as_lwe0 b).
Proof using Type. destruct a as [[]|], b as [[]|]; unfold rel; cbn; try tauto. Qed.
Lemma rel_lwe1 a b : opt_rel rel a b -> res_rel eq (ras_lwe1 a) (as_lwe1 b).
Proof using Type. destruct a as [[]|], b as [[]|]; unfold rel; cbn; try tauto. Qed.
Lemma rel_glwe a b : opt_rel rel a b -> res_rel (fun x y => x = y /\ glwe_wf 64 N k y) (ras_glwe a) (as_glwe b).
Proof using Type. destruct a as [[]|], b as [[]|]; unfold rel; cbn; try tauto. Qed.
Lemma rel_ggsw a b : opt_rel rel a b -> res_rel (fun x y => gform x y /\ ggsw_wf 64 N k cnt y) (ras_ggsw a) (as_ggsw b).
Proof using Type. destruct a as [[]|], b as [[]|]; unfold rel; cbn; try tauto. Qed.
Lemma rel_glev a b : opt_rel rel a b -> res_rel (fun x y => x = y /\ length y = cnt /\ Forall (glwe_wf 64 N k) y) (ras_glev a) (as_glev b).
Proof using Type. destruct a as [[]|], b as [[]|]; unfold rel; cbn; try tauto. Qed.

(** Two processors, one with its key and GGSW constants in Fourier form. *)
Record prel (rpc : rproc) (pc : proc) : Prop := {
  pl_P : rp_params rpc = P; pl_P' : pc_params pc = P; pl_h : rp_hw rpc = h; pl_h' : pc_hw pc = h; pl_pr : rp_pr rpc = pr; pl_pr' : pc_pr pc = pr;
  pl_key : key_fft X P (pc_key pc) = Ok (rp_key rpc); pl_words : key_words P (pc_key pc);
  pl_0l : rp_zero_lwe0 rpc = pc_zero_lwe0 pc; pl_1l : rp_one_lwe0 rpc = pc_one_lwe0 pc; pl_0g : rp_zero_glwe1 rpc = pc_zero_glwe1 pc; pl_1g : rp_one_glwe1 rpc = pc_one_glwe1 pc;
  pl_0v : rp_zero_glev1 rpc = pc_zero_glev1 pc; pl_1v : rp_one_glev1 rpc = pc_one_glev1 pc;
  pl_0w : gform (rp_zero_ggsw1 rpc) (pc_zero_ggsw1 pc); pl_1w : gform (rp_one_ggsw1 rpc) (pc_one_ggsw1 pc)
}.
Lemma rel_const rpc pc t b : prel rpc pc -> res_rel (represents A P) (rconst rpc t b) (kconst pc t b).
Proof using Type. intros []. destruct t, b; cbn; auto. Qed.

Lemma new_wf : glwe_wf 64 N k (glwe_new N k).
Proof using Type.
  split; [apply glwe_new_shape|]. split; cbn [glwe_new ga gb].
  - apply Forall_forall. intros p Hp. apply repeat_spec in Hp. subst. apply Forall_forall. intros x Hx. unfold zpoly in Hx. apply repeat_spec in Hx. subst. unfold torus. lia.
  - apply Forall_forall. intros x Hx. unfold zpoly in Hx. apply repeat_spec in Hx. subst. unfold torus. lia.
Qed.
Ltac step H := match type of H with
  | res_rel _ ?a ?b => let x := fresh "x" in let y := fresh "y" in destruct a as [x| |], b as [y| |]; cbn [res_rel] in H; try contradiction; cbn [bind]; try (subst; exact I); try (subst; reflexivity)
  end.
Ltac zenv s Hs := exists (env0 P s); split; [exact (env0_ok P B HB n EN s Hs)|].
Lemma run_rel rpc pc s rcells kcells op ri ki : prel rpc pc -> scratch_ok P s -> Forall2 irel ri ki ->
  (forall t r, op = FInput t r -> represents A P (rcells t r) (kcells t r)) ->
  exists f, fenv_ok P B f /\ res_rel orel (rrun_op X m rpc s rcells op ri) (krun_op pc f kcells op ki).
Proof using All.
  intros Hp Hs Hi Hc. unfold rrun_op, krun_op. rewrite (pl_P _ _ Hp), (pl_P' _ _ Hp), (pl_h _ _ Hp), (pl_h' _ _ Hp), (pl_pr _ _ Hp), (pl_pr' _ _ Hp). cbv zeta.
  pose proof (irel_0 _ _ Hi) as I0. pose proof (irel_1 _ _ Hi) as I1. pose proof (fun l => irel_l l _ _ Hi) as IL.
  destruct op.
  - (* FInput *) zenv s Hs. cbn. split; [|exact I]. now apply Hc.
  - (* FOutput *) zenv s Hs. step I0. destruct x as [x|], y as [y|]; cbn in I0; try contradiction; [|exact I]. destruct I0 as (R & _). destruct (rel_ty _ _ R) as (-> & _).
    destruct (cty_eqb (cty_of y) t); cbn; [|exact I]. split; [exact I|]. cbn. split; [reflexivity|exact R].
  - (* FSampleExtract *) zenv s Hs. step I0. apply rel_glwe in I0. step I0. destruct I0 as (-> & _). destruct (ev_sample_extract P (lwe_new (k * N)) y0 i); cbn; [split; [reflexivity|exact I]|reflexivity|exact I].
  - (* FKeyswitch *) zenv s Hs. step I0. apply rel_lwe1 in I0. step I0. subst x0. unfold rev_keyswitch, ev_keyswitch.
    destruct (key_fft_inv X P _ _ (pl_key _ _ Hp)) as (_ & _ & _ & ->).
    destruct (lwe_keyswitch _ _ _ _ _ _ _ _ _); cbn; [split; [reflexivity|exact I]|reflexivity|exact I].
  - (* FNot *) zenv s Hs. step I0. apply rel_glwe in I0. step I0. destruct I0 as (-> & _). rewrite (pl_1g _ _ Hp). cbn. split; [reflexivity|exact I].
  - (* FGlweAdd *) zenv s Hs. step I0. apply rel_glwe in I0. step I0. destruct I0 as (-> & _). step I1. apply rel_glwe in I1. step I1. destruct I1 as (-> & _). cbn. split; [reflexivity|exact I].
  - (* FCMux *)
    pose proof (IL ELow) as L. pose proof (IL EHigh) as H. pose proof (IL ESel) as C.
    destruct (rinl ELow ri) as [x| |], (kinl ELow ki) as [y| |]; cbn [res_rel] in L; try contradiction; cbn [bind]; try (zenv s Hs; subst; now auto).
    apply rel_glwe in L. destruct (ras_glwe x) as [a| |], (as_glwe y) as [a'| |]; cbn [res_rel] in L; try contradiction; cbn [bind]; try (zenv s Hs; subst; now auto). destruct L as (-> & W1).
    destruct (rinl EHigh ri) as [x1| |], (kinl EHigh ki) as [y1| |]; cbn [res_rel] in H; try contradiction; cbn [bind]; try (zenv s Hs; subst; now auto).
    apply rel_glwe in H. destruct (ras_glwe x1) as [b| |], (as_glwe y1) as [b'| |]; cbn [res_rel] in H; try contradiction; cbn [bind]; try (zenv s Hs; subst; now auto). destruct H as (-> & W2).
    destruct (rinl ESel ri) as [x2| |], (kinl ESel ki) as [y2| |]; cbn [res_rel] in C; try contradiction; cbn [bind]; try (zenv s Hs; subst; now auto).
    apply rel_ggsw in C. destruct (ras_ggsw x2) as [g| |], (as_ggsw y2) as [g'| |]; cbn [res_rel] in C; try contradiction; cbn [bind]; try (zenv s Hs; subst; now auto). destruct C as (R & W3).
    destruct (t_cmux (glwe_new N k) a' b' g' g W1 W2 W3 R) as (d & Hd & E & _).
    exists (env P s (fun _ => d) (fun _ => glwe_new N k) (fun _ _ => glwe_new N k)). split; [apply (env_ok P B HB n EN); intros; auto using (fp_zero P B HB n EN)|].
    unfold rev_cmux, ev_cmux, env. cbn [fe_sel]. rewrite E. destruct (cmux _ _ _ _ _ _ _ _ _ _ _ _); cbn; [split; [reflexivity|exact I]|reflexivity|exact I].
  - (* FGlevCMux *)
    pose proof (IL ELow) as L. pose proof (IL EHigh) as H. pose proof (IL ESel) as C.
    destruct (rinl ELow ri) as [x| |], (kinl ELow ki) as [y| |]; cbn [res_rel] in L; try contradiction; cbn [bind]; try (zenv s Hs; subst; now auto).
    apply rel_glev in L. destruct (ras_glev x) as [a| |], (as_glev y) as [a'| |]; cbn [res_rel] in L; try contradiction; cbn [bind]; try (zenv s Hs; subst; now auto). destruct L as (-> & _ & W1).
    destruct (rinl EHigh ri) as [x1| |], (kinl EHigh ki) as [y1| |]; cbn [res_rel] in H; try contradiction; cbn [bind]; try (zenv s Hs; subst; now auto).
    apply rel_glev in H. destruct (ras_glev x1) as [b| |], (as_glev y1) as [b'| |]; cbn [res_rel] in H; try contradiction; cbn [bind]; try (zenv s Hs; subst; now auto). destruct H as (-> & _ & W2).
    destruct (rinl ESel ri) as [x2| |], (kinl ESel ki) as [y2| |]; cbn [res_rel] in C; try contradiction; cbn [bind]; try (zenv s Hs; subst; now auto).
    apply rel_ggsw in C. destruct (ras_ggsw x2) as [g| |], (as_ggsw y2) as [g'| |]; cbn [res_rel] in C; try contradiction; cbn [bind]; try (zenv s Hs; subst; now auto). destruct C as (R & W3).
    assert (Wo : Forall (glwe_wf 64 N k) (repeat (glwe_new N k) cnt)) by (apply Forall_forall; intros c Hc'; apply repeat_spec in Hc'; subst; apply new_wf).
    destruct (t_glev_cmux g' g W3 R (repeat (glwe_new N k) cnt) a' b' Wo W1 W2) as (d & Hd & E & _).
    exists (env P s d (fun _ => glwe_new N k) (fun _ _ => glwe_new N k)). split; [apply (env_ok P B HB n EN); intros; auto using (fp_zero P B HB n EN)|].
    unfold rev_glev_cmux, ev_glev_cmux, env. cbn [fe_sel]. rewrite E. destruct (glev_cmux _ _ _ _ _ _ _ _ _ _ _ _); cbn; [split; [reflexivity|exact I]|reflexivity|exact I].
  - (* FMultiply *)
    pose proof (IL EGlwe) as L. pose proof (IL EGgsw) as C.
    destruct (rinl EGlwe ri) as [x| |], (kinl EGlwe ki) as [y| |]; cbn [res_rel] in L; try contradiction; cbn [bind]; try (zenv s Hs; subst; now auto).
    apply rel_glwe in L. destruct (ras_glwe x) as [a| |], (as_glwe y) as [a'| |]; cbn [res_rel] in L; try contradiction; cbn [bind]; try (zenv s Hs; subst; now auto). destruct L as (-> & W1).
    destruct (rinl EGgsw ri) as [x2| |], (kinl EGgsw ki) as [y2| |]; cbn [res_rel] in C; try contradiction; cbn [bind]; try (zenv s Hs; subst; now auto).
    apply rel_ggsw in C. destruct (ras_ggsw x2) as [g| |], (as_ggsw y2) as [g'| |]; cbn [res_rel] in C; try contradiction; cbn [bind]; try (zenv s Hs; subst; now auto). destruct C as (R & W3).
    destruct (t_multiply a' g' g W1 W3 R) as (pe & d & Hd & E & E' & _).
    exists (env P s (fun _ => d) (fun _ => glwe_new N k) (fun _ _ => glwe_new N k)). split; [apply (env_ok P B HB n EN); intros; auto using (fp_zero P B HB n EN)|].
    unfold ev_multiply. rewrite E, E'. unfold env. cbn. split; [reflexivity|exact I].
  - (* FCbs *)
    destruct (rin0 ri) as [x| |], (kin0 ki) as [y| |]; cbn [res_rel] in I0; try contradiction; cbn [bind]; try (zenv s Hs; subst; now auto).
    apply rel_lwe0 in I0. destruct (ras_lwe0 x) as [a| |], (as_lwe0 y) as [a'| |]; cbn [res_rel] in I0; try contradiction; cbn [bind]; try (zenv s Hs; subst; now auto). subst a'.
    destruct (t_cbs (pc_key pc) (rp_key rpc) s a (pl_words _ _ Hp) (pl_key _ _ Hp) Hs) as (f & Hf & R). exists f. split; [assumption|].
    destruct (rev_cbs _ _ _ _ _ _ _ _ _), (ev_cbs _ _ _ _ _ _ _); cbn [res_rel] in R; try contradiction; cbn; try (subst; now auto).
  - (* FSchemeSwitch *)
    pose proof (IL EUnary) as L. destruct (rinl EUnary ri) as [x| |], (kinl EUnary ki) as [y| |]; cbn [res_rel] in L; try contradiction; cbn [bind]; try (zenv s Hs; subst; now auto).
    apply rel_glev in L. destruct (ras_glev x) as [a| |], (as_glev y) as [a'| |]; cbn [res_rel] in L; try contradiction; cbn [bind]; try (zenv s Hs; subst; now auto). destruct L as (-> & L1 & W1).
    destruct (t_schsw (pc_key pc) (rp_key rpc) s a' (pl_words _ _ Hp) (pl_key _ _ Hp) Hs L1 W1) as (f & Hf & R). exists f. split; [assumption|].
    destruct (rev_scheme_switch _ _ _ _ _ _ _ _), (ev_scheme_switch _ _ _ _ _ _); cbn [res_rel] in R; try contradiction; cbn; try (subst; now auto).
  - zenv s Hs. pose proof (rel_const rpc pc t false Hp) as R. step R. cbn. split; [exact R|exact I].
  - zenv s Hs. pose proof (rel_const rpc pc t true Hp) as R. step R. cbn. split; [exact R|exact I].
  - zenv s Hs. cbn. split; exact I.
  - zenv s Hs. cbn. split; exact I.
  - zenv s Hs. pose proof (IL EUnary) as L. step L. apply rel_glwe in L. step L. destruct L as (-> & _). cbn. split; [reflexivity|exact I].
Qed.
End Top.
