(** Operations, circuits, set-up, encryption and decryption through the FFT. *)
From Coq Require Import Reals ZArith List Lia Lra Bool.
From Coquelicot Require Import Complex.
From Verif Require Import Base Alu AluProofs Graph MuxGraph MuxGraphProofs FheGraph FheProofs PolyRing Tfhe TfheGlwe TfheBoot TfheTrace TfheSwitch TfheCbs Eval SpecFhe SpecTfhe SpecGlwe SpecBoot SpecTrace SpecSwitch SpecCbs SpecEval
  FluentIntProofs TfheProofs TfheProofs2 TfheProofs3
  TfheGlweProofs TfheGlweProofs2 TfheGlweProofs3 TfheGlweProofs4 TfheBootProofs TfheBootProofs2 TfheBootProofs3 TfheBootProofs4 TfheSwitchProofs EvalProofs EvalProofs2 EvalProofs3 EvalProofs4 Props_Trace Props_Switch.
From Verif Require Import Fft FftGlwe FftCbs EvalFft SpecFft SpecFftGlwe SpecFftCbs SpecEvalFft FftProofs FftProofs5 FftProofs6 FftGlweProofs FftGlweProofs2 FftGlweProofs3
  FftRep FftCbsProofs FftCbsProofs2 FftCbsProofs3 Props_Fft Props_FftGlwe Props_FftCbs EvalFftProofs EvalFftProofs2.
Import ListNotations.
Ltac Zify.zify_post_hook ::= idtac.
Open Scope Z_scope.

Scheme rvalue_min := Minimality for rvalue Sort Prop
with rvinputs_min := Minimality for rvinputs Sort Prop.
Combined Scheme rvalue_rvinputs_min from rvalue_min, rvinputs_min.

Lemma rvalue_fun X m pc sp cells g :
  (forall n o, rvalue X m pc sp cells g n o -> forall o', rvalue X m pc sp cells g n o' -> o' = o) /\
  (forall es ins, rvinputs X m pc sp cells g es ins -> forall ins', rvinputs X m pc sp cells g es ins' -> ins' = ins).
Proof.
  apply rvalue_rvinputs_min.
  - intros n op ins o Hn _ IH He o' H'. inversion H' as [n' op' ins' o'' Hn' Hi' He']; subst. rewrite Hn in Hn'. injection Hn' as <-.
    apply IH in Hi'. subst ins'. congruence.
  - intros ins' H'. now inversion H'.
  - intros s t l es c w ins _ IHv _ IHi ins' H'. inversion H' as [|s' t' l' es' c' w' ins'' Hv Hi]; subst. apply IHi in Hi. apply IHv in Hv. congruence.
Qed.

Section Ops.
Context (X : ext) (m : mad_kernel) (h : hw) (pr : profile) (P : params) (B : bounds) (A : accuracy) (HP : params_ok P) (HB : bounds_ok B) (Hok : fft_ok X h P B A).
Context (sk : secret_key) (Hsk : secret_ok P sk).
Local Notation N := (p_N P). Local Notation k := (p_k P). Local Notation cnt := (r_count (p_cbs P)).

Lemma r_lwe0 E b x : rencrypts A P sk E (CLwe0 b) (RLwe0 x) -> encrypts P sk E (CLwe0 b) (KLwe0 x).
Proof using Type. intros (c & R & H). destruct c; cbn in R; try contradiction. now subst. Qed.
Lemma r_glwe E b x : rencrypts A P sk E (CGlwe1 b) (RGlwe1 x) -> encrypts P sk E (CGlwe1 b) (KGlwe1 x).
Proof using Type. intros (c & R & H). destruct c; cbn in R; try contradiction. now subst. Qed.
Lemma r_glev E b x : rencrypts A P sk E (CGlev1 b) (RGlev1 x) -> encrypts P sk E (CGlev1 b) (KGlev1 x).
Proof using Type. intros (c & R & H). destruct c; cbn in R; try contradiction. now subst. Qed.
Lemma r_ggsw E b x : rencrypts A P sk E (CGgsw1 b) (RGgsw1 x) -> exists g, Forall2 (Forall2 (fourier_form (N / 2) 64 k (sel_err A P) (sel_size P))) x g /\ encrypts P sk E (CGgsw1 b) (KGgsw1 g).
Proof using Type. intros (c & R & H). destruct c; cbn in R; try contradiction. eauto. Qed.

Lemma rproc_proc rpc : rproc_ok X A P B sk h pr rpc -> exists pc, proc_ok P B sk pc /\ prel X h pr P A rpc pc.
Proof using Hsk.
  intros [E1 E2 E3 Ha Hs (ck & K1 & K2 & K3 & K4 & K5) Z1 O1 Z2 O2 Z3 O3 Z4 O4].
  apply r_lwe0 in Z1, O1. apply r_glwe in Z2, O2. apply r_glev in Z4, O4. destruct (r_ggsw _ _ _ Z3) as (g0 & R0 & G0). destruct (r_ggsw _ _ _ O3) as (g1 & R1 & G1).
  exists {| pc_params := P; pc_hw := h; pc_pr := pr; pc_key := ck; pc_zero_lwe0 := rp_zero_lwe0 rpc; pc_one_lwe0 := rp_one_lwe0 rpc; pc_zero_glwe1 := rp_zero_glwe1 rpc; pc_one_glwe1 := rp_one_glwe1 rpc;
    pc_zero_ggsw1 := g0; pc_one_ggsw1 := g1; pc_zero_glev1 := rp_zero_glev1 rpc; pc_one_glev1 := rp_one_glev1 rpc |}.
  split; constructor; cbn; try assumption; try reflexivity. split; [|auto].
  rewrite <- (so_lwe _ _ Hsk). symmetry. exact (F2_len _ _ _ (ko_bs _ _ _ _ K1)).
Qed.

Lemma rmatched_split ms rcs Es : rmatched A P sk ms rcs Es -> exists cs, matched P sk ms cs Es /\ Forall2 (irel P A) rcs cs.
Proof using Type.
  induction 1 as [|l mm c E ms cs Es He H (ks & M & F)]; [exists []; split; constructor|].
  destruct mm as [mm|], c as [c|]; cbn in He; try contradiction.
  - destruct He as (kc & R & He). exists ((l, Some kc) :: ks). split; constructor; try assumption. split; [reflexivity|]. cbn. split; [assumption|]. eapply encrypts_cwf; eassumption.
  - exists ((l, None) :: ks). split; constructor; try exact I; try assumption. split; [reflexivity|exact I].
Qed.

Lemma out_join E o co ro : encrypts_out P sk E o co -> orel P A ro co -> rencrypts_out A P sk E o ro.
Proof using Type.
  destruct o as [o1 o2], co as [c1 c2], ro as [r1 r2]. unfold encrypts_out, orel, rencrypts_out. cbn [fst snd]. intros (H1 & H2) (R1 & R2). split.
  - destruct o1, c1, r1; cbn in *; try contradiction; try exact I. eexists. eauto.
  - destruct o2 as [[[? ?] ?]|], c2 as [[[? ?] ?]|], r2 as [[[? ?] ?]|]; cbn in *; try contradiction; try exact I.
    destruct H2 as (-> & -> & H2), R2 as ([= -> ->] & R2). repeat split. eexists. eauto.
Qed.

Definition not_input (op : fop) : Prop := forall t r, op <> FInput t r.
Lemma input_dec op : (exists t r, op = FInput t r) \/ not_input op.
Proof using Type. destruct op; try (right; intros ? ?; discriminate). left. eauto. Qed.
Lemma exec_cells cells cells' op ins : not_input op -> exec_op N cells op ins = exec_op N cells' op ins.
Proof using Type. intros H. destruct op; try reflexivity. now destruct (H t r). Qed.
Lemma noise_cells cell cell' op ns : not_input op -> op_noise P B cell op ns = op_noise P B cell' op ns.
Proof using Type. intros H. destruct op; try reflexivity. now destruct (H t r). Qed.

Lemma rop_refines rpc s cells rcells cell op ins rins ns o : rproc_ok X A P B sk h pr rpc -> scratch_ok P s ->
  (forall t r, rencrypts A P sk (cell t r) (cells t r) (rcells t r)) -> rmatched A P sk ins rins ns -> op_cond P op ns ->
  exec_op N cells op ins = Ok o -> exists ro, rexec_op X m rpc s rcells op rins = Ok ro /\ rencrypts_out A P sk (op_noise P B cell op ns) o ro.
Proof using All.
  intros Hpc Hs Hcells Hm Hc He. destruct (rproc_proc rpc Hpc) as (pc & Kpc & Rpc). destruct (rmatched_split _ _ _ Hm) as (kins & Mk & Fk).
  unfold rexec_op. rewrite (pl_P _ _ _ _ _ _ _ Rpc), (rshapes_eq _ _ _ _ Fk).
  assert (Vv : validate N op (shapes kins) = validate N op ins) by (apply validate_same; exact (matched_same P sk _ _ _ Mk)).
  destruct (input_dec op) as [(t & r & ->)|NI].
  - unfold exec_op in He. rewrite <- Vv in He. destruct (validate N (FInput t r) (shapes kins)) as [[]| |]; try discriminate. cbn [bind run_op] in *. injection He as <-.
    unfold rrun_op. cbv zeta. eexists. split; [reflexivity|]. split; [apply Hcells|exact I].
  - pose proof (pk_zero_lwe0 _ _ _ _ Kpc) as EZ.
    rewrite (exec_cells cells (fun _ _ => CLwe0 false) op ins NI) in He.
    destruct (run_rel X m h pr P B A HP HB Hok rpc pc s rcells (fun _ _ => KLwe0 (pc_zero_lwe0 pc)) op rins kins Rpc Hs Fk) as (f & Hf & R); [intros t r ->; now destruct (NI t r)|].
    destruct (op_refines P B sk pc f HP HB Hsk Kpc Hf (fun _ _ => CLwe0 false) (fun _ _ => KLwe0 (pc_zero_lwe0 pc)) (fun _ _ => 0) op ins kins ns o (fun _ _ => EZ) Mk Hc He) as (co & Eco & Henc).
    unfold kexec_op in Eco. rewrite (pk_params _ _ _ _ Kpc) in Eco. destruct (validate N op (shapes kins)) as [[]| |]; try discriminate. cbn [bind] in *. rewrite Eco in R.
    destruct (rrun_op _ _ _ _ _ _ _) as [ro| |]; cbn [res_rel] in R; try contradiction. exists ro. split; [reflexivity|].
    rewrite (noise_cells cell (fun _ _ => 0) op ns NI). eapply out_join; eassumption.
Qed.

Lemma rop_reflects rpc s cells rcells op ins rins ns ro : rproc_ok X A P B sk h pr rpc -> scratch_ok P s -> rmatched A P sk ins rins ns ->
  rexec_op X m rpc s rcells op rins = Ok ro -> exists o, exec_op N cells op ins = Ok o.
Proof using All.
  intros Hpc Hs Hm He. destruct (rproc_proc rpc Hpc) as (pc & Kpc & Rpc). destruct (rmatched_split _ _ _ Hm) as (kins & Mk & Fk).
  unfold rexec_op in He. rewrite (pl_P _ _ _ _ _ _ _ Rpc), (rshapes_eq _ _ _ _ Fk) in He.
  assert (Vv : validate N op (shapes kins) = validate N op ins) by (apply validate_same; exact (matched_same P sk _ _ _ Mk)).
  destruct (input_dec op) as [(t & r & ->)|NI].
  - unfold exec_op. rewrite <- Vv. destruct (validate N (FInput t r) (shapes kins)) as [[]| |]; try discriminate. eexists. reflexivity.
  - destruct (run_rel X m h pr P B A HP HB Hok rpc pc s rcells (fun _ _ => KLwe0 (pc_zero_lwe0 pc)) op rins kins Rpc Hs Fk) as (f & Hf & R); [intros t r ->; now destruct (NI t r)|].
    destruct (validate N op (shapes kins)) as [[]| |] eqn:EV; try discriminate. cbn [bind] in He. rewrite He in R.
    destruct (krun_op pc f (fun _ _ => KLwe0 (pc_zero_lwe0 pc)) op kins) as [co| |] eqn:EK; cbn [res_rel] in R; try contradiction.
    apply (op_reflects P sk pc f cells (fun _ _ => KLwe0 (pc_zero_lwe0 pc)) op ins kins ns co (pk_params _ _ _ _ Kpc) Mk).
    unfold kexec_op. rewrite (pk_params _ _ _ _ Kpc), EV. exact EK.
Qed.

Lemma rencrypts_weaken E E' mm c : E <= E' -> rencrypts A P sk E mm c -> rencrypts A P sk E' mm c.
Proof using Type. intros L (kc & R & H). exists kc. split; [assumption|]. eapply encrypts_weaken; eassumption. Qed.
Lemma rencrypts_out_weaken E E' o c : E <= E' -> rencrypts_out A P sk E o c -> rencrypts_out A P sk E' o c.
Proof using Type.
  intros L (H1 & H2). split.
  - destruct (fst o), (fst c); cbn in *; try assumption. eapply rencrypts_weaken; eassumption.
  - destruct (snd o) as [[[? ?] ?]|], (snd c) as [[[? ?] ?]|]; cbn in *; try assumption. destruct H2 as (-> & -> & H2). repeat split. eapply rencrypts_weaken; eassumption.
Qed.

Lemma rcircuit_refines rpc sp cells rcells cell g E : rproc_ok X A P B sk h pr rpc -> (forall i, scratch_ok P (sp i)) ->
  (forall t r, rencrypts A P sk (cell t r) (cells t r) (rcells t r)) -> noise_ok P B cell g E ->
  (forall n o, fvalue N cells g n o -> exists ro, rvalue X m rpc sp rcells g n ro /\ rencrypts_out A P sk (E n) o ro) /\
  (forall es ins, finputs N cells g es ins -> exists rins, rvinputs X m rpc sp rcells g es rins /\
     rmatched A P sk ins rins (map (fun e => (snd e, E (fst (fst e)))) es)).
Proof using All.
  intros Hpc Hf Hcells Hn. apply fvalue_finputs_min.
  - intros i op ins o Hop _ (rins & Hk & Hm) He. destruct (Hn i op Hop) as (Hc & Hle).
    destruct (rop_refines rpc (sp i) cells rcells cell op ins rins _ o Hpc (Hf i) Hcells Hm Hc He) as (ro & Ero & Henc).
    exists ro. split; [econstructor; eassumption|]. eapply rencrypts_out_weaken; eassumption.
  - exists []. split; constructor.
  - intros s t l es c w ins _ (ro & Hv & He) _ (rins & Hi & Hm). destruct ro as [rc rw]. exists ((l, rc) :: rins). split.
    + econstructor; eassumption.
    + cbn [map fst snd]. constructor; [|assumption]. apply He.
Qed.
Lemma rcircuit_reflects rpc sp cells rcells cell g E : rproc_ok X A P B sk h pr rpc -> (forall i, scratch_ok P (sp i)) ->
  (forall t r, rencrypts A P sk (cell t r) (cells t r) (rcells t r)) -> noise_ok P B cell g E ->
  (forall n ro, rvalue X m rpc sp rcells g n ro -> exists o, fvalue N cells g n o /\ rencrypts_out A P sk (E n) o ro) /\
  (forall es rins, rvinputs X m rpc sp rcells g es rins -> exists ins, finputs N cells g es ins /\
     rmatched A P sk ins rins (map (fun e => (snd e, E (fst (fst e)))) es)).
Proof using All.
  intros Hpc Hf Hcells Hn. apply rvalue_rvinputs_min.
  - intros i op rins ro Hop _ (ins & Hk & Hm) He. destruct (Hn i op Hop) as (Hc & Hle).
    destruct (rop_reflects rpc (sp i) cells rcells op ins rins _ ro Hpc (Hf i) Hm He) as (o & Eo).
    destruct (rop_refines rpc (sp i) cells rcells cell op ins rins _ o Hpc (Hf i) Hcells Hm Hc Eo) as (ro' & Ero & Henc).
    rewrite Ero in He. injection He as ->. exists o. split; [econstructor; eassumption|]. eapply rencrypts_out_weaken; eassumption.
  - exists []. split; constructor.
  - intros s t l es c w ins _ (co & Hv & He) _ (kins & Hi & Hm). destruct co as [kc kw]. exists ((l, kc) :: kins). split.
    + econstructor; eassumption.
    + cbn [map fst snd]. constructor; [|assumption]. apply He.
Qed.
End Ops.
