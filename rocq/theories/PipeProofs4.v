(** Proofs: encrypted programs, one instruction and all of them. *)
From Coq Require Import Reals ZArith List Lia Lra Bool.
From Coquelicot Require Import Complex.
From Verif Require Import Base BitsLemmas Spec Alu AluProofs SpecAlu Circuits Graph MuxGraph SpecMux MuxGraphProofs MuxGraphProofs2 FheGraph SpecFhe FheProofs FheProofs5 SpecFluent FluentLib
  PolyRing Tfhe TfheGlwe Eval EvalFft SpecTfhe SpecGlwe SpecBoot SpecCbs SpecEval SpecFftCbs SpecEvalFft TfheProofs EvalProofs EvalFftProofs EvalFftProofs2 EvalFftProofs3 EvalFftProofs4
  SpecPipe PipeProofs PipeProofs2 Pipe SpecPipe2 PipeProofs3.
Import ListNotations.
Ltac Zify.zify_post_hook ::= idtac.
Open Scope Z_scope.

Lemma dotz_zeros n s : dotz (repeat 0 n) s = 0.
Proof. unfold dotz. revert s. induction n as [|n IH]; intros [|x s]; try reflexivity. cbn [repeat combine map]. cbn. apply IH. Qed.
Lemma interleave_map {A B} (f : A -> B) a b : map f (interleave a b) = interleave (map f a) (map f b).
Proof. revert b. induction a as [|x a IH]; intros [|y b]; try reflexivity. cbn [interleave map]. now rewrite IH. Qed.
Lemma bin_result_map {A B} op (f : A -> B) l : bin_result op (map f l) = map f (bin_result op l).
Proof.
  assert (R : removelast (map f l) = map f (removelast l)). { induction l as [|x l IH]; [reflexivity|]. cbn [map removelast]. destruct l as [|y l]; [reflexivity|]. cbn [map] in *. now rewrite IH. }
  destruct op; cbn [bin_result]; auto.
Qed.
Lemma nth_seq_app (bits out : list bool) : map (fun h => nth h (bits ++ out) false) (seq (length bits) (length out)) = out.
Proof.
  revert bits. induction out as [|b out IH]; intros bits; [reflexivity|]. cbn [length seq map]. f_equal.
  - rewrite app_nth2, Nat.sub_diag by lia. reflexivity.
  - specialize (IH (bits ++ [b])). rewrite app_length in IH. cbn [length] in IH. rewrite Nat.add_1_r in IH. rewrite <- IH at 2. apply map_ext. intros x. now rewrite <- app_assoc.
Qed.
Lemma bin_result_incl {A} op (l : list A) x : In x (bin_result op l) -> In x l.
Proof.
  assert (R : forall l : list A, In x (removelast l) -> In x l). { induction l0 as [|y l0 IH]; [auto|]. cbn [removelast]. destruct l0 as [|z l0]; [intros []|]. intros [H|H]; [now left|right; auto]. }
  destruct op; cbn [bin_result]; auto.
Qed.

Section P.
Context (X : ext) (m : mad_kernel) (h : hw) (pr : profile) (P : params) (B : bounds) (A : accuracy).
Context (HP : params_ok P) (HB : bounds_ok B) (Hok : fft_ok X h P B A) (sk : secret_key) (Hs : secret_ok P sk).
Context (pc : rproc) (Hpc : rproc_ok X A P B sk h pr pc).
Context (E0 W : Z).
Let sel := sel_noise P B (boot_noise P B).
Let E := Z.max E0 (2 * W * sel).
Context (HE0 : 0 <= E0) (HW : 1 <= W <= 128) (Hmargin : boot_margin P (E + switch_noise P B)).
Local Notation N := (p_N P).
Local Notation encb c b := (encrypts P sk E (CGlwe1 (FheGraph.pconst N b)) (KGlwe1 c)).

Definition msgs (bits : list bool) (t : cty) (r : nat) : ct :=
  match t with TLwe0 => CLwe0 false | TLwe1 => CLwe1 false | TGlwe1 => CGlwe1 (FheGraph.pconst N (nth r bits false)) | TGgsw1 => CGgsw1 false | TGlev1 => CGlev1 false end.
Definition cellE (t : cty) (_ : nat) : Z := match t with TGgsw1 => boot_noise P B | _ => E end.
Lemma Npos : (1 <= N)%nat. Proof. destruct (N_facts P HP) as (_ & HN & _). lia. Qed.
Lemma cells_ok store bits : Forall2 (fun c b => encb c b) store bits -> forall t r, rencrypts A P sk (cellE t r) (msgs bits t r) (store_cells pc store t r).
Proof.
  intros F t r. assert (PE : rp_params pc = P) by (apply (rk_params _ _ _ _ _ _ _ _ Hpc)). assert (EE : 0 <= E) by (unfold E; lia).
  destruct t; cbn [msgs cellE store_cells]; rewrite ?PE.
  - eapply rencrypts_weaken; [exact EE|]. exact (rk_zero_lwe0 _ _ _ _ _ _ _ _ Hpc).
  - exists (KLwe1 (lwe_new (p_k P * N))). split; [reflexivity|]. split.
    + split; [apply repeat_length|]. split; [|unfold torus; cbn; lia]. apply Forall_forall. intros x Hx. apply repeat_spec in Hx. subst. unfold torus. lia.
    + unfold lwe_phase, lwe_new. cbn [lwe_a lwe_b]. rewrite dotz_zeros. cbn [Z.b2z]. exists 0. split; [cbn; lia|]. reflexivity.
  - clear - F Hpc EE. revert r bits F. induction store as [|c store IH]; intros r bits F; inversion F as [|? b ? bits' H1 H2]; subst.
    + destruct r; cbn [nth]; (eapply rencrypts_weaken; [exact EE|]; exact (rk_zero_glwe1 _ _ _ _ _ _ _ _ Hpc)).
    + destruct r as [|r]; cbn [nth]; [|now apply IH]. exists (KGlwe1 c). split; [reflexivity|exact H1].
  - exact (rk_zero_ggsw1 _ _ _ _ _ _ _ _ Hpc).
  - eapply rencrypts_weaken; [exact EE|]. exact (rk_zero_glev1 _ _ _ _ _ _ _ _ Hpc).
Qed.

Lemma step_core st bits op ha hb c ds mc inputs sp : Forall2 (fun c b => encb c b) (p_store st) bits -> length ha = length hb -> Z.of_nat (length ha) <= W ->
  bin_circuit op (length ha) = Ok c -> diagrams_of c ds -> bin_compile op ds = Ok (mc, inputs) -> (forall n, scratch_ok P (sp n)) ->
  let out := c_fn c (interleave (map (fun h => nth h bits false) ha) (map (fun h => nth h bits false) hb)) in
  exists g outs, insert_and_connect gempty mc inputs (interleave ha hb) (length (p_store st)) = Ok (g, outs) /\ length outs = length out /\
    forall j o, nth_error outs j = Some o -> exists r, rvalue X m pc sp (store_cells pc (p_store st)) g o (None, Some (TGlwe1, (length (p_store st) + j)%nat, RGlwe1 r)) /\ encb r (nth j out false).
Proof.
  intros F Lh Lw Ec Ds Em Hsp out. destruct (bin_facts op _ c Ec) as (Ar & Ln). destruct (bin_compiled op c ds Ds) as (mc' & in' & Em' & Cp & Dm). rewrite Em in Em'. injection Em' as <- <-.
  destruct (cp_outs _ _ _ Cp) as (k & DS & Hv).
  assert (Li : length (interleave ha hb) = (2 * length ha)%nat) by (rewrite CircuitsProofs.interleave_length_min, Lh; lia).
  assert (LR : length (interleave ha hb) = length inputs) by (rewrite (cp_arity _ _ _ Cp); lia).
  assert (EN : edges_ok (@gempty fop fedge)) by (intros s t l []).
  destruct (insert_and_connect_ok gempty mc inputs (interleave ha hb) (length (p_store st)) k EN (cp_wf _ _ _ Cp) DS LR) as (g & outs & Ei & _ & Lo & V).
  assert (Hcell : forall r, cellE TGlwe1 r <= E) by (intros r; cbn; lia).
  assert (N0 : noise_ok P B cellE (@gempty fop fedge) (fun _ => 0)). { intros n o Hn. unfold node, gempty in Hn. cbn in Hn. destruct n; discriminate. }
  destruct (circuit_noise P B cellE E HB Npos Hmargin gempty mc inputs (interleave ha hb) (length (p_store st)) k (c_arity c) (fun _ => 0) (fun r _ => Hcell r) EN N0 (cp_wf _ _ _ Cp) DS LR Dm) as (g' & outs' & En & Ei' & _ & Nk & Fo).
  rewrite Ei in Ei'. injection Ei' as <- <-.
  assert (Lv : length (interleave (map (fun h => nth h bits false) ha) (map (fun h => nth h bits false) hb)) = c_arity c) by (rewrite <- interleave_map, map_length; lia).
  destruct (Hv _ Lv) as (Lk & Hvo). fold out in Lk, Hvo.
  exists g, outs. split; [exact Ei|]. split; [lia|]. intros j o Ho.
  assert (Hj : (j < k)%nat) by (rewrite <- Lo; apply nth_error_Some; congruence).
  apply (ds_outs _ _ _ DS) in Hj. destruct Hj as (n & Hn). destruct (V n j Hn) as (o' & Ho' & Fv). rewrite Ho in Ho'. injection Ho' as <-.
  assert (Mt : cells_typed (msgs bits)) by (intros t r; destruct t; reflexivity).
  assert (Ev : map (fun r => bit_of (msgs bits TGlwe1 r)) (interleave ha hb) = interleave (map (fun h => nth h bits false) ha) (map (fun h => nth h bits false) hb)).
  { rewrite <- interleave_map. apply map_ext. intros r. cbn [msgs bit_of]. pose proof Npos as Np. unfold FheGraph.pconst. destruct N as [|N']; [lia|]. reflexivity. }
  specialize (Fv N (msgs bits) (nth j out false) Npos Mt). rewrite Ev in Fv. specialize (Fv (Hvo n j Hn)).
  destruct (proj1 (rcircuit_refines X m h pr P B A HP HB Hok sk Hs pc sp (msgs bits) (store_cells pc (p_store st)) cellE g En Hpc Hsp (cells_ok _ _ F) Nk) o _ Fv) as ([c0 w0] & Rv & Q1 & Q2).
  cbn [fst snd] in Q1, Q2. destruct c0 as [c0|]; [contradiction|]. destruct w0 as [[[t' x'] r0]|]; [|contradiction]. destruct Q2 as (<- & <- & kc & Rp & Enc).
  destruct r0 as [x|x|r|x|x], kc as [y|y|y|y|y]; cbn [represents] in Rp; try contradiction; try (cbn [encrypts] in Enc; contradiction). subst y.
  exists r. split; [exact Rv|]. eapply encrypts_weaken; [|exact Enc].
  assert (Q : En o <= Z.of_nat (c_arity c) * sel) by (apply (proj1 (Forall_forall _ _) Fo); eapply nth_error_In; eauto).
  pose proof (sel_nonneg P B HB Npos) as Sn. fold sel in Sn. unfold E. etransitivity; [exact Q|]. etransitivity; [|apply Z.le_max_r]. apply Z.mul_le_mono_nonneg_r; [exact Sn|]. rewrite Ar. lia.
Qed.

(** The invariant: the ciphertexts of the store encrypt bits and the registers read off them hold the values. *)
Definition pinv (st : pstate) (v : pvals) : Prop := exists bits, Forall2 (fun c b => encb c b) (p_store st) bits /\
  forall r, Forall (fun x => (x < length bits)%nat) (p_regs st r) /\ Z.of_nat (length (p_regs st r)) = fst (v r) /\ uval (map (fun x => nth x bits false) (p_regs st r)) = snd (v r).

Lemma after_step st bits v i out (cs : list glwe) (outs : list nat) c : Forall2 (fun c b => encb c b) (p_store st) bits ->
  (forall r, Forall (fun x => (x < length bits)%nat) (p_regs st r) /\ Z.of_nat (length (p_regs st r)) = fst (v r) /\ uval (map (fun x => nth x bits false) (p_regs st r)) = snd (v r)) ->
  fst (v (pi_a i)) = fst (v (pi_b i)) -> 1 <= fst (v (pi_a i)) <= W -> bin_circuit (pi_op i) (length (p_regs st (pi_a i))) = Ok c ->
  out = c_fn c (interleave (map (fun x => nth x bits false) (p_regs st (pi_a i))) (map (fun x => nth x bits false) (p_regs st (pi_b i)))) ->
  length outs = length out -> length cs = length outs -> (forall j r, nth_error cs j = Some r -> encb r (nth j out false)) ->
  pinv {| p_regs := fun r => if (r =? pi_dst i)%nat then bin_result (pi_op i) (seq (length (p_store st)) (length outs)) else p_regs st r; p_store := p_store st ++ cs |} (pvals_step v i).
Proof.
  intros F R Ew Hw Ec -> Lo Lc Henc. set (out := c_fn c _) in *. exists (bits ++ out). split.
  { cbn [p_store]. apply Forall2_app; [exact F|]. assert (Lx : length cs = length out) by congruence. clear - Henc Lx. revert Henc Lx. generalize out. clear out. induction cs as [|x cs IH]; intros [|b out] Henc Lx; try discriminate; constructor.
    - apply (Henc 0%nat x eq_refl).
    - apply IH; [|now injection Lx]. intros j r Hj. apply (Henc (S j) r Hj). }
  assert (Ls : length (p_store st) = length bits) by (clear - F; induction F; cbn; congruence).
  intros r. cbn [p_regs]. unfold pvals_step. destruct (Nat.eqb_spec r (pi_dst i)) as [->|Hr].
  - destruct (R (pi_a i)) as (_ & La & Ua). destruct (R (pi_b i)) as (_ & Lb & Ub).
    destruct (bin_value (pi_op i) (length (p_regs st (pi_a i))) c (map (fun x => nth x bits false) (p_regs st (pi_a i))) (map (fun x => nth x bits false) (p_regs st (pi_b i))) Ec ltac:(lia) ltac:(apply map_length) ltac:(rewrite map_length; lia)) as (Q1 & Q2).
    fold out in Q1, Q2. rewrite Ls, Lo. cbn [fst snd]. rewrite <- bin_result_map, nth_seq_app, Q2, Ua, Ub, La. split; [|split; [|reflexivity]].
    + apply Forall_forall. intros x Hx. apply bin_result_incl in Hx. apply in_seq in Hx. rewrite app_length. lia.
    + rewrite <- (map_length (fun x => nth x (bits ++ out) false)), <- bin_result_map, nth_seq_app, Q1, La. reflexivity.
  - destruct (R r) as (Fr & Lr & Ur). split; [|split; [exact Lr|]].
    + eapply Forall_impl; [|exact Fr]. cbn. intros x Hx. rewrite app_length. lia.
    + rewrite <- Ur. f_equal. apply map_ext_in. intros x Hx. apply app_nth1. exact (proj1 (Forall_forall _ _) Fr x Hx).
Qed.

Lemma step_total st v i s0 : pinv st v -> fst (v (pi_a i)) = fst (v (pi_b i)) -> 1 <= fst (v (pi_a i)) <= W -> match pi_op i with BMul | BXor => False | _ => True end -> scratch_ok P s0 ->
  exists st', pstep X m pc st i st'.
Proof.
  intros (bits & F & R) Ew Hw Ho H0. destruct (R (pi_a i)) as (_ & La & _). destruct (R (pi_b i)) as (_ & Lb & _).
  destruct (bin_total (pi_op i) (length (p_regs st (pi_a i))) ltac:(lia) Ho) as (c & Ec). destruct (bin_facts _ _ _ Ec) as (Ar & Ln).
  assert (Kp : (0 < pout_len (pi_op i) (length (p_regs st (pi_a i))))%nat) by (destruct (pi_op i); cbn [pout_len]; lia).
  destruct (diagrams_exist c _ Kp) as (ds & _ & Ds); [intros u Hu; apply Ln; lia|]. destruct (bin_compiled (pi_op i) c ds Ds) as (mc & inputs & Em & _).
  destruct (step_core st bits (pi_op i) (p_regs st (pi_a i)) (p_regs st (pi_b i)) c ds mc inputs (fun _ => s0) F ltac:(lia) ltac:(lia) Ec Ds Em (fun _ => H0)) as (g & outs & Ei & Lo & V).
  assert (Ex : exists cs : list glwe, length cs = length outs /\ forall j o r, nth_error outs j = Some o -> nth_error cs j = Some r ->
    rvalue X m pc (fun _ => s0) (store_cells pc (p_store st)) g o (None, Some (TGlwe1, (length (p_store st) + j)%nat, RGlwe1 r))).
  { clear - V. assert (V' : forall j o, nth_error outs j = Some o -> exists r, rvalue X m pc (fun _ => s0) (store_cells pc (p_store st)) g o (None, Some (TGlwe1, (length (p_store st) + j)%nat, RGlwe1 r))).
    { intros j o Ho. destruct (V j o Ho) as (r & Hr & _). eauto. }
    clear V. revert V'. generalize (store_cells pc (p_store st)) as sc. generalize (length (p_store st)) as b. intros b sc. revert b. induction outs as [|o outs IH]; intros b V; [exists []; split; [reflexivity|intros [|j]; discriminate]|].
    destruct (V 0%nat o eq_refl) as (r & Hr). destruct (IH (S b)) as (cs & Lc & Hc).
    - intros j o' Hj. destruct (V (S j) o' Hj) as (r' & Hr'). exists r'. replace (S b + j)%nat with (b + S j)%nat by lia. exact Hr'.
    - exists (r :: cs). split; [cbn; congruence|]. intros [|j] o' r' H1 H2; [injection H1 as <-; injection H2 as <-; exact Hr|]. replace (b + S j)%nat with (S b + j)%nat by lia. eapply Hc; eassumption. }
  destruct Ex as (cs & Lc & Hc). eexists. apply (pstep_intro X m pc st i c ds mc inputs g outs (fun _ => s0) cs Ec Ds Em Ei); [|exact Lc|exact Hc]. intros n. rewrite (rk_params _ _ _ _ _ _ _ _ Hpc). exact H0.
Qed.
Lemma step_sound st v i st' : pinv st v -> fst (v (pi_a i)) = fst (v (pi_b i)) -> 1 <= fst (v (pi_a i)) <= W -> pstep X m pc st i st' -> pinv st' (pvals_step v i).
Proof.
  intros (bits & F & R) Ew Hw St. destruct St as [c ds mc inputs g outs sp cs Ec Ds Em Ei Hsp Lc Hc]. destruct (R (pi_a i)) as (_ & La & _). destruct (R (pi_b i)) as (_ & Lb & _).
  rewrite (rk_params _ _ _ _ _ _ _ _ Hpc) in Hsp.
  destruct (step_core st bits (pi_op i) (p_regs st (pi_a i)) (p_regs st (pi_b i)) c ds mc inputs sp F ltac:(lia) ltac:(lia) Ec Ds Em Hsp) as (g' & outs' & Ei' & Lo & V).
  rewrite Ei in Ei'. injection Ei' as <- <-. eapply after_step; try eassumption; [reflexivity|].
  intros j r Hj. assert (Hj' : (j < length outs)%nat) by (rewrite <- Lc; apply nth_error_Some; congruence). destruct (nth_error outs j) as [o|] eqn:Ho; [|apply nth_error_None in Ho; lia].
  destruct (V j o Ho) as (r' & Rv & Enc). pose proof (Hc j o r Ho Hj) as Rv'. pose proof (proj1 (rvalue_fun X m pc sp (store_cells pc (p_store st)) g) _ _ Rv _ Rv') as Q. injection Q as ->. exact Enc.
Qed.
Lemma run_ok s0 : scratch_ok P s0 -> forall is st v, pinv st v -> prog_ok W v is ->
  (exists st', prun X m pc st is st') /\ forall st', prun X m pc st is st' -> pinv st' (pvals_run v is).
Proof.
  intros H0. induction is as [|i is IH]; intros st v Iv Pk; cbn [prog_ok] in Pk.
  - split; [exists st; constructor|]. intros st' R. inversion R; subst. exact Iv.
  - destruct Pk as (Ew & Hw & Ho & Pk). destruct (step_total st v i s0 Iv Ew Hw Ho H0) as (st1 & S1). pose proof (step_sound st v i st1 Iv Ew Hw S1) as I1. split.
    + destruct (IH st1 _ I1 Pk) as ((st' & R) & _). exists st'. econstructor; eassumption.
    + intros st' R. inversion R as [|? ? st2 ? ? S2 R2]; subst. apply (IH st2); auto. now apply (step_sound st v i).
Qed.

Lemma pinv_holds st v : pinv st v -> forall r, reg_holds P sk E st r (v r).
Proof.
  intros (bits & F & R) r. destruct (R r) as (Fr & Lr & Ur). exists (map (fun x => nth x bits false) (p_regs st r)). split; [now rewrite map_length|]. split; [exact Ur|].
  clear - F Fr. induction Fr as [|x xs Hx _ IH]; constructor; auto. clear - F Hx. revert x Hx. induction F as [|c b store bits H F IH]; intros x Hx; [cbn in Hx; lia|]. destruct x as [|x]; [exists c; auto|]. apply IH. cbn in Hx. lia.
Qed.
Context (Hdec : E < 2 ^ 62).
Lemma dec_ok c b : encb c b -> dec_glwe1 pr P sk c = Ok (map Z.b2z (FheGraph.pconst N b)).
Proof.
  intros H. apply (rdecrypts_ok X m h pr P B A HP HB Hok sk Hs E (CGlwe1 (FheGraph.pconst N b)) (RGlwe1 c)); [|exact Hdec]. exists (KGlwe1 c). split; [reflexivity|exact H].
Qed.
Lemma enc_unique c b b' : encb c b -> encb c b' -> b = b'.
Proof.
  intros H H'. apply dec_ok in H. apply dec_ok in H'. rewrite H in H'. injection H' as Q. pose proof Npos as Np. unfold FheGraph.pconst in Q. destruct N as [|N']; [lia|]. cbn [map] in Q. destruct b, b'; try reflexivity; discriminate.
Qed.
Lemma holds_pinv st v : store_ok P sk E0 st -> (forall r, reg_holds P sk E0 st r (v r)) -> pinv st v.
Proof.
  intros S0 R0. assert (LE : E0 <= E) by (unfold E; lia).
  assert (Ex : exists bits, Forall2 (fun c b => encb c b) (p_store st) bits).
  { unfold store_ok in S0. induction S0 as [|c store (b & Hb) _ (bits & IH)]; [exists []; constructor|]. exists (b :: bits). constructor; [|exact IH]. eapply encrypts_weaken; eassumption. }
  destruct Ex as (bits & F). exists bits. split; [exact F|]. intros r. destruct (R0 r) as (bs & Lb & Ub & F2). rewrite <- Lb, <- Ub. clear Lb Ub.
  assert (K : Forall2 (fun x b => (x < length bits)%nat /\ nth x bits false = b) (p_regs st r) bs).
  { clear R0. revert F2. generalize (p_regs st r). intros hs F2. induction F2 as [|x b hs bs (c & Hc & He) _ IH]; constructor; auto.
    assert (He' : encb c b) by (eapply encrypts_weaken; eassumption). 
    assert (G : exists b', nth_error bits x = Some b' /\ encb c b'). { clear - F Hc. revert x Hc. induction F as [|c0 b0 store bits H0 F IH]; intros [|x] Hc; try discriminate; [injection Hc as ->; exists b0; auto|now apply IH]. }
    destruct G as (b' & Hb' & He2). split; [apply nth_error_Some; congruence|]. rewrite (nth_error_nth _ _ false Hb'). now apply (enc_unique c). }
  split; [|split].
  - clear - K. induction K; constructor; auto. tauto.
  - clear - K. induction K; cbn [length]; lia.
  - f_equal. clear - K. induction K as [|x b hs bs (_ & Q) _ IH]; cbn [map]; congruence.
Qed.
Lemma holds_decrypts st r x : reg_holds P sk E st r x -> reg_decrypts pr P sk st r x.
Proof.
  intros (bits & L & U & F). exists bits. split; [exact L|]. split; [exact U|]. clear L U. induction F as [|y b hs bits (c & Hc & He) _ IH]; constructor; [exists c; split; [exact Hc|now apply dec_ok]|exact IH].
Qed.
End P.
