(** Proofs: encrypted programs. *)
From Coq Require Import Reals ZArith List Lia Lra Bool.
From Coquelicot Require Import Complex.
From Verif Require Import Base BitsLemmas Spec Alu AluProofs SpecAlu Circuits Graph MuxGraph SpecMux MuxGraphProofs MuxGraphProofs2 FheGraph SpecFhe FheProofs FheProofs5 SpecFluent FluentLib
  PolyRing Tfhe TfheGlwe Eval EvalFft SpecTfhe SpecGlwe SpecBoot SpecCbs SpecEval SpecFftCbs SpecEvalFft TfheProofs EvalProofs EvalFftProofs EvalFftProofs3 EvalFftProofs4
  SpecPipe PipeProofs PipeProofs2 Pipe SpecPipe2.
From Verif Require Fluent FluentInt.
Import ListNotations.
Ltac Zify.zify_post_hook ::= idtac.
Open Scope Z_scope.

(** ** The circuits of the instructions *)
Definition pout_len (op : binop) (w : nat) : nat := match op with BAdd | BSub => w + 1 | BCmp _ => 1 | _ => w end.
Lemma bin_facts op w c : bin_circuit op w = Ok c -> c_arity c = (2 * w)%nat /\ forall v, length v = (2 * w)%nat -> length (c_fn c v) = pout_len op w.
Proof.
  intros E. assert (K : forall b, Fluent.builder b = Ok c -> forall v, length v = c_arity c -> length (c_fn c v) = out_len b) by (intros b Hb; now apply out_len_ok).
  destruct op as [| | | | | |[|[|] gr oe]]; cbn [bin_circuit cmp_gen pout_len] in *; try discriminate.
  - assert (A : c_arity c = (2 * w)%nat). { unfold ripple_carry_adder in E. destruct (_ || _); [discriminate|]. injection E as <-. cbn. lia. }
    split; [exact A|]. intros v Hv. rewrite (K (Fluent.BAdd w w) E v) by lia. cbn [out_len]. lia.
  - assert (A : c_arity c = (2 * w)%nat). { unfold full_subtractor in E. destruct (_ =? _)%nat; [discriminate|]. injection E as <-. cbn. lia. }
    split; [exact A|]. intros v Hv. now rewrite (K (Fluent.BSub w) E v) by lia.
  - injection E as <-. split; [reflexivity|]. intros v _. cbn [c_fn make_and_circuit]. now rewrite map_length, seq_length.
  - injection E as <-. split; [reflexivity|]. intros v _. cbn [c_fn make_or_circuit]. now rewrite map_length, seq_length.
  - assert (A : c_arity c = (2 * w)%nat). { unfold compare_equal in E. destruct (_ =? _)%nat; [discriminate|]. now injection E as <-. }
    split; [exact A|]. intros v Hv. now rewrite (K (Fluent.BEq w) E v) by lia.
  - assert (A : c_arity c = (2 * w)%nat). { unfold compare_or_maybe_equal_signed in E. destruct (_ =? _)%nat; [discriminate|]. now injection E as <-. }
    split; [exact A|]. intros v Hv. now rewrite (K (Fluent.BCmp FluentInt.Signed w gr oe) E v) by lia.
  - assert (A : c_arity c = (2 * w)%nat). { unfold compare_or_maybe_equal in E. destruct (_ =? _)%nat; [discriminate|]. now injection E as <-. }
    split; [exact A|]. intros v Hv. now rewrite (K (Fluent.BCmp FluentInt.Unsigned w gr oe) E v) by lia.
Qed.
Lemma bin_total op w : (1 <= w)%nat -> match op with BMul | BXor => False | _ => True end -> exists c, bin_circuit op w = Ok c.
Proof.
  intros Hw Ho. assert (Z0 : (w =? 0)%nat = false) by (apply Nat.eqb_neq; lia).
  destruct op as [| | | | | |[|[|] gr oe]]; try contradiction; cbn [bin_circuit cmp_gen]; unfold ripple_carry_adder, full_subtractor, compare_equal, compare_or_maybe_equal, compare_or_maybe_equal_signed;
    rewrite ?Z0; cbn [orb]; eauto.
Qed.
Lemma split_last_result l : (1 <= length l)%nat -> exists x, split_last l = Ok (removelast l, x).
Proof. destruct l; cbn [length]; [lia|]. unfold split_last. eauto. Qed.
Lemma bin_value op (w : nat) c a b : bin_circuit op w = Ok c -> (1 <= w <= 128)%nat -> length a = w -> length b = w ->
  let r := bin_result op (c_fn c (interleave a b)) in
  Z.of_nat (length r) = binop_width op (Z.of_nat w) /\ uval r = binop_value op (Z.of_nat w) (uval a) (uval b).
Proof.
  intros E Hw La Lb. destruct (bin_facts op w c E) as (Ar & Ln). assert (Li : length (interleave a b) = (2 * w)%nat) by (rewrite CircuitsProofs.interleave_length_min, La, Lb; lia).
  specialize (Ln _ Li).
  assert (Ra : reg_ok (RCipher KL1Glwe a)) by (split; [cbn [reg_width]; lia|reflexivity]). assert (Rb : reg_ok (RCipher KL1Glwe b)) by (split; [cbn [reg_width]; lia|reflexivity]).
  assert (Wa : reg_width (RCipher KL1Glwe a) = Z.of_nat w) by (cbn [reg_width]; lia). assert (Wb : reg_width (RCipher KL1Glwe b) = Z.of_nat w) by (cbn [reg_width]; lia).
  assert (Gap : ~ mul_gap op (Z.of_nat w)) by (destruct op; try discriminate; cbn; tauto).
  destruct (binop_enc Release op (Z.of_nat w) _ _ Ra Rb Wa Wb eq_refl Gap) as (bits & Eb & Lr & Ur). cbn [reg_value] in Ur.
  assert (Ck : check_register_width (RCipher KL1Glwe a) (RCipher KL1Glwe b) = Ok tt) by (apply (check_ok _ _ (Z.of_nat w)); auto; lia).
  assert (RC : run_circuit c (interleave a b) = Ok (c_fn c (interleave a b))) by (unfold run_circuit; rewrite Li, Ar, Nat.eqb_refl; reflexivity).
  assert (Q : bits = bin_result op (c_fn c (interleave a b))); [|rewrite <- Q; auto].
  assert (Ews : Z.to_nat (reg_width (RCipher KL1Glwe a)) = w) by (rewrite Wa; lia).
  destruct op as [| | | | | |cp]; cbn [bin_circuit exec_binop bin_result pout_len] in *; try discriminate.
  - unfold op_add in Eb. rewrite Ck in Eb. cbn [bind lift] in Eb. rewrite Ews in Eb. unfold add_circuit, run_res in Eb. rewrite E in Eb. cbn [bind app] in Eb. rewrite RC in Eb. cbn [bind] in Eb.
    destruct (split_last_result (c_fn c (interleave a b)) ltac:(lia)) as (x & Es). rewrite Es in Eb. cbn [bind] in Eb. congruence.
  - unfold op_sub in Eb. rewrite Ck in Eb. cbn [bind lift] in Eb. rewrite Ews in Eb. unfold sub_circuit, run_res in Eb. rewrite E in Eb. cbn [bind app] in Eb. rewrite RC in Eb. cbn [bind] in Eb.
    destruct (split_last_result (c_fn c (interleave a b)) ltac:(lia)) as (x & Es). rewrite Es in Eb. cbn [bind] in Eb. congruence.
  - unfold op_and in Eb. rewrite Ck in Eb. cbn [bind lift] in Eb. rewrite Ews in Eb. injection E as <-. rewrite RC in Eb. cbn [bind] in Eb. congruence.
  - unfold op_or in Eb. rewrite Ck in Eb. cbn [bind lift] in Eb. rewrite Ews in Eb. injection E as <-. rewrite RC in Eb. cbn [bind] in Eb. congruence.
  - unfold op_cmp in Eb. rewrite Ck in Eb. cbn [bind lift] in Eb. rewrite Ews in Eb. unfold run_res in Eb. rewrite E in Eb. cbn [bind] in Eb. rewrite RC in Eb. cbn [bind] in Eb. congruence.
Qed.
Lemma bin_compiled op c ds : diagrams_of c ds -> exists mc inputs, bin_compile op ds = Ok (mc, inputs) /\ compiled c mc inputs /\ depth_at_most mc (c_arity c).
Proof.
  intros D. destruct (diagrams_compiled c ds D) as (g & i & g' & i' & E & E' & A & A'). unfold bin_compile. rewrite E. cbn [bind].
  destruct (bin_optimised op); [exists g', i'|exists g, i]; auto.
Qed.
