(** Vocabulary of the scheme-switch theorems. *)
From Verif Require Import Base PolyRing Tfhe TfheGlwe TfheBoot TfheTrace TfheSwitch SpecTfhe SpecGlwe SpecBoot SpecTrace.
Open Scope Z_scope.

(** All pairs (x_i, x_j) with i <= j, row by row. *)
Fixpoint tri_pairs {A} (l : list A) : list (A * A) :=
  match l with [] => [] | x :: r => map (fun y => (x, y)) (x :: r) ++ tri_pairs r end.

(** [ssk] is a scheme-switch key for [sk]: it holds GLEV encryptions of s_i s_j for the pairs i <= j. *)
Definition ssk_enc (N k count : nat) (w log E : Z) (sk : list (list Z)) (ssk : list (list glwe)) : Prop :=
  Forall2 (fun p g => (length g = count /\ Forall (glwe_shape N k) g) /\
    glev_enc N k w log E sk (pmul N (coef (fst p)) (coef (snd p))) g) (tri_pairs sk) ssk.

(** The noise of a scheme switch: that of the input, seen through the key, and [k] gadget products with
    messages s_i s_j. *)
Definition ss_noise (N k count : nat) (w log E0 E : Z) : Z :=
  Z.of_nat N * E0 + Z.of_nat k * gadget_bound N count w log (Z.of_nat N * Z.of_nat N) E.
