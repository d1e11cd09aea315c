(** Vocabulary for the statements about number theory helpers and polynomials. *)
From Coq Require Export Ring_theory.
From Verif Require Import Base.
Local Open Scope nat_scope.

Section Ring.
Context {R : Type} (rO rI : R) (radd rmul : R -> R -> R).
(** f 0 + f 1 + ... + f (n-1) *)
Fixpoint rsum (n : nat) (f : nat -> R) : R := match n with O => rO | S n => radd (rsum n f) (f n) end.
Fixpoint rpow (x : R) (n : nat) : R := match n with O => rI | S n => rmul (rpow x n) x end.
(** The coefficient of x^i: zero beyond the end of the vector. *)
Definition coef (a : list R) (i : nat) : R := nth i a rO.
(** Two coefficient vectors denote the same polynomial. *)
Definition same_poly (a b : list R) : Prop := forall i, coef a i = coef b i.
(** [d] is the degree of [a]. *)
Definition has_degree (a : list R) (d : nat) : Prop := coef a d <> rO /\ forall i, d < i -> coef a i = rO.
(** The coefficients of the product, by the convolution formula. *)
Definition conv (a b : list R) (k : nat) : R := rsum (S k) (fun i => rmul (coef a i) (coef b (k - i))).
Definition value (a : list R) (x : R) : R := rsum (length a) (fun i => rmul (coef a i) (rpow x i)).
End Ring.

(** Removing [e] and shifting the larger elements down. *)
Definition drop_element (e : nat) (d : list nat) : list nat := map (fun y => if y <? e then y else pred y) (filter (fun y => negb (y =? e)) d).

(** The integer nearest to a / b, ties upwards. *)
Definition nearest (a b q : Z) : Prop := (2 * (q * b - a) <= b /\ 2 * (a - q * b) < b)%Z.
(** Positions i <= j of a list, row by row. *)
Definition upper_pairs {A} (l : list A) : list (A * A) :=
  flat_map (fun i => match nth_error l i with Some a => map (fun b => (a, b)) (skipn i l) | None => [] end) (seq 0 (length l)).
