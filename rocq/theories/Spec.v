(** Specification vocabulary: small definitions used only to state theorems; nothing here is a model of code. *)
From Verif Require Import Base.
From Coq Require Export Sorted.

(** ** Circuits *)

(** The adder's documented input order (add.rs:8-12). *)
Definition adder_inputs (cin : option bool) (a b : list bool) : list bool :=
  match cin with Some c => [c] | None => [] end ++
  interleave a b ++ skipn (length b) a ++ skipn (length a) b.

Definition carry_z (c : option bool) : Z := match c with Some c => b2z c | None => 0 end.
Definition is_some {A} (o : option A) : bool := match o with Some _ => true | None => false end.


Definition opt_list {A} (o : option A) : list A := match o with Some x => [x] | None => [] end.

(** x ? y for > (greater, not or_equal), >=, <, <=. *)
Definition rel (greater or_equal : bool) (x y : Z) : bool :=
  if greater then (if or_equal then x >=? y else x >? y) else (if or_equal then x <=? y else x <? y).

(** ** Combinations *)

(** c is a t-element subset of {lo .. hi-1}, written in increasing order. *)
Definition is_comb (lo hi t : nat) (c : list nat) : Prop :=
  length c = t /\ StronglySorted lt c /\ Forall (fun x => lo <= x < hi)%nat c.

Fixpoint lex_lt (a b : list nat) : Prop :=
  match a, b with
  | x :: a, y :: b => (x < y)%nat \/ x = y /\ lex_lt a b
  | _, _ => False
  end.

(** Binomial coefficients by Pascal's rule. *)
Fixpoint binom (n k : nat) : Z :=
  match n, k with
  | _, O => 1
  | O, S _ => 0
  | S n, S k => binom n k + binom n (S k)
  end.

