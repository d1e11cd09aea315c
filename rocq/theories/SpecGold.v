(** Vocabulary for the Goldilocks field: values of computations in F_p as integers modulo p, and the discrete Fourier transform given
    by a table of powers. *)
From Coq Require Import ZArith List.
From Verif Require Import Base PolyRing.
Import ListNotations.
Open Scope Z_scope.

(** p = 2^64 - 2^32 + 1 *)
Definition goldilocks : Z := 2 ^ 64 - 2 ^ 32 + 1.

(** The n-point transform with the table [tw] (entry e standing for the e-th power of the root), and cyclic convolution. *)
Definition dft (n : nat) (tw : list Z) (x : nat -> Z) (j : nat) : Z := zsum n (fun i => x i * nth ((i * j) mod n) tw 0).
Definition cyclic_conv (n : nat) (x y : nat -> Z) (k : nat) : Z := zsum n (fun i => x i * y ((k + n - i) mod n)%nat).

(** Computations in the field: what a program can do with its values. *)
Inductive fexp :=
| FNew (x : Z)                (* Fg::new / Fg::from of a u64 *)
| FZero | FOne
| FAdd (a b : fexp) | FSub (a b : fexp) | FMul (a b : fexp) | FMad (a b c : fexp) | FNeg (a : fexp)
| FAddR (a b : fexp) | FSubR (a b : fexp)   (* unreduced_add / unreduced_sub followed by reduce *)
| FPow (a : fexp) (e : Z)
| FInv (a : fexp)
| FRoot (k : Z).              (* nth_root_of_unity(2^k) *)
