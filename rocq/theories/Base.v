(** Common vocabulary of the model: Rust results, panics, machine integers and bit lists.

    Nothing here models a particular function of /repo; it models the Rust language features the code
    uses (Result, panics, u32/u128 overflow semantics). *)
From Coq Require Export List ZArith Bool Lia.
Export ListNotations.
Open Scope Z_scope.

(** Error values: the variants of parasol_cpu/src/error.rs that the modelled code returns
    (payloads such as the instruction id and pc are dropped). *)
Inductive err : Type :=
| EWidthMismatch
| EUnsupportedWidth
| EEncryptionMismatch
| EOutOfRange
| EAccessViolation
| EUnaligned
| EIllegalOperands
| ENotPlaintext
| ENotCiphertext
| EMixedData
| EPtrOverflow
| EOutOfMemory
| ETooManyBytes
| EInvalidInstruction
| EBranchOnCiphertext
| EOutOfGas
| EOther.

(** A Rust computation returns a value, returns [Err], or panics. *)
Inductive res (A : Type) : Type :=
| Ok (a : A)
| Err (e : err)
| Panic.
Arguments Ok {A} a.
Arguments Err {A} e.
Arguments Panic {A}.

Definition bind {A B} (r : res A) (f : A -> res B) : res B :=
  match r with Ok a => f a | Err e => Err e | Panic => Panic end.
Notation "x <- r ;; k" := (bind r (fun x => k)) (at level 61, r at next level, right associativity).
Notation "' p <- r ;; k" := (bind r (fun x => match x with p => k end))
  (at level 61, p pattern, r at next level, right associativity).

Definition is_panic {A} (r : res A) : bool := match r with Panic => true | _ => false end.

(** Build profile: in [Debug] arithmetic overflow panics, in [Release] (the default of
    `cargo build --release`; /repo/Cargo.toml:70-72 does not set overflow-checks) it wraps and a shift
    amount is reduced modulo the width. *)
Inductive profile := Debug | Release.

(** Unsigned w-bit machine arithmetic. *)
Definition uwrap (w : Z) (x : Z) : Z := x mod 2 ^ w.

(** [a << s] on a w-bit unsigned integer. *)
Definition ushl (p : profile) (w a s : Z) : res Z :=
  if (0 <=? s) && (s <? w) then Ok (uwrap w (a * 2 ^ s))
  else match p with Debug => Panic | Release => Ok (uwrap w (a * 2 ^ (s mod w))) end.

(** [a >> s] on a w-bit unsigned integer. *)
Definition ushr (p : profile) (w a s : Z) : res Z :=
  if (0 <=? s) && (s <? w) then Ok (a / 2 ^ s)
  else match p with Debug => Panic | Release => Ok (a / 2 ^ (s mod w)) end.

(** [a - b], [a + b] on w-bit unsigned integers. *)
Definition usub (p : profile) (w a b : Z) : res Z :=
  if b <=? a then Ok (a - b)
  else match p with Debug => Panic | Release => Ok (uwrap w (a - b)) end.

Definition uadd (p : profile) (w a b : Z) : res Z :=
  if a + b <? 2 ^ w then Ok (a + b)
  else match p with Debug => Panic | Release => Ok (uwrap w (a + b)) end.

Definition umul (p : profile) (w a b : Z) : res Z :=
  if a * b <? 2 ^ w then Ok (a * b)
  else match p with Debug => Panic | Release => Ok (uwrap w (a * b)) end.

(** [!a] on a w-bit unsigned integer. *)
Definition unot (w a : Z) : Z := 2 ^ w - 1 - a.

(** Two's complement reading of a w-bit value. *)
Definition sint (w a : Z) : Z := if a <? 2 ^ (w - 1) then a else a - 2 ^ w.

(** ** Bit lists, least significant bit first *)

Definition b2z (b : bool) : Z := if b then 1 else 0.

(** The unsigned integer a little-endian bit list denotes. *)
Fixpoint uval (l : list bool) : Z :=
  match l with [] => 0 | b :: l => b2z b + 2 * uval l end.

(** The low n bits of an integer, little-endian. *)
Fixpoint to_bits (n : nat) (z : Z) : list bool :=
  match n with O => [] | S n => Z.odd z :: to_bits n (z / 2) end.

(** The two's complement integer a little-endian bit list denotes. *)
Definition sval (l : list bool) : Z :=
  uval l - (if last l false then 2 ^ Z.of_nat (length l) else 0).

(** [a0; b0; a1; b1; ...] — [a.iter().zip(b).flat_map(|(a, b)| [a, b])]; stops at the shorter list. *)
Fixpoint interleave {A} (a b : list A) : list A :=
  match a, b with x :: a, y :: b => x :: y :: interleave a b | _, _ => [] end.
