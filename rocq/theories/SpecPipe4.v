(** Specification vocabulary for encrypted programs with multiplication (not a model of code). *)
From Verif Require Import Base Spec Alu SpecAlu Graph MuxGraph SpecMux Circuits FheGraph TfheGlwe Eval SpecEval Pipe Pipe2 SpecPipe SpecPipe2 SpecPipe3 Pipe3.
From Verif Require Fluent.
Open Scope Z_scope.

(** The library's circuits with n inputs have a mux depth of at most D n. *)
Definition lib_depth (lib : mux_library) (D : nat -> nat) : Prop :=
  forall b c mc inputs, Fluent.builder b = Ok c -> lib b = Ok (mc, inputs) -> depth_at_most mc (D (c_arity c)).
(** The noise of a product of w-bit operands: up to 16 bits a single circuit with 2 w inputs, beyond that several with at most 4 w. *)
Definition mul_noise (sel : Z) (D : nat -> nat) (w : Z) : Z := Z.of_nat (D (Z.to_nat (if w <=? 16 then 2 * w else 4 * w))) * sel.

(** The effect and the check of an instruction: multiplication takes the product modulo 2^w; its operands and the noise of its own partial products go into
    circuit bootstraps; it aborts at the widths 33 and 65 to 67. *)
Definition yvals_step (sel : Z) (D : nat -> nat) (v : xvals) (i : yinstr) : xvals :=
  match i with
  | YX i => xvals_step sel v i
  | YMul dst a b => setv v dst {| v_width := v_width (v a); v_value := (v_value (v a) * v_value (v b)) mod 2 ^ v_width (v a); v_noise := mul_noise sel D (v_width (v a)) |}
  end.
Definition yinstr_ok (boots : Z -> Prop) (sel : Z) (D : nat -> nat) (v : xvals) (i : yinstr) : Prop :=
  match i with
  | YX i => xinstr_ok boots v i
  | YMul dst a b => v_width (v a) = v_width (v b) /\ width_ok (v_width (v a)) /\ ~ (v_width (v a) = 33 \/ 65 <= v_width (v a) <= 67) /\
      boots (Z.max (v_noise (v a)) (v_noise (v b))) /\ (16 < v_width (v a) -> boots (mul_noise sel D (v_width (v a))))
  end.
Definition yvals_run (sel : Z) (D : nat -> nat) (v : xvals) (is : list yinstr) : xvals := fold_left (yvals_step sel D) is v.
Fixpoint yprog_ok (boots : Z -> Prop) (sel : Z) (D : nat -> nat) (v : xvals) (is : list yinstr) : Prop :=
  match is with [] => True | i :: is => yinstr_ok boots sel D v i /\ yprog_ok boots sel D (yvals_step sel D v i) is end.
