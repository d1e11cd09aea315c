(** Specification vocabulary for encrypted programs with carries (not a model of code). *)
From Verif Require Import Base Spec Alu SpecAlu FheGraph TfheGlwe Eval SpecEval Pipe Pipe2 SpecPipe2 SpecPipe3 Pipe3 SpecPipe4 Pipe5.
Open Scope Z_scope.

(** w-bit a + b + c and its carry out, or a - b - c and its borrow out. *)
Definition carry_value (sub : bool) (w a b c : Z) : Z := (if sub then a - b - c else a + b + c) mod 2 ^ w.
Definition carry_bit (sub : bool) (w a b c : Z) : Z := b2z (if sub then a <? b + c else 2 ^ w <=? a + b + c).
Definition zvals_step (sel : Z) (D : nat -> nat) (v : xvals) (i : zinstr) : xvals :=
  match i with
  | ZY i => yvals_step sel D v i
  | ZCarry sub dst co a b cin =>
      let n := (2 * v_width (v a) + 1) * sel in
      setv (setv v dst {| v_width := v_width (v a); v_value := carry_value sub (v_width (v a)) (v_value (v a)) (v_value (v b)) (v_value (v cin)); v_noise := n |})
        co {| v_width := 1; v_value := carry_bit sub (v_width (v a)) (v_value (v a)) (v_value (v b)) (v_value (v cin)); v_noise := n |}
  end.
Definition zinstr_ok (boots : Z -> Prop) (sel : Z) (D : nat -> nat) (v : xvals) (i : zinstr) : Prop :=
  match i with
  | ZY i => yinstr_ok boots sel D v i
  | ZCarry sub dst co a b cin => dst <> co /\ v_width (v a) = v_width (v b) /\ width_ok (v_width (v a)) /\ v_width (v cin) = 1 /\
      boots (Z.max (Z.max (v_noise (v a)) (v_noise (v b))) (v_noise (v cin)))
  end.
Definition zvals_run (sel : Z) (D : nat -> nat) (v : xvals) (is : list zinstr) : xvals := fold_left (zvals_step sel D) is v.
Fixpoint zprog_ok (boots : Z -> Prop) (sel : Z) (D : nat -> nat) (v : xvals) (is : list zinstr) : Prop :=
  match is with [] => True | i :: is => zinstr_ok boots sel D v i /\ zprog_ok boots sel D (zvals_step sel D v i) is end.
