(** Specification vocabulary for encrypted programs with more instructions (not a model of code): the values of the registers and a static noise analysis. *)
From Verif Require Import Base Spec Alu SpecAlu FheGraph TfheGlwe Eval SpecEval Pipe Pipe2 SpecPipe2.
Open Scope Z_scope.

(** What each register holds: its width, its value, and a bound on the noise of its ciphertexts. *)
Record pval := { v_width : Z; v_value : Z; v_noise : Z }.
Definition xvals := nat -> pval.
Definition setv (v : xvals) (dst : nat) (x : pval) : xvals := fun r => if (r =? dst)%nat then x else v r.

(** The documented effect of an instruction, and the noise of its result: a circuit of muxes on n encrypted bits adds at most n times the noise [sel] of one
    CMUX and forgets that of its operands, exclusive or adds the noise of its operands, selection adds [sel], everything else keeps the noise. *)
Definition xvals_step (sel : Z) (v : xvals) (i : xinstr) : xvals :=
  match i with
  | XBin i => let a := v (pi_a i) in let b := v (pi_b i) in
      setv v (pi_dst i) {| v_width := binop_width (pi_op i) (v_width a); v_value := binop_value (pi_op i) (v_width a) (v_value a) (v_value b);
                           v_noise := 2 * v_width a * sel |}
  | XShift op dst a s =>
      setv v dst {| v_width := v_width (v a); v_value := shift_value op (v_width (v a)) (v_value (v a)) (v_value (v s)); v_noise := (v_width (v a) + v_width (v s)) * sel |}
  | XShiftBy op dst a s => setv v dst {| v_width := v_width (v a); v_value := shift_value op (v_width (v a)) (v_value (v a)) (Z.of_nat s); v_noise := v_noise (v a) |}
  | XXor dst a b => setv v dst {| v_width := v_width (v a); v_value := Z.lxor (v_value (v a)) (v_value (v b)); v_noise := v_noise (v a) + v_noise (v b) |}
  | XNot dst a => setv v dst {| v_width := v_width (v a); v_value := 2 ^ v_width (v a) - 1 - v_value (v a); v_noise := v_noise (v a) |}
  | XCmux dst s a b => setv v dst {| v_width := v_width (v a); v_value := if v_value (v s) =? 0 then v_value (v b) else v_value (v a);
                                     v_noise := Z.max (v_noise (v a)) (v_noise (v b)) + sel |}
  | XMov dst a => setv v dst (v a)
  | XExt signed dst a w => setv v dst {| v_width := Z.of_nat w; v_value := if signed then sint (v_width (v a)) (v_value (v a)) mod 2 ^ Z.of_nat w else v_value (v a); v_noise := v_noise (v a) |}
  | XTrunc dst a w => setv v dst {| v_width := Z.of_nat w; v_value := v_value (v a) mod 2 ^ Z.of_nat w; v_noise := v_noise (v a) |}
  end.
Definition xvals_run (sel : Z) (v : xvals) (is : list xinstr) : xvals := fold_left (xvals_step sel) is v.

(** A check of an instruction, before running anything: the widths fit, and whatever goes into a circuit bootstrap (the operands of circuits and the select bit of
    a selection) has little enough noise. *)
Definition width_ok (w : Z) : Prop := 1 <= w <= 128.
Definition xinstr_ok (boots : Z -> Prop) (v : xvals) (i : xinstr) : Prop :=
  match i with
  | XBin i => v_width (v (pi_a i)) = v_width (v (pi_b i)) /\ width_ok (v_width (v (pi_a i))) /\ match pi_op i with BMul | BXor => False | _ => True end /\
      boots (Z.max (v_noise (v (pi_a i))) (v_noise (v (pi_b i))))
  | XShift op dst a s => width_ok (v_width (v a)) /\ 1 <= v_width (v s) /\ v_width (v a) <= 2 ^ v_width (v s) /\ rot_width_ok op (Z.to_nat (v_width (v a))) /\
      boots (Z.max (v_noise (v a)) (v_noise (v s)))
  | XShiftBy op dst a s => width_ok (v_width (v a)) /\ Z.of_nat s <= v_width (v a)
  | XXor dst a b => v_width (v a) = v_width (v b) /\ width_ok (v_width (v a))
  | XNot dst a => True
  | XCmux dst s a b => v_width (v s) = 1 /\ v_width (v a) = v_width (v b) /\ boots (v_noise (v s))
  | XMov dst a => True
  | XExt signed dst a w => width_ok (v_width (v a)) /\ v_width (v a) <= Z.of_nat w <= 128
  | XTrunc dst a w => width_ok (v_width (v a)) /\ 1 <= Z.of_nat w <= v_width (v a)
  end.
Fixpoint xprog_ok (boots : Z -> Prop) (sel : Z) (v : xvals) (is : list xinstr) : Prop :=
  match is with [] => True | i :: is => xinstr_ok boots v i /\ xprog_ok boots sel (xvals_step sel v i) is end.

(** The registers hold the values: there are bits and noises of all ciphertexts in the store, such that the handles of each register name encryptions of the
    bits of its value with noise at most its bound. *)
Definition bits_of (bits : list bool) (hs : list nat) : list bool := map (fun h => nth h bits false) hs.
Definition xholds (P : params) (sk : secret_key) (st : pstate) (v : xvals) : Prop :=
  exists (bits : list bool) (noise : list Z), length noise = length bits /\
    Forall2 (fun c be => 0 <= snd be /\ encrypts P sk (snd be) (CGlwe1 (pconst (p_N P) (fst be))) (KGlwe1 c)) (p_store st) (combine bits noise) /\
    forall r, Forall (fun h => (h < length bits)%nat /\ nth h noise 0 <= v_noise (v r)) (p_regs st r) /\ 0 <= v_noise (v r) /\
      Z.of_nat (length (p_regs st r)) = v_width (v r) /\ uval (bits_of bits (p_regs st r)) = v_value (v r).
