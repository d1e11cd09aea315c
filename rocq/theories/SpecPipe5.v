(** Specification vocabulary for programs over plaintext and encrypted registers (not a model of code). *)
From Verif Require Import Base Spec Alu SpecAlu FheGraph TfheGlwe Eval SpecEval Pipe Pipe2 SpecPipe2 SpecPipe3 Pipe3 SpecPipe4 Pipe4.
Open Scope Z_scope.

(** What each register holds: whether it is a plaintext, its width and value, and a bound on its noise (0 for a plaintext). *)
Definition mvals := nat -> bool * pval.
Definition setm (v : mvals) (dst : nat) (x : bool * pval) : mvals := fun r => if (r =? dst)%nat then x else v r.

(** The documented effect of an instruction; the result is a plaintext if all operands are (a selection by a plaintext between two ciphertexts or mixed
    operands is a ciphertext). The noise is that of the encrypted instructions; trivial encryptions have none. *)
Definition mvals_step (sel : Z) (D : nat -> nat) (v : mvals) (i : minstr) : mvals :=
  match i with
  | MImm dst imm w => setm v dst (true, {| v_width := w; v_value := imm mod 2 ^ w; v_noise := 0 |})
  | MBin op dst a b => setm v dst (
      let '(pa, x) := v a in let '(pb, y) := v b in
      (pa && pb, {| v_width := binop_width op (v_width x); v_value := binop_value op (v_width x) (v_value x) (v_value y);
        v_noise := if pa && pb then 0 else match op with BMul => mul_noise sel D (v_width x) | BXor => v_noise x + v_noise y | _ => 2 * v_width x * sel end |}))
  | MShift op dst a s => setm v dst (
      let '(pa, x) := v a in let '(ps, k) := v s in
      (pa && ps, {| v_width := v_width x; v_value := shift_value op (v_width x) (v_value x) (v_value k);
        v_noise := if ps then v_noise x else (v_width x + v_width k) * sel |}))
  | MCmux dst s a b => setm v dst (
      let '(ps, k) := v s in let '(pa, x) := v a in let '(pb, y) := v b in
      (ps && pa && pb, {| v_width := v_width x; v_value := if v_value k =? 0 then v_value y else v_value x;
        v_noise := if ps then (if v_value k =? 0 then v_noise y else v_noise x) else Z.max (v_noise x) (v_noise y) + sel |}))
  | MNot dst a => setm v dst (let '(pa, x) := v a in (pa, {| v_width := v_width x; v_value := 2 ^ v_width x - 1 - v_value x; v_noise := v_noise x |}))
  | MMov dst a => setm v dst (v a)
  | MExt signed dst a w => setm v dst (let '(pa, x) := v a in
      (pa, {| v_width := Z.of_nat w; v_value := if signed then sint (v_width x) (v_value x) mod 2 ^ Z.of_nat w else v_value x; v_noise := v_noise x |}))
  | MTrunc dst a w => setm v dst (let '(pa, x) := v a in (pa, {| v_width := Z.of_nat w; v_value := v_value x mod 2 ^ Z.of_nat w; v_noise := v_noise x |}))
  end.

(** A check of an instruction, before running anything: the widths fit (128 bits are for ciphertexts only: plaintext instructions abort there, C02), and
    whatever goes into a circuit bootstrap has little enough noise. Plaintext shifts must not push bits over the top (C15). *)
Definition minstr_ok (boots : Z -> Prop) (sel : Z) (D : nat -> nat) (v : mvals) (i : minstr) : Prop :=
  match i with
  | MImm dst imm w => 1 <= w <= 32 /\ 0 <= imm < 2 ^ 32 /\ (imm < 2 ^ w \/ 2 ^ 32 - 2 ^ (w - 1) <= imm)
  | MBin op dst a b =>
      let '(pa, x) := v a in let '(pb, y) := v b in
      v_width x = v_width y /\
      if pa && pb then 1 <= v_width x <= 127
      else width_ok (v_width x) /\ match op with
        | BMul => ~ (v_width x = 33 \/ 65 <= v_width x <= 67) /\ boots (Z.max (v_noise x) (v_noise y)) /\ (16 < v_width x -> boots (mul_noise sel D (v_width x)))
        | BXor => True
        | _ => boots (Z.max (v_noise x) (v_noise y)) end
  | MShift op dst a s =>
      let '(pa, x) := v a in let '(ps, k) := v s in
      if ps then v_value k <= v_width x /\ if pa then 1 <= v_width x <= 127 /\ v_value k < 127 /\ ~ shift_unmasked op (v_width x) (v_value x) (v_value k) else width_ok (v_width x)
      else width_ok (v_width x) /\ 1 <= v_width k /\ v_width x <= 2 ^ v_width k /\ rot_width_ok op (Z.to_nat (v_width x)) /\ boots (Z.max (v_noise x) (v_noise k))
  | MCmux dst s a b =>
      let '(ps, k) := v s in
      v_width k = 1 /\ v_width (snd (v a)) = v_width (snd (v b)) /\ width_ok (v_width (snd (v a))) /\ (ps = false -> boots (v_noise k))
  | MNot dst a => let '(pa, x) := v a in pa = true -> v_width x <= 127
  | MMov dst a => True
  | MExt signed dst a w => let '(pa, x) := v a in width_ok (v_width x) /\ v_width x <= Z.of_nat w <= 128 /\ (pa = true -> signed = true -> Z.of_nat w <= 127)
  | MTrunc dst a w => let '(pa, x) := v a in width_ok (v_width x) /\ 1 <= Z.of_nat w <= v_width x /\ (pa = true -> Z.of_nat w <= 127)
  end.
Definition mvals_run (sel : Z) (D : nat -> nat) (v : mvals) (is : list minstr) : mvals := fold_left (mvals_step sel D) is v.
Fixpoint mprog_ok (boots : Z -> Prop) (sel : Z) (D : nat -> nat) (v : mvals) (is : list minstr) : Prop :=
  match is with [] => True | i :: is => minstr_ok boots sel D v i /\ mprog_ok boots sel D (mvals_step sel D v i) is end.

(** The registers hold the values: the plaintext ones in the clear, within their widths, and the others encrypted. *)
Definition plains_hold (ms : mstate) (v : mvals) : Prop :=
  forall r, match m_plain ms r with
            | Some (x, w) => v r = (true, {| v_width := w; v_value := x; v_noise := 0 |}) /\ 1 <= w <= 128 /\ 0 <= x < 2 ^ w
            | None => fst (v r) = false end.
Definition mholds (P : params) (sk : secret_key) (ms : mstate) (v : mvals) : Prop :=
  plains_hold ms v /\ exists v', xholds P sk (m_enc ms) v' /\ forall r, m_plain ms r = None -> v' r = snd (v r).
(** What the owner of the secret key reads in a register. *)
Definition mreg_shows (pr : profile) (P : params) (sk : secret_key) (ms : mstate) (r : nat) (plain : bool) (width value : Z) : Prop :=
  match m_plain ms r with
  | Some (x, w) => plain = true /\ w = width /\ x = value
  | None => plain = false /\ reg_decrypts pr P sk (m_enc ms) r (width, value)
  end.
