(** Programs over plaintext and encrypted registers (parasol_cpu/src/proc/ops): an instruction computes on plaintexts when all its operands are plaintexts,
    and otherwise on ciphertexts, with its plaintext operands encrypted trivially.

    Simplifications: as in Pipe3.v. Registers are in plaintext or in L1 GLWE form; the carry instructions, memory, branches and conversions are left out. *)
From Verif Require Import Base Alu Circuits Graph MuxGraph SpecMux FheGraph Tfhe TfheGlwe Eval EvalFft SpecEval SpecEvalFft SpecPipe Pipe Pipe2 Pipe3.
Open Scope Z_scope.

(** proc/mod.rs:101-105: a register is a plaintext (value, width), or the handles that [m_enc] holds for it. For a plaintext register [m_enc] holds
    whatever it was last lifted to, which nothing reads. *)
Record mstate := { m_enc : pstate; m_plain : nat -> option (Z * Z) }.
Inductive minstr :=
| MImm (dst : nat) (imm w : Z)
| MBin (op : binop) (dst a b : nat) | MShift (op : shiftop) (dst a s : nat) | MCmux (dst s a b : nat)
| MNot (dst a : nat) | MMov (dst a : nat) | MExt (signed : bool) (dst a w : nat) | MTrunc (dst a w : nat).
Definition minstr_dst (i : minstr) : nat :=
  match i with MImm d _ _ => d | MBin _ d _ _ => d | MShift _ d _ _ => d | MCmux d _ _ _ => d | MNot d _ => d | MMov d _ => d | MExt _ d _ _ => d | MTrunc d _ _ => d end.
Definition set_plain (p : nat -> option (Z * Z)) (dst : nat) (x : option (Z * Z)) : nat -> option (Z * Z) := fun r => if (r =? dst)%nat then x else p r.

(** ops/mod.rs:102-116 trivially_encrypt_value_l1glwe, on copies of the processor's encryptions of zero and one (proc/mod.rs:242-243). *)
Definition trivially_encrypt (p : profile) (pc : rproc) (st : pstate) (r : nat) (v w : Z) : res pstate :=
  bits <- convert_value_to_bits p v w ;;
  Ok (put st r (seq (length (p_store st)) (length bits)) (map (fun b : bool => if b then rp_one_glwe1 pc else rp_zero_glwe1 pc) bits)).
(** proc/mod.rs:205-220 register_to_l1glwe_by_trivial_lift. *)
Definition lift_operand (p : profile) (pc : rproc) (plain : nat -> option (Z * Z)) (st : pstate) (r : nat) : res pstate :=
  match plain r with Some (v, w) => trivially_encrypt p pc st r v w | None => Ok st end.

(** Widths of registers (proc/mod.rs:122-127) and check_register_width (proc/mod.rs:179-198); the width of a select (ops/cmux.rs:35-41). *)
Definition mwidth (ms : mstate) (r : nat) : Z := match m_plain ms r with Some (_, w) => w | None => Z.of_nat (length (p_regs (m_enc ms) r)) end.
Definition mcheck_width (ms : mstate) (a b : nat) : res unit :=
  if negb (mwidth ms a =? mwidth ms b) then Err EWidthMismatch
  else if (mwidth ms a <? 1) || (128 <? mwidth ms a) then Err EUnsupportedWidth else Ok tt.
Definition mcheck (ms : mstate) (i : minstr) : res unit :=
  match i with
  | MBin _ _ a b => mcheck_width ms a b
  | MCmux _ s a b => _ <- mcheck_width ms a b ;; if negb (mwidth ms s =? 1) then Err EWidthMismatch else Ok tt
  | _ => Ok tt
  end.

(** The plaintext branch of the instruction (Alu.v), taken when all operands are plaintexts: ops/{add,sub,mul,and,or,xor,comparisons}.rs,
    bitshift.rs:115-126, cmux.rs:43-58, not.rs:24-34, mov.rs, casting.rs, loadi.rs. *)
Definition plain_step (p : profile) (plain : nat -> option (Z * Z)) (i : minstr) : option (res reg) :=
  match i with
  | MImm _ imm w => Some (op_loadi p imm w)
  | MBin op _ a b => match plain a, plain b with Some (x, v), Some (y, w) => Some (exec_binop p op (RPlain x v) (RPlain y w)) | _, _ => None end
  | MShift op _ a s => match plain a, plain s with Some (x, v), Some (y, w) => Some (op_shift p op (RPlain x v) (RPlain y w)) | _, _ => None end
  | MCmux _ s a b => match plain s, plain a, plain b with
                     | Some (z, u), Some (x, v), Some (y, w) => Some (op_cmux p (RPlain z u) (RPlain x v) (RPlain y w)) | _, _, _ => None end
  | MNot _ a => match plain a with Some (x, v) => Some (op_not p (RPlain x v)) | None => None end
  | MMov _ a => match plain a with Some (x, v) => Some (op_mov (RPlain x v)) | None => None end
  | MExt signed _ a w => match plain a with Some (x, v) => Some (op_ext p signed (RPlain x v) (Z.of_nat w)) | None => None end
  | MTrunc _ a w => match plain a with Some (x, v) => Some (op_trunc p (RPlain x v) (Z.of_nat w)) | None => None end
  end.
(** The encrypted branch: which operands are lifted, and what is done then. Multiplication puts a plaintext operand second (ops/mul.rs:61-66); a
    shift by a plaintext rearranges the ciphertexts (bitshift.rs:127-140), by a ciphertext it lifts the value (bitshift.rs:141-150); a plaintext select
    picks one of the lifted operands (cmux.rs:59-75), an encrypted one needs muxes (cmux.rs:84-94). *)
Definition enc_step (plain : nat -> option (Z * Z)) (i : minstr) : list nat * yinstr :=
  match i with
  | MImm dst _ _ => ([], YX (XMov dst dst))
  | MBin op dst a b => ([a; b], match op with
      | BMul => match plain a with Some _ => YMul dst b a | None => YMul dst a b end
      | BXor => YX (XXor dst a b)
      | _ => YX (XBin {| pi_op := op; pi_dst := dst; pi_a := a; pi_b := b |}) end)
  | MShift op dst a s => match plain s with Some (y, _) => ([], YX (XShiftBy op dst a (Z.to_nat (uwrap 32 y)))) | None => ([a], YX (XShift op dst a s)) end
  | MCmux dst s a b => ([a; b], match plain s with Some (z, _) => YX (XMov dst (if negb (z =? 0) then a else b)) | None => YX (XCmux dst s a b) end)
  | MNot dst a => ([], YX (XNot dst a)) | MMov dst a => ([], YX (XMov dst a))
  | MExt signed dst a w => ([], YX (XExt signed dst a w)) | MTrunc dst a w => ([], YX (XTrunc dst a w))
  end.

Inductive mstep (X : ext) (m : mad_kernel) (p : profile) (pc : rproc) (lib : mux_library) (ms : mstate) (i : minstr) : mstate -> Prop :=
| ms_plain x w : plain_step p (m_plain ms) i = Some (Ok (RPlain x w)) ->
    mstep X m p pc lib ms i {| m_enc := m_enc ms; m_plain := set_plain (m_plain ms) (minstr_dst i) (Some (x, w)) |}
| ms_enc st1 st2 : plain_step p (m_plain ms) i = None -> mcheck ms i = Ok tt ->
    foldM (lift_operand p pc (m_plain ms)) (fst (enc_step (m_plain ms) i)) (m_enc ms) = Ok st1 ->
    ystep X m pc lib st1 (snd (enc_step (m_plain ms) i)) st2 ->
    mstep X m p pc lib ms i {| m_enc := st2; m_plain := set_plain (m_plain ms) (minstr_dst i) None |}.
Inductive mrun (X : ext) (m : mad_kernel) (p : profile) (pc : rproc) (lib : mux_library) : mstate -> list minstr -> mstate -> Prop :=
| mrun_nil ms : mrun X m p pc lib ms [] ms
| mrun_cons ms i ms' is ms'' : mstep X m p pc lib ms i ms' -> mrun X m p pc lib ms' is ms'' -> mrun X m p pc lib ms (i :: is) ms''.
