(** Vocabulary for the meaning of the instructions (not a model of code): what each instruction of the assembly language is
    documented to do (parasol_cpu/src/proc/assembly.rs:364-480 and the doc comments of proc/ops), instruction by instruction and in
    terms of numbers. It refers to the model only for the types of registers, memories and machine states. *)
From Verif Require Import Base Spec Alu SpecAlu Memory SpecMem Isa SpecIsa SpecCpu.
Open Scope Z_scope.

(** Instruction [i] is at the program counter: the eight plaintext bytes there are its little-endian encoding. *)
Definition instr_at (s : mach) (i : instr) : Prop :=
  m_pc s mod 8 = 0 /\ 0 <= m_pc s /\ m_pc s + 8 < 2 ^ 32 /\ instr_wf i /\
  exists bs, length bs = 8%nat /\ Forall byte_val bs /\ encode Release i = Ok (le_value bs) /\ holds (m_mem s) (m_pc s) (map BPlain bs).

(** A well-formed register holding the number [v] in [w] bits, encrypted or not. *)
Definition has (r : reg) (v w : Z) (e : bool) : Prop := reg_ok r /\ reg_value r = v /\ reg_width r = w /\ reg_enc r = e.

(** The instruction only sets register [d], and the next instruction follows. *)
Definition sets (s s' : mach) (d v w : Z) (e : bool) : Prop :=
  m_pc s' = m_pc s + 8 /\ m_mem s' = m_mem s /\ has (m_regs s' d) v w e /\ forall r, r <> d -> m_regs s' r = m_regs s r.

(** The instruction only moves the program counter. *)
Definition goes (s s' : mach) (pc : Z) : Prop :=
  m_pc s' = pc /\ m_mem s' = m_mem s /\ forall r, m_regs s' r = m_regs s r.

(** Two operands of [w] bits holding [a] and [b]: the result and its width. *)
Definition doc_binary (o : opcode) (w a b : Z) : option (Z * Z) :=
  match o with
  | OAdd => Some ((a + b) mod 2 ^ w, w)
  | OSub => Some ((a - b) mod 2 ^ w, w)
  | OMul => Some ((a * b) mod 2 ^ w, w)
  | OAnd => Some (Z.land a b, w)
  | OOr => Some (Z.lor a b, w)
  | OXor => Some (Z.lxor a b, w)
  | OCmpEq => Some (if a =? b then 1 else 0, 1)
  | OCmpGt => Some (if b <? a then 1 else 0, 1)
  | OCmpGe => Some (if b <=? a then 1 else 0, 1)
  | OCmpLt => Some (if a <? b then 1 else 0, 1)
  | OCmpLe => Some (if a <=? b then 1 else 0, 1)
  | OCmpGtS => Some (if sint w b <? sint w a then 1 else 0, 1)
  | OCmpGeS => Some (if sint w b <=? sint w a then 1 else 0, 1)
  | OCmpLtS => Some (if sint w a <? sint w b then 1 else 0, 1)
  | OCmpLeS => Some (if sint w a <=? sint w b then 1 else 0, 1)
  | _ => None
  end.

(** A [w]-bit value [a] shifted or rotated by [k]. *)
Definition doc_shift (o : opcode) (w a k : Z) : option Z :=
  match o with
  | OShl => Some ((a * 2 ^ k) mod 2 ^ w)
  | OShr => Some (a / 2 ^ k)
  | OShra => Some ((sint w a / 2 ^ k) mod 2 ^ w)
  | ORotl => Some ((a * 2 ^ (k mod w)) mod 2 ^ w + a / 2 ^ (w - k mod w))
  | ORotr => Some (a / 2 ^ (k mod w) + (a * 2 ^ (w - k mod w)) mod 2 ^ w)
  | _ => None
  end.

(** The gas an instruction costs, given whether each of its source registers is encrypted. *)
Definition doc_gas (o : opcode) (enc : list bool) : Z :=
  let priced (secret : bool) (g : Z) := if secret then g else 1 in
  match o, enc with
  | ORet, _ => 0
  | (OLoad | OLoadI | OStore | OBranchNonZero | OBranchZero | OBranch | OMove | ODbg | OSext | OZext | OTrunc), _ => 1
  | OMul, _ => priced (existsb (fun e => e) enc) 500000
  | (ORotl | ORotr | OShl | OShr | OShra), [_; amount] => priced amount 100000
  | _, _ => priced (existsb (fun e => e) enc) 100000
  end.

Definition ins (o : opcode) (l : list Z) : instr := {| op := o; operands := l |}.


(** Operands on which the two-operand instructions work: equal widths, at most 127 bits when both are plaintext, and not the
    widths at which encrypted multiplication aborts (C62). *)
Definition binary_ok (o : opcode) (w : Z) (ra rb : reg) : Prop :=
  reg_ok ra /\ reg_ok rb /\ reg_width ra = w /\ reg_width rb = w /\
  (w <= 127 \/ reg_enc ra || reg_enc rb = true) /\
  (o = OMul -> reg_enc ra || reg_enc rb = true -> w <> 33 /\ ~ 65 <= w <= 67).
