(** Specification vocabulary for the instruction encoding: which instructions are well formed, and the documented layout. *)
From Verif Require Import Base Isa.

(** Operand ranges: registers x0..x63, widths 1..128, unsigned or signed 32-bit immediates. *)
Definition operand_ok (f : field) (x : Z) : Prop :=
  match f with
  | FReg => 0 <= x < 64
  | FU32 => 0 <= x < 2 ^ 32
  | FI32 | FOffset => - 2 ^ 31 <= x < 2 ^ 31
  | FWidth => 1 <= x <= 128
  | FUnused _ => False
  end.
Definition is_operand (f : field) : bool := match f with FUnused _ => false | _ => true end.
Definition instr_wf (i : instr) : Prop := Forall2 operand_ok (filter is_operand (shape (op i))) (operands i).

(** The number of bits an instruction's fields occupy above the opcode byte. *)
Definition shape_bits (fs : list field) : Z := fold_right (fun f n => field_bits f + n) 0 fs.

(** The documented layout of a word: opcode byte, then the operands side by side, widths modulo 128 and immediates in two's complement. *)
Definition field_image (f : field) (x : Z) : Z :=
  match f with FReg => x | FWidth => x mod 128 | _ => x mod 2 ^ 32 end.
Fixpoint fields_image (fs : list field) (xs : list Z) : Z :=
  match fs, xs with f :: fs, x :: xs => field_image f x + 2 ^ field_bits f * fields_image fs xs | _, _ => 0 end.

(** A word whose opcode byte is in the table. *)
Definition known_opcode (v : Z) : Prop := exists o, op_byte o = v mod 256.

(** The opcode assignment shared with the compiler (assembly.rs:356-481 comments, ParasolInstrFormats.td). *)
Definition documented_opcodes : list (opcode * Z) :=
  [(OStore, 1); (OLoad, 9); (OLoadI, 10); (OTrunc, 17); (OZext, 21); (OSext, 22); (OMove, 33); (ONot, 49); (OAnd, 50);
   (OOr, 51); (OXor, 52); (OAdd, 65); (OAddC, 66); (OSub, 69); (OSubB, 70); (ONeg, 73); (OMul, 81); (ORotl, 129);
   (ORotr, 130); (OShl, 133); (OShr, 134); (OShra, 135); (OCmpEq, 145); (OCmpGt, 149); (OCmpGtS, 150); (OCmpGe, 151);
   (OCmpGeS, 152); (OCmpLt, 153); (OCmpLtS, 154); (OCmpLe, 155); (OCmpLeS, 156); (OBranchNonZero, 177);
   (OBranchZero, 178); (OBranch, 181); (ORet, 186); (OCmux, 193); (ODbg, 240)].
