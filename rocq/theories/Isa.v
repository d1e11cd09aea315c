(** Model of the instruction set and its 64-bit encoding: parasol_cpu/src/proc/assembly.rs.

    The code is generated by the macro define_op! (lines 22-354) from the table at lines 359-481. The model keeps that
    structure: [shape] is the table, [encode] and [decode] interpret it the way the generated match arms do. *)
From Verif Require Import Base.

(** assembly.rs:359-481, the 37 instruction names. *)
Inductive opcode :=
| OStore | OLoad | OLoadI | OTrunc | OZext | OSext | OMove | ONot | OAnd | OOr | OXor | OAdd | OAddC | OSub | OSubB | ONeg | OMul
| ORotl | ORotr | OShl | OShr | OShra | OCmpEq | OCmpGt | OCmpGtS | OCmpGe | OCmpGeS | OCmpLt | OCmpLtS | OCmpLe | OCmpLeS
| OBranchNonZero | OBranchZero | OBranch | ORet | OCmux | ODbg.

(** The discriminants, assembly.rs:246-250 with the table's first column (365-480). *)
Definition op_byte (o : opcode) : Z :=
  match o with
  | OStore => 0x01 | OLoad => 0x09 | OLoadI => 0x0A | OTrunc => 0x11 | OZext => 0x15 | OSext => 0x16 | OMove => 0x21
  | ONot => 0x31 | OAnd => 0x32 | OOr => 0x33 | OXor => 0x34 | OAdd => 0x41 | OAddC => 0x42 | OSub => 0x45 | OSubB => 0x46
  | ONeg => 0x49 | OMul => 0x51 | ORotl => 0x81 | ORotr => 0x82 | OShl => 0x85 | OShr => 0x86 | OShra => 0x87
  | OCmpEq => 0x91 | OCmpGt => 0x95 | OCmpGtS => 0x96 | OCmpGe => 0x97 | OCmpGeS => 0x98 | OCmpLt => 0x99 | OCmpLtS => 0x9A
  | OCmpLe => 0x9B | OCmpLeS => 0x9C | OBranchNonZero => 0xB1 | OBranchZero => 0xB2 | OBranch => 0xB5 | ORet => 0xBA
  | OCmux => 0xC1 | ODbg => 0xF0
  end.

Definition all_opcodes : list opcode :=
  [OStore; OLoad; OLoadI; OTrunc; OZext; OSext; OMove; ONot; OAnd; OOr; OXor; OAdd; OAddC; OSub; OSubB; ONeg; OMul;
   ORotl; ORotr; OShl; OShr; OShra; OCmpEq; OCmpGt; OCmpGtS; OCmpGe; OCmpGeS; OCmpLt; OCmpLtS; OCmpLe; OCmpLeS;
   OBranchNonZero; OBranchZero; OBranch; ORet; OCmux; ODbg].

(** assembly.rs:252-261 TryFrom<u8> for IsaOpOpCode. *)
Definition opcode_try_from (b : Z) : res opcode :=
  match find (fun o => op_byte o =? b) all_opcodes with Some o => Ok o | None => Err EInvalidInstruction end.

(** Columns of the table: a register (dst or src; 64 registers, hence ilog2 64 = 6 bits, assembly.rs:86-88), a `meta` field
    of 32 bits of type u32 or i32, the `cmeta` fields width (7 bits, width_dec/width_enc) and offset (32 bits, i32,
    offset_dec/offset_enc), and unused bits. *)
Inductive field := FReg | FU32 | FI32 | FWidth | FOffset | FUnused (bits : Z).

(** assembly.rs:364-480, the operands of each instruction in table order (dst, src, meta, cmeta, unused). *)
Definition shape (o : opcode) : list field :=
  match o with
  | OStore | OLoad => [FReg; FReg; FWidth; FOffset]
  | OLoadI => [FReg; FU32; FWidth]
  | OTrunc | OZext | OSext => [FReg; FReg; FWidth; FUnused 7]
  | OMove | ONot | ONeg => [FReg; FReg]
  | OAddC | OSubB => [FReg; FReg; FReg; FReg; FReg]
  | OBranchNonZero | OBranchZero => [FReg; FI32]
  | OBranch => [FI32]
  | ORet => [FUnused 44]
  | OCmux => [FReg; FReg; FReg; FReg]
  | ODbg => [FReg; FU32]
  | _ => [FReg; FReg; FReg]
  end.

Definition field_bits (f : field) : Z :=
  match f with FReg => 6 | FU32 | FI32 | FOffset => 32 | FWidth => 7 | FUnused n => n end.

(** An instruction: opcode and the values of its operands in table order (unused fields carry no operand). *)
Record instr := { op : opcode; operands : list Z }.

(** assembly.rs:3-6 width_dec. *)
Definition width_dec (x : Z) : res Z :=
  if x <? 128 then Ok (if x =? 0 then 128 else x) else Panic.

(** assembly.rs:8-11 width_enc. *)
Definition width_enc (x : Z) : res Z :=
  if (0 <? x) && (x <=? 128) then Ok (if x =? 128 then 0 else x) else Panic.

(** `x as i32` for an unsigned x: assembly.rs:13-15 offset_dec and the cast `as $meta_type` (109). *)
Definition as_i32 (x : Z) : Z := sint 32 (uwrap 32 x).

(** assembly.rs:96-118: the value extracted for one field from the low bits of `value`; None for unused fields. *)
Definition dec_field (f : field) (value : Z) : res (option Z) :=
  match f with
  | FReg => Ok (Some (Z.land value 63))
  | FU32 => Ok (Some (Z.land value (2 ^ 32 - 1)))
  | FI32 => Ok (Some (as_i32 (Z.land value (2 ^ 32 - 1))))
  | FWidth => x <- width_dec (Z.land value (2 ^ 7 - 1)) ;; Ok (Some x)
  | FOffset => Ok (Some (as_i32 (Z.land value (2 ^ 32 - 1))))
  | FUnused _ => Ok None
  end.

(** assembly.rs:96-122: fields in order, each followed by `value >> width`. *)
Fixpoint dec_fields (fs : list field) (value : Z) : res (list Z * Z) :=
  match fs with
  | [] => Ok ([], value)
  | f :: fs =>
      o <- dec_field f value ;;
      ' (l, rest) <- dec_fields fs (Z.shiftr value (field_bits f)) ;;
      Ok (match o with Some x => x :: l | None => l end, rest)
  end.

(** assembly.rs:82-135 TryFrom<u64> for IsaOp, with `assert_eq!(value, 0)` (124). *)
Definition decode (value : Z) : res instr :=
  o <- opcode_try_from (Z.land value 255) ;;
  ' (l, rest) <- dec_fields (shape o) (Z.shiftr value 8) ;;
  if rest =? 0 then Ok {| op := o; operands := l |} else Panic.

(** assembly.rs:156-174: the bits of one operand (`x as u64` of a negative i32 sign-extends; the mask follows). *)
Definition enc_field (f : field) (x : Z) : res Z :=
  match f with
  | FReg => Ok x
  | FU32 | FI32 | FOffset => Ok (Z.land (uwrap 64 x) (2 ^ 32 - 1))
  | FWidth => y <- width_enc x ;; Ok (Z.land y (2 ^ 7 - 1))
  | FUnused _ => Ok 0
  end.

(** assembly.rs:154-176: encoded |= bits << shift; shift += width. Unused fields come last and add nothing. A missing or
    surplus operand cannot occur in Rust (the variants have a fixed arity); the model panics. *)
Fixpoint enc_fields (p : profile) (fs : list field) (xs : list Z) (encoded shift : Z) : res Z :=
  match fs, xs with
  | [], [] => Ok encoded
  | FUnused _ :: fs, _ => enc_fields p fs xs encoded shift
  | f :: fs, x :: xs =>
      b <- enc_field f x ;;
      y <- ushl p 64 b shift ;;
      enc_fields p fs xs (Z.lor encoded y) (shift + field_bits f)
  | _, _ => Panic
  end.

(** assembly.rs:137-182 From<IsaOp> for u64. *)
Definition encode (p : profile) (i : instr) : res Z := enc_fields p (shape (op i)) (operands i) (op_byte (op i)) 8.
