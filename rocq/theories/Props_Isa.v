(** Instruction encoding: C09-C11. Only statements, short proofs and examples. Vocabulary in SpecIsa.v. *)
From Coq Require Import ZifyBool ZifyNat.
From Verif Require Import Base Isa SpecIsa IsaProofs.
Ltac Zify.zify_post_hook ::= Z.div_mod_to_equations.

Local Ltac cases := repeat match goal with H : In ?o _ |- _ => cbn [In] in H; repeat (destruct H as [<- |H]; [|]); try destruct H end.

(** C09: every well-formed instruction has an encoding, in debug and release builds, and decoding it gives it back. *)
Theorem instruction_roundtrip : forall p i, instr_wf i -> exists v, encode p i = Ok v /\ 0 <= v < 2 ^ 64 /\ decode v = Ok i.
Proof. exact decode_encode. Qed.
(** The bits of the word are the documented ones, so that other tools can produce and read it. *)
Theorem instruction_layout : forall p o d a b c e w imm off,
  0 <= d < 64 -> 0 <= a < 64 -> 0 <= b < 64 -> 0 <= c < 64 -> 0 <= e < 64 -> 1 <= w <= 128 -> 0 <= imm < 2 ^ 32 ->
  - 2 ^ 31 <= off < 2 ^ 31 ->
  let enc o l := encode p {| op := o; operands := l |} in
  (In o [OStore; OLoad] -> enc o [d; a; w; off] = Ok (op_byte o + d * 2 ^ 8 + a * 2 ^ 14 + (w mod 128) * 2 ^ 20 + (off mod 2 ^ 32) * 2 ^ 27)) /\
  enc OLoadI [d; imm; w] = Ok (0x0A + d * 2 ^ 8 + imm * 2 ^ 14 + (w mod 128) * 2 ^ 46) /\
  (In o [OTrunc; OZext; OSext] -> enc o [d; a; w] = Ok (op_byte o + d * 2 ^ 8 + a * 2 ^ 14 + (w mod 128) * 2 ^ 20)) /\
  (In o [OMove; ONot; ONeg] -> enc o [d; a] = Ok (op_byte o + d * 2 ^ 8 + a * 2 ^ 14)) /\
  (In o [OAnd; OOr; OXor; OAdd; OSub; OMul; ORotl; ORotr; OShl; OShr; OShra; OCmpEq; OCmpGt; OCmpGtS; OCmpGe; OCmpGeS;
         OCmpLt; OCmpLtS; OCmpLe; OCmpLeS] -> enc o [d; a; b] = Ok (op_byte o + d * 2 ^ 8 + a * 2 ^ 14 + b * 2 ^ 20)) /\
  (In o [OAddC; OSubB] -> enc o [d; a; b; c; e] =
      Ok (op_byte o + d * 2 ^ 8 + a * 2 ^ 14 + b * 2 ^ 20 + c * 2 ^ 26 + e * 2 ^ 32)) /\
  (In o [OBranchNonZero; OBranchZero] -> enc o [d; off] = Ok (op_byte o + d * 2 ^ 8 + (off mod 2 ^ 32) * 2 ^ 14)) /\
  enc OBranch [off] = Ok (0xB5 + (off mod 2 ^ 32) * 2 ^ 8) /\
  enc ORet [] = Ok 0xBA /\
  enc OCmux [d; a; b; c] = Ok (0xC1 + d * 2 ^ 8 + a * 2 ^ 14 + b * 2 ^ 20 + c * 2 ^ 26) /\
  enc ODbg [d; imm] = Ok (0xF0 + d * 2 ^ 8 + imm * 2 ^ 14).
Proof.
  intros p o d a b c e w imm off Hd Ha Hb Hc He Hw Hi Ho enc. unfold enc.
  assert (A : forall o l v, instr_wf {| op := o; operands := l |} ->
            op_byte o + 256 * fields_image (filter is_operand (shape o)) l = v -> encode p {| op := o; operands := l |} = Ok v).
  { intros o' l v W E. rewrite encode_image by auto. cbn [op operands]. now rewrite E. }
  assert (X : (2 ^ 8 = 256) /\ (2 ^ 14 = 256 * 64) /\ (2 ^ 20 = 256 * 64 * 64) /\ (2 ^ 26 = 256 * 64 * 64 * 64) /\
              (2 ^ 32 = 256 * 64 * 64 * 64 * 64) /\ (2 ^ 27 = 256 * 64 * 64 * 128) /\ (2 ^ 46 = 256 * 64 * 2 ^ 32)) by (repeat split).
  destruct X as (X8 & X14 & X20 & X26 & X32 & X27 & X46).
  assert (Img : forall f x, field_image f x = match f with FReg => x | FWidth => x mod 128 | _ => x mod 2 ^ 32 end) by reflexivity.
  assert (imm mod 2 ^ 32 = imm) as Eimm by (apply Z.mod_small; lia).
  repeat split; intros;
    (apply A; [unfold instr_wf; cbn [op operands];
                cases;
                cbn [shape filter is_operand]; repeat (apply Forall2_nil || apply Forall2_cons); cbn [operand_ok]; lia|]);
    cases;
    cbn [shape filter is_operand fields_image field_bits op_byte]; rewrite ?Img, ?Eimm;
    change (2 ^ 6) with 64; change (2 ^ 7) with 128; rewrite ?X8, ?X14, ?X20, ?X26, ?X27, ?X46; rewrite ?X32; try ring.
Qed.
Theorem opcodes_documented : map (fun o => (o, op_byte o)) all_opcodes = documented_opcodes /\ forall o, In o all_opcodes.
Proof. split; [reflexivity|]. intros o. destruct o; cbn; tauto. Qed.
Example instruction_ex :
  instr_wf {| op := OLoad; operands := [3; 10; 128; -8] |} /\
  encode Debug {| op := OLoad; operands := [3; 10; 128; -8] |} = Ok 576460751229846281 /\
  decode 576460751229846281 = Ok {| op := OLoad; operands := [3; 10; 128; -8] |}.
Proof. split; [|split; reflexivity]. unfold instr_wf. cbn. repeat (apply Forall2_nil || apply Forall2_cons); cbn; lia. Qed.
Print Assumptions instruction_roundtrip.
Print Assumptions instruction_layout.

(** C10. *)
Theorem instruction_injective : forall p i j v, instr_wf i -> instr_wf j -> encode p i = Ok v -> encode p j = Ok v -> i = j.
Proof. exact encode_injective. Qed.
Theorem unknown_opcode_rejected : forall v, 0 <= v < 2 ^ 64 -> ~ known_opcode v -> decode v = Err EInvalidInstruction.
Proof. intros v Hv. apply decode_spec. exact Hv. Qed.
(** Conversely only unknown opcodes are rejected, and what is accepted is well formed. *)
Theorem decoded_is_well_formed : forall v i, 0 <= v < 2 ^ 64 -> decode v = Ok i -> instr_wf i /\ op_byte (op i) = v mod 256.
Proof.
  intros v i Hv H. destruct (decode_spec v Hv) as [D1 D2].
  assert (K : known_opcode v \/ ~ known_opcode v).
  { destruct (find (fun o => op_byte o =? v mod 256) all_opcodes) as [o|] eqn:E.
    - left. exists o. apply find_some in E. lia.
    - right. intros [o Ho]. pose proof (find_none _ _ E o) as N. cbn beta in N. rewrite Ho in N.
      rewrite Z.eqb_refl in N. discriminate N. destruct o; cbn; tauto. }
  destruct K as [[o Ho]|K]; [|rewrite (D1 K) in H; discriminate].
  destruct (D2 o Ho) as [D3 D4]. destruct (Z_lt_le_dec v (2 ^ (8 + shape_bits (shape o)))) as [L|L].
  - destruct (D3 L) as (j & E & Eo & W). assert (i = j) by congruence. subst j. rewrite Eo. auto.
  - rewrite (D4 L) in H. discriminate.
Qed.
Example unknown_opcode_ex : decode 0 = Err EInvalidInstruction /\ decode (2 ^ 63 + 2) = Err EInvalidInstruction.
Proof. split; reflexivity. Qed.
Print Assumptions instruction_injective.
Print Assumptions unknown_opcode_rejected.

(** C11: exactly when the decoder accepts and when it aborts. It aborts on a known opcode with a bit set above the fields of
    that instruction, which is why C11 is false. *)
Theorem decode_total_partial : forall v o, 0 <= v < 2 ^ 64 -> op_byte o = v mod 256 -> v < 2 ^ (8 + shape_bits (shape o)) ->
  exists i, decode v = Ok i /\ op i = o /\ instr_wf i.
Proof. intros v o Hv Ho. apply decode_spec; auto. Qed.
Theorem decode_aborts_refuted : forall v o, 0 <= v < 2 ^ 64 -> op_byte o = v mod 256 -> 2 ^ (8 + shape_bits (shape o)) <= v ->
  decode v = Panic.
Proof. intros v o Hv Ho. apply decode_spec; auto. Qed.
Example decode_aborts_ex : decode (0x41 + 2 ^ 26) = Panic /\ decode (0xBA + 2 ^ 51) = Ok {| op := ORet; operands := [] |} /\
  forall o, 2 ^ (8 + shape_bits (shape o)) < 2 ^ 60.
Proof. split; [reflexivity|split; [reflexivity|]]. destruct o; reflexivity. Qed.
Print Assumptions decode_total_partial.
Print Assumptions decode_aborts_refuted.
