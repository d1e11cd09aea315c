(** Instruction properties: C12-C17, C61, C62. Only statements, exact proofs and examples.
    [p] is the build profile; [reg_ok], [reg_value], [binop_value], [shift_value] are defined in SpecAlu.v. *)
From Verif Require Import Base Spec BitsLemmas Combos Circuits CircuitsProofs ShiftProofs MulRecProofs Alu SpecAlu AluProofs AluProofs2.

(** C12, C13, C14: every two-operand instruction on plaintext operands of width 1..127, in both build profiles, gives
    the mathematical result; arithmetic and logic results keep the width, comparisons have width 1. *)
Theorem plaintext_binop_partial : forall p op w a b,
  1 <= w <= 127 -> 0 <= a < 2 ^ w -> 0 <= b < 2 ^ w ->
  exec_binop p op (RPlain a w) (RPlain b w) = Ok (RPlain (binop_value op w a b) (binop_width op w)).
Proof. exact binop_plain. Qed.
(** Missing: width 128. There multiplication, equality and unsigned order are right ... *)
Theorem plaintext_128_partial : forall p op a b,
  0 <= a < 2 ^ 128 -> 0 <= b < 2 ^ 128 ->
  (op = BMul \/ op = BCmp CEq \/ exists g e, op = BCmp (COrd false g e)) ->
  exec_binop p op (RPlain a 128) (RPlain b 128) = Ok (RPlain (binop_value op 128 a b) (binop_width op 128)).
Proof.
  intros p op a b Ha Hb Ho.
  assert (Hc : check_register_width (RPlain a 128) (RPlain b 128) = Ok tt) by reflexivity.
  destruct Ho as [-> | [-> | (g & e & ->)]]; cbn [exec_binop binop_value binop_width].
  - unfold op_mul. rewrite Hc. cbn [bind reg_width]. change (128 <? 128) with false. cbn [bind].
    rewrite land_mask by lia. unfold uwrap. rewrite Z.mod_mod by lia. reflexivity.
  - reflexivity.
  - unfold op_cmp. rewrite Hc. cbn [bind cmp_plain]. unfold rel. rewrite Z.gtb_ltb, Z.geb_leb. destruct g, e; reflexivity.
Qed.
(** ... but every instruction that builds a mask is wrong: it aborts a debug build and gives 0 (xor: the first operand,
    not: 0) in a release build. *)
Theorem plaintext_128_refuted : forall a b, 0 <= a < 2 ^ 128 -> 0 <= b < 2 ^ 128 ->
  (forall op, In op [BAdd; BSub; BAnd; BOr; BXor] -> exec_binop Debug op (RPlain a 128) (RPlain b 128) = Panic) /\
  (forall op, In op [BAdd; BSub; BAnd; BOr] -> exec_binop Release op (RPlain a 128) (RPlain b 128) = Ok (RPlain 0 128)) /\
  exec_binop Release BXor (RPlain a 128) (RPlain b 128) = Ok (RPlain a 128) /\
  op_not Debug (RPlain a 128) = Panic /\ op_not Release (RPlain a 128) = Ok (RPlain 0 128) /\
  op_neg Debug (RPlain a 128) = Panic /\ op_neg Release (RPlain a 128) = Ok (RPlain 0 128).
Proof.
  intros a b Ha Hb.
  assert (Hc : check_register_width (RPlain a 128) (RPlain b 128) = Ok tt) by reflexivity.
  split; [|split; [|split; [|split; [|split; [|split]]]]].
  - intros op Hin. cbn [In] in Hin. destruct Hin as [<-|[<-|[<-|[<-|[<-|[]]]]]]; cbn [exec_binop];
    unfold op_add, op_sub, op_and, op_or, op_xor; rewrite Hc; cbn [bind]; rewrite umask_128; reflexivity.
  - intros op Hin. cbn [In] in Hin. destruct Hin as [<-|[<-|[<-|[<-|[]]]]]; cbn [exec_binop];
    unfold op_add, op_sub, op_and, op_or, op_xor; rewrite Hc; cbn [bind]; rewrite umask_128; cbn [bind]; rewrite Z.land_0_r; reflexivity.
  - cbn [exec_binop]. unfold op_xor. rewrite Hc. cbn [bind]. rewrite umask_128. cbn [bind]. rewrite Z.land_0_r, Z.lxor_0_r. reflexivity.
  - unfold op_not. rewrite umask_128. reflexivity.
  - unfold op_not. rewrite umask_128. cbn [bind]. rewrite Z.land_0_r. reflexivity.
  - unfold op_neg. rewrite umask_128. reflexivity.
  - unfold op_neg. rewrite umask_128. cbn [bind]. rewrite Z.land_0_r. reflexivity.
Qed.
Example plaintext_binop_ex :
  exec_binop Debug BAdd (RPlain 200 8) (RPlain 100 8) = Ok (RPlain 44 8) /\
  exec_binop Debug BSub (RPlain 3 5) (RPlain 7 5) = Ok (RPlain 28 5) /\
  exec_binop Debug (BCmp (COrd true false false)) (RPlain 255 8) (RPlain 1 8) = Ok (RPlain 1 1) /\
  exec_binop Debug (BCmp (COrd false false false)) (RPlain 255 8) (RPlain 1 8) = Ok (RPlain 0 1).
Proof. repeat split. Qed.
Print Assumptions plaintext_binop_partial.
Print Assumptions plaintext_128_partial.
Print Assumptions plaintext_128_refuted.

(** C13: the results of the logic instructions are bitwise and fit the width; not flips every bit. *)
Theorem plaintext_logic_bitwise : forall w a b, 1 <= w -> 0 <= a < 2 ^ w -> 0 <= b < 2 ^ w ->
  (forall i, 0 <= i -> Z.testbit (binop_value BAnd w a b) i = Z.testbit a i && Z.testbit b i) /\
  (forall i, 0 <= i -> Z.testbit (binop_value BOr w a b) i = Z.testbit a i || Z.testbit b i) /\
  (forall i, 0 <= i -> Z.testbit (binop_value BXor w a b) i = xorb (Z.testbit a i) (Z.testbit b i)) /\
  0 <= binop_value BAnd w a b < 2 ^ w /\ 0 <= binop_value BOr w a b < 2 ^ w /\ 0 <= binop_value BXor w a b < 2 ^ w.
Proof.
  intros w a b Hw Ha Hb. cbn [binop_value].
  split; [intros i Hi; apply Z.land_spec|]. split; [intros i Hi; apply Z.lor_spec|]. split; [intros i Hi; apply Z.lxor_spec|].
  split; [apply land_range; lia|]. split; [apply lor_range; lia|apply lxor_range; lia].
Qed.
Theorem not_bitwise_partial : forall p a, reg_ok a -> reg_width a <= 127 \/ reg_enc a = true ->
  exists d, op_not p a = Ok d /\ reg_ok d /\ reg_width d = reg_width a /\ reg_enc d = reg_enc a /\
    forall i, 0 <= i < reg_width a -> Z.testbit (reg_value d) i = negb (Z.testbit (reg_value a) i).
Proof. exact not_ok. Qed.
Example not_ex : op_not Debug (RPlain 5 4) = Ok (RPlain 10 4) /\ reg_ok (RPlain 5 4).
Proof. split; [reflexivity|]. split; cbn; lia. Qed.
Print Assumptions plaintext_logic_bitwise.
Print Assumptions not_bitwise_partial.

(** C12: negation and the carry/borrow forms, for any mix of plaintext and encrypted operands. *)
Theorem neg_partial : forall p v w, 1 <= w <= 127 -> 0 <= v < 2 ^ w ->
  op_neg p (RPlain v w) = Ok (RPlain ((- v) mod 2 ^ w) w).
Proof. exact neg_ok. Qed.
(** Missing: width 128 (above) and encrypted operands, on which the instruction aborts. *)
Theorem neg_encrypted_refuted : forall p k d, op_neg p (RCipher k d) = Panic.
Proof. reflexivity. Qed.
Theorem add_carry_partial : forall p a b cin w,
  reg_ok a -> reg_ok b -> reg_ok cin -> reg_width a = w -> reg_width b = w -> reg_width cin = 1 ->
  w <= 127 \/ reg_enc a || reg_enc b || reg_enc cin = true ->
  exists d c, op_add_carry p a b cin = Ok (d, c) /\ reg_ok d /\ reg_ok c /\ reg_width d = w /\ reg_width c = 1 /\
    reg_enc d = reg_enc a || reg_enc b || reg_enc cin /\ reg_enc c = reg_enc d /\
    reg_value d + 2 ^ w * reg_value c = reg_value a + reg_value b + reg_value cin.
Proof. exact add_carry_ok. Qed.
Theorem sub_borrow_partial : forall p a b bin w,
  reg_ok a -> reg_ok b -> reg_ok bin -> reg_width a = w -> reg_width b = w -> reg_width bin = 1 ->
  w <= 127 \/ reg_enc a || reg_enc b || reg_enc bin = true ->
  exists d c, op_sub_borrow p a b bin = Ok (d, c) /\ reg_ok d /\ reg_ok c /\ reg_width d = w /\ reg_width c = 1 /\
    reg_enc d = reg_enc a || reg_enc b || reg_enc bin /\ reg_enc c = reg_enc d /\
    reg_value d - 2 ^ w * reg_value c = reg_value a - reg_value b - reg_value bin.
Proof. exact sub_borrow_ok. Qed.
Example carry_ex :
  op_add_carry Debug (RPlain 15 4) (RCipher KL1Glwe [true; false; false; false]) (RPlain 1 1)
    = Ok (RCipher KL1Glwe [true; false; false; false], RCipher KL1Glwe [true]) /\
  op_add_carry Debug (RPlain 15 4) (RPlain 1 4) (RPlain 1 1) = Ok (RPlain 1 4, RPlain 1 1) /\
  op_sub_borrow Debug (RPlain 1 4) (RPlain 1 4) (RPlain 1 1) = Ok (RPlain 15 4, RPlain 1 1).
Proof. repeat split. Qed.
Print Assumptions neg_partial.
Print Assumptions add_carry_partial.
Print Assumptions sub_borrow_partial.

(** C14 at width 128: signed order of a negative operand aborts a debug build. *)
Theorem signed_compare_128_refuted : forall g e a b, 2 ^ 127 <= a < 2 ^ 128 -> 0 <= b < 2 ^ 128 ->
  exec_binop Debug (BCmp (COrd true g e)) (RPlain a 128) (RPlain b 128) = Panic.
Proof.
  intros g e a b Ha Hb. cbn [exec_binop]. unfold op_cmp.
  assert (Hc : check_register_width (RPlain a 128) (RPlain b 128) = Ok tt) by reflexivity. rewrite Hc. cbn [bind cmp_plain].
  unfold to_signed. rewrite usub_ok by lia. cbn [bind]. rewrite ushl_1 by lia. cbn [bind].
  rewrite sign_test by lia. change (128 - 1) with 127. destruct (Z.ltb_spec a (2 ^ 127)) as [H|H]; [lia|].
  change (ushl Debug 128 (2 ^ 127) 1) with (@Ok Z 0). cbn [bind]. rewrite usub_under by lia. reflexivity.
Qed.
Print Assumptions signed_compare_128_refuted.

(** C15: plaintext shifts and rotations. The value is always right modulo 2^w; it also fits the width except for shl
    when bits are shifted out and shra of a negative value. *)
Theorem plaintext_shift_partial : forall p op w ws v s,
  1 <= w <= 127 -> 0 <= v < 2 ^ w -> 0 <= s <= w -> s < 127 ->
  exists r, op_shift p op (RPlain v w) (RPlain s ws) = Ok (RPlain r w) /\
    r mod 2 ^ w = shift_value op w v s /\
    (~ shift_unmasked op w v s -> r = shift_value op w v s) /\
    (shift_unmasked op w v s -> 2 ^ w <= r).
Proof. exact shift_plain_ok. Qed.
Theorem plaintext_shift_fits_refuted :
  op_shift Release SShl (RPlain 255 8) (RPlain 4 8) = Ok (RPlain 4080 8) /\ 2 ^ 8 <= 4080 /\
  op_shift Release SShra (RPlain 128 8) (RPlain 1 8) = Ok (RPlain 448 8) /\ 2 ^ 8 <= 448.
Proof. repeat split; discriminate. Qed.
(** The unmasked result is visible: after shl, comparing with the correct value says "different". *)
Theorem plaintext_shift_then_compare_refuted :
  exists r, op_shift Release SShl (RPlain 255 8) (RPlain 4 8) = Ok r /\
    exec_binop Release (BCmp CEq) r (RPlain (shift_value SShl 8 255 4) 8) = Ok (RPlain 0 1).
Proof. eexists. split; reflexivity. Qed.
(** An amount of 128 or more aborts a debug build. *)
Theorem plaintext_shift_big_refuted : forall op v w s ws,
  0 <= w <= 127 -> 128 <= s -> op_shift Debug op (RPlain v w) (RPlain s ws) = Panic.
Proof. exact shift_plain_big. Qed.
Example plaintext_shift_ex :
  op_shift Debug SRotl (RPlain 9 4) (RPlain 1 4) = Ok (RPlain 3 4) /\
  op_shift Debug SRotr (RPlain 9 4) (RPlain 1 4) = Ok (RPlain 12 4) /\
  op_shift Debug SShr (RPlain 9 4) (RPlain 1 4) = Ok (RPlain 4 4) /\ shift_value SShra 4 9 1 = 12.
Proof. repeat split. Qed.
Print Assumptions plaintext_shift_partial.
Print Assumptions plaintext_shift_big_refuted.

(** C16: casts of plaintext and encrypted registers. *)
Theorem cast_trunc_partial : forall p src nw, reg_ok src -> 1 <= nw <= reg_width src -> nw <= 127 \/ reg_enc src = true ->
  exists d, op_trunc p src nw = Ok d /\ reg_ok d /\ reg_width d = nw /\ reg_enc d = reg_enc src /\
    reg_value d = reg_value src mod 2 ^ nw.
Proof. exact trunc_ok. Qed.
Theorem cast_zext : forall p src nw, reg_ok src -> reg_width src <= nw <= 128 ->
  exists d, op_ext p false src nw = Ok d /\ reg_ok d /\ reg_width d = nw /\ reg_enc d = reg_enc src /\
    reg_value d = reg_value src.
Proof. exact zext_ok. Qed.
Theorem cast_sext_partial : forall p src nw, reg_ok src -> reg_width src <= nw <= 128 ->
  nw <= 127 \/ reg_enc src = true \/ reg_value src < 2 ^ (reg_width src - 1) ->
  exists d, op_ext p true src nw = Ok d /\ reg_ok d /\ reg_width d = nw /\ reg_enc d = reg_enc src /\
    sint nw (reg_value d) = sint (reg_width src) (reg_value src).
Proof. exact sext_ok. Qed.
Theorem cast_wrong_direction : forall p s src nw,
  (nw < reg_width src -> op_ext p s src nw = Err EWidthMismatch) /\
  (reg_width src < nw -> op_trunc p src nw = Err EWidthMismatch).
Proof.
  intros p s src nw. split; intros H; unfold op_ext, op_trunc.
  - destruct (Z.ltb_spec nw (reg_width src)) as [H1|H1]; [reflexivity|lia].
  - destruct (Z.ltb_spec (reg_width src) nw) as [H1|H1]; [reflexivity|lia].
Qed.
(** Width 128 is missing: sign-extending -1 from 8 to 128 bits aborts (debug) or gives 0 (release). *)
Theorem cast_128_refuted :
  op_ext Debug true (RPlain 255 8) 128 = Panic /\ op_ext Release true (RPlain 255 8) 128 = Ok (RPlain 0 128) /\
  op_trunc Debug (RPlain 5 128) 128 = Panic /\ op_trunc Release (RPlain 5 128) 128 = Ok (RPlain 0 128).
Proof. repeat split. Qed.
Example cast_ex : op_ext Debug true (RPlain 200 8) 16 = Ok (RPlain 65480 16) /\ sint 16 65480 = -56 /\ sint 8 200 = -56 /\
  op_ext Debug true (RCipher KL1Glwe [true; true]) 4 = Ok (RCipher KL1Glwe [true; true; true; true]) /\
  op_trunc Debug (RPlain 300 16) 8 = Ok (RPlain 44 8).
Proof. repeat split. Qed.
Print Assumptions cast_trunc_partial.
Print Assumptions cast_zext.
Print Assumptions cast_sext_partial.
Print Assumptions cast_wrong_direction.

(** C17: width checks. *)
Theorem width_mismatch_is_error : forall p op a b,
  reg_width a <> reg_width b ->
  exec_binop p op a b = Err EWidthMismatch /\
  (forall c, op_add_carry p a b c = Err EWidthMismatch) /\ (forall c, op_sub_borrow p a b c = Err EWidthMismatch) /\
  (forall s, op_cmux p s a b = Err EWidthMismatch).
Proof.
  intros p op a b H.
  assert (Hc : check_register_width a b = Err EWidthMismatch).
  { unfold check_register_width. destruct (Z.eqb_spec (reg_width a) (reg_width b)); [contradiction|reflexivity]. }
  repeat split.
  - destruct op; cbn [exec_binop]; unfold op_add, op_sub, op_mul, op_and, op_or, op_xor, op_cmp; rewrite Hc; reflexivity.
  - intros c. unfold op_add_carry. rewrite Hc. reflexivity.
  - intros c. unfold op_sub_borrow. rewrite Hc. reflexivity.
  - intros c. unfold op_cmux. rewrite Hc. reflexivity.
Qed.
Theorem unsupported_width_is_error : forall p op a b,
  reg_width a = reg_width b -> reg_width a < 1 \/ 128 < reg_width a ->
  exec_binop p op a b = Err EUnsupportedWidth /\
  (forall c, op_add_carry p a b c = Err EUnsupportedWidth) /\ (forall c, op_sub_borrow p a b c = Err EUnsupportedWidth) /\
  (forall s, op_cmux p s a b = Err EUnsupportedWidth).
Proof.
  intros p op a b H Hr.
  assert (Hc : check_register_width a b = Err EUnsupportedWidth).
  { unfold check_register_width. rewrite <- H, Z.eqb_refl. cbn [negb].
    destruct (Z.ltb_spec (reg_width a) 1) as [H1|H1]; [reflexivity|]. destruct (Z.ltb_spec 128 (reg_width a)) as [H2|H2]; [reflexivity|lia]. }
  repeat split.
  - destruct op; cbn [exec_binop]; unfold op_add, op_sub, op_mul, op_and, op_or, op_xor, op_cmp; rewrite Hc; reflexivity.
  - intros c. unfold op_add_carry. rewrite Hc. reflexivity.
  - intros c. unfold op_sub_borrow. rewrite Hc. reflexivity.
  - intros c. unfold op_cmux. rewrite Hc. reflexivity.
Qed.
Theorem carry_width_is_error : forall p a b c,
  reg_width a = reg_width b -> 1 <= reg_width a <= 128 -> reg_width c <> 1 ->
  op_add_carry p a b c = Err EWidthMismatch /\ op_sub_borrow p a b c = Err EWidthMismatch /\ op_cmux p c a b = Err EWidthMismatch.
Proof.
  intros p a b c H Hr Hn. pose proof (check_ok a b _ eq_refl (eq_sym H) Hr) as Hc.
  unfold op_add_carry, op_sub_borrow, op_cmux. rewrite Hc. cbn [bind].
  destruct (Z.eqb_spec (reg_width c) 1); [contradiction|]. auto.
Qed.
Example width_mismatch_ex : exec_binop Debug BAdd (RPlain 1 8) (RCipher KL1Glwe [true]) = Err EWidthMismatch.
Proof. reflexivity. Qed.
Print Assumptions width_mismatch_is_error.
Print Assumptions unsupported_width_is_error.
Print Assumptions carry_width_is_error.

(** C61: load immediate. The immediate is accepted exactly when it is the 32-bit representation of an unsigned or
    negative w-bit number v, and then the register holds v modulo 2^w. *)
Theorem load_immediate_partial : forall p imm w, 1 <= w <= 32 -> 0 <= imm < 2 ^ 32 ->
  (forall v, - 2 ^ (w - 1) <= v < 2 ^ w -> imm = v mod 2 ^ 32 -> op_loadi p imm w = Ok (RPlain (v mod 2 ^ w) w)) /\
  ((forall v, - 2 ^ (w - 1) <= v < 2 ^ w -> imm <> v mod 2 ^ 32) -> op_loadi p imm w = Err EOutOfRange).
Proof.
  intros p imm w Hw Hi. rewrite loadi_ok by assumption.
  assert (Hp : 0 < 2 ^ (w - 1)) by (apply pow2_pos; lia). pose proof (pow2_split w ltac:(lia)) as H2.
  assert (H31 : 2 ^ (w - 1) <= 2 ^ 31) by (apply Z.pow_le_mono_r; lia).
  assert (H32 : 2 ^ w <= 2 ^ 32) by (apply Z.pow_le_mono_r; lia).
  assert (E32 : 2 ^ 32 = 2 * 2 ^ 31) by reflexivity.
  split.
  - intros v Hv E. destruct (Z.lt_ge_cases v 0) as [Hn|Hn].
    + assert (Ei : imm = v + 2 ^ 32) by (rewrite E, <- (Z_mod_plus_full v 1), Z.mod_small; lia).
      destruct (Z.leb_spec (2 ^ 32 - 2 ^ (w - 1)) imm) as [H|H]; [|lia]. rewrite orb_true_r.
      rewrite Ei. replace (2 ^ 32) with (2 ^ (32 - w) * 2 ^ w) by (rewrite <- Z.pow_add_r by lia; f_equal; lia).
      rewrite Z_mod_plus_full. reflexivity.
    + assert (Ei : imm = v) by (rewrite E, Z.mod_small; lia). rewrite Ei.
      destruct (Z.ltb_spec v (2 ^ w)) as [H|H]; [reflexivity|lia].
  - intros H. destruct (Z.ltb_spec imm (2 ^ w)) as [H1|H1].
    + exfalso. apply (H imm); [lia|]. rewrite Z.mod_small; lia.
    + destruct (Z.leb_spec (2 ^ 32 - 2 ^ (w - 1)) imm) as [H3|H3]; [|reflexivity].
      exfalso. apply (H (imm - 2 ^ 32)); [lia|]. rewrite <- (Z_mod_plus_full _ 1), Z.mod_small; lia.
Qed.
(** Missing: widths 33..128, which the encoding allows. A debug build aborts on all of them ... *)
Theorem load_immediate_wide_refuted : forall imm w, 33 <= w <= 128 -> op_loadi Debug imm w = Panic.
Proof.
  intros imm w Hw. unfold op_loadi.
  destruct (Z.lt_ge_cases w 64) as [H|H].
  - rewrite ushl_ok by lia. cbn [bind]. rewrite usub_ok by lia. cbn [bind]. rewrite ushl_big by lia. reflexivity.
  - rewrite ushl_big by lia. reflexivity.
Qed.
(** ... and a release build rejects the immediate 5 at width 64. *)
Theorem load_immediate_wide_release_refuted : op_loadi Release 5 64 = Err EOutOfRange.
Proof. reflexivity. Qed.
Example load_immediate_ex : op_loadi Debug 4294967206 8 = Ok (RPlain 166 8) /\ 4294967206 = (-90) mod 2 ^ 32 /\ 166 = (-90) mod 2 ^ 8
  /\ op_loadi Debug 256 8 = Err EOutOfRange.
Proof. repeat split. Qed.
Print Assumptions load_immediate_partial.
Print Assumptions load_immediate_wide_refuted.

(** C62: an instruction on encrypted operands (or a mix) decrypts to the specified value of the decrypted operands. *)
Theorem encrypted_binop_partial : forall p op w a b,
  reg_ok a -> reg_ok b -> reg_width a = w -> reg_width b = w -> reg_enc a || reg_enc b = true ->
  ~ mul_gap op w ->
  exists bits, exec_binop p op a b = Ok (RCipher KL1Glwe bits) /\
    Z.of_nat (length bits) = binop_width op w /\ uval bits = binop_value op w (reg_value a) (reg_value b).
Proof. exact binop_enc. Qed.
(** Hence computing on encrypted data agrees with computing on the same plaintext data. *)
Theorem encrypted_equals_plaintext : forall p op w a b ra rb,
  1 <= w <= 127 -> 0 <= a < 2 ^ w -> 0 <= b < 2 ^ w -> ~ mul_gap op w ->
  reg_ok ra -> reg_ok rb -> reg_width ra = w -> reg_width rb = w -> reg_value ra = a -> reg_value rb = b ->
  exists r, exec_binop p op ra rb = Ok r /\
    exec_binop p op (RPlain a w) (RPlain b w) = Ok (RPlain (reg_value r) (reg_width r)).
Proof.
  intros p op w a b ra rb Hw Ha Hb Hg Hra Hrb Hwa Hwb Hva Hvb.
  destruct (reg_enc ra || reg_enc rb) eqn:He.
  - destruct (binop_enc p op w ra rb Hra Hrb Hwa Hwb He Hg) as (bits & E & L & U).
    exists (RCipher KL1Glwe bits). split; [exact E|]. rewrite binop_plain by assumption. cbn [reg_value reg_width].
    rewrite L, U, Hva, Hvb. reflexivity.
  - destruct ra as [va wa|? ?]; [|discriminate]. destruct rb as [vb wb|? ?]; [|discriminate].
    cbn [reg_value reg_width] in *. subst va vb wa wb. rewrite binop_plain by assumption. eexists. split; reflexivity.
Qed.
(** Missing: encrypted multiplication at widths 33, 65, 66 and 67 aborts. *)
Theorem encrypted_mul_gap_refuted : forall p a b w,
  w = 33 \/ 65 <= w <= 67 -> length a = Z.to_nat w -> length b = Z.to_nat w ->
  exec_binop p BMul (RCipher KL1Glwe a) (RCipher KL1Glwe b) = Panic.
Proof.
  intros p a b w Hw La Lb. cbn [exec_binop]. unfold op_mul. rewrite (check_ok _ _ w) by (cbn [reg_width]; lia).
  cbn [bind reg_width]. replace (Z.of_nat (length a)) with w by lia.
  destruct (Z.ltb_spec w 128) as [H|H]; [|lia]. rewrite umask_ok by lia. cbn [bind].
  unfold mul_cipher_cipher. rewrite La, Lb, Nat.eqb_refl. cbn [negb].
  pose proof (uint_mul_total a b ltac:(lia) ltac:(lia)) as [[Hm _] _]. rewrite Hm; [reflexivity|].
  destruct Hw as [-> | Hw]; [exists 1%nat|exists 2%nat]; rewrite La; cbn [Nat.pow]; lia.
Qed.
Theorem encrypted_shift_plain_amount_partial : forall p op src s ws w,
  reg_ok src -> reg_enc src = true -> reg_width src = w -> 0 <= s <= w ->
  exists d, op_shift p op src (RPlain s ws) = Ok d /\ reg_ok d /\ reg_enc d = true /\ reg_width d = w /\
    reg_value d = shift_value op w (reg_value src) s.
Proof. exact shift_enc_plain_amount. Qed.
(** Missing: larger amounts abort, in both profiles, although the shift by an encrypted amount handles them. *)
Theorem encrypted_shift_big_refuted : forall p op c s ws,
  (1 <= length c)%nat -> Z.of_nat (length c) < s < 2 ^ 32 -> op_shift p op (RCipher KL1Glwe c) (RPlain s ws) = Panic.
Proof. exact shift_enc_big. Qed.
Theorem encrypted_shift_encrypted_amount_partial : forall p op src k w,
  reg_ok src -> reg_width src = w -> (0 < length k)%nat -> w <= 2 ^ Z.of_nat (length k) -> rot_width_ok op (Z.to_nat w) ->
  exists d, op_shift p op src (RCipher KL1Glwe k) = Ok d /\ reg_ok d /\ reg_enc d = true /\ reg_width d = w /\
    reg_value d = shift_value op w (reg_value src) (uval k).
Proof. exact shift_enc_amount. Qed.
Theorem select_correct : forall p sel a b w,
  reg_ok sel -> reg_ok a -> reg_ok b -> reg_width sel = 1 -> reg_width a = w -> reg_width b = w ->
  exists d, op_cmux p sel a b = Ok d /\ reg_ok d /\ reg_width d = w /\
    reg_enc d = reg_enc sel || reg_enc a || reg_enc b /\
    reg_value d = if reg_value sel =? 0 then reg_value b else reg_value a.
Proof. exact cmux_ok. Qed.
Example encrypted_ex :
  exec_binop Debug BAdd (RCipher KL1Glwe [true; true; false]) (RPlain 7 3) = Ok (RCipher KL1Glwe [false; true; false]) /\
  exec_binop Debug BMul (RCipher KL1Glwe [true; true; false]) (RPlain 3 3) = Ok (RCipher KL1Glwe [true; false; false]) /\
  op_shift Debug SShra (RCipher KL1Glwe [false; true; true]) (RPlain 1 8) = Ok (RCipher KL1Glwe [true; true; true]) /\
  op_cmux Debug (RCipher KL1Glwe [true]) (RPlain 2 2) (RCipher KL1Glwe [true; true]) = Ok (RCipher KL1Glwe [false; true]).
Proof. repeat split. Qed.
Print Assumptions encrypted_binop_partial.
Print Assumptions encrypted_equals_plaintext.
Print Assumptions encrypted_mul_gap_refuted.
Print Assumptions encrypted_shift_plain_amount_partial.
Print Assumptions encrypted_shift_big_refuted.
Print Assumptions encrypted_shift_encrypted_amount_partial.
Print Assumptions select_correct.
