(** Proofs about the instruction encoding. *)
From Coq Require Import ZifyBool ZifyNat.
From Verif Require Import Base Isa SpecIsa.
Ltac Zify.zify_post_hook ::= Z.div_mod_to_equations.

Lemma lor_shift_add : forall a b s, 0 <= s -> 0 <= a < 2 ^ s -> Z.lor a (b * 2 ^ s) = a + b * 2 ^ s.
Proof.
  intros a b s Hs Ha.
  assert (Z.land a (b * 2 ^ s) = 0).
  { apply Z.bits_inj'. intros n Hn. rewrite Z.land_spec, Z.bits_0.
    destruct (Z_lt_le_dec n s).
    - rewrite Z.mul_pow2_bits_low by lia. apply andb_false_r.
    - replace (Z.testbit a n) with false; auto. symmetry.
      rewrite <- (Z.mod_small a (2 ^ s)) by lia. apply Z.mod_pow2_bits_high. lia. }
  rewrite <- Z.lxor_lor by auto. symmetry. now apply Z.add_nocarry_lxor.
Qed.

Lemma land_ones : forall v n, 0 <= n -> Z.land v (2 ^ n - 1) = v mod 2 ^ n.
Proof. intros. rewrite <- Z.land_ones by lia. f_equal. rewrite Z.ones_equiv. lia. Qed.

Lemma field_bits_pos : forall o f, In f (shape o) -> 0 <= field_bits f.
Proof. intros o f H. destruct o; cbn in H; intuition subst; cbn; lia. Qed.

Lemma image_bound : forall f x, operand_ok f x -> 0 <= field_image f x < 2 ^ field_bits f.
Proof. intros f x H. destruct f; cbn [operand_ok field_image field_bits] in *; try lia; apply Z.mod_pos_bound; reflexivity. Qed.

Lemma enc_field_image : forall f x, operand_ok f x -> enc_field f x = Ok (field_image f x).
Proof.
  intros f x H. destruct f; cbn [operand_ok enc_field field_image] in *; try tauto.
  - f_equal. rewrite land_ones by lia. unfold uwrap. change (2 ^ 64) with (2 ^ 32 * 2 ^ 32). rewrite Z.rem_mul_r by lia.
    rewrite Z.mul_comm, Z.mod_add, Z.mod_mod by lia. reflexivity.
  - f_equal. rewrite land_ones by lia. unfold uwrap. change (2 ^ 64) with (2 ^ 32 * 2 ^ 32). rewrite Z.rem_mul_r by lia.
    rewrite Z.mul_comm, Z.mod_add, Z.mod_mod by lia. reflexivity.
  - unfold width_enc. replace ((0 <? x) && (x <=? 128)) with true by lia. cbn [bind]. f_equal.
    rewrite land_ones by lia. change (2 ^ 7) with 128. destruct (x =? 128) eqn:E; lia.
  - f_equal. rewrite land_ones by lia. unfold uwrap. change (2 ^ 64) with (2 ^ 32 * 2 ^ 32). rewrite Z.rem_mul_r by lia.
    rewrite Z.mul_comm, Z.mod_add, Z.mod_mod by lia. reflexivity.
Qed.

Lemma shape_bits_cons : forall f fs, shape_bits (f :: fs) = field_bits f + shape_bits fs.
Proof. reflexivity. Qed.
Lemma shape_bits_nonneg : forall fs, (forall f, In f fs -> 0 <= field_bits f) -> 0 <= shape_bits fs.
Proof.
  induction fs; intros H; [cbn; lia|]. rewrite shape_bits_cons. specialize (IHfs (fun f h => H f (or_intror h))).
  specialize (H a (or_introl eq_refl)). lia.
Qed.

(** Encoding fields = adding their image above the bits already there. *)
Lemma enc_fields_image : forall p fs xs acc shift,
  (forall f, In f fs -> 0 <= field_bits f) ->
  Forall2 operand_ok (filter is_operand fs) xs -> 0 <= shift -> 0 <= acc < 2 ^ shift ->
  shift + shape_bits (filter is_operand fs) <= 64 -> 
  enc_fields p fs xs acc shift = Ok (acc + fields_image (filter is_operand fs) xs * 2 ^ shift).
Proof.
  intros p fs. induction fs as [|f fs IH]; intros xs acc shift Hp H Hs Ha Hb.
  - inversion H; subst. cbn [enc_fields fields_image filter]. f_equal. lia.
  - assert (Hp' : forall g, In g fs -> 0 <= field_bits g) by (intros; apply Hp; now right).
    destruct (is_operand f) eqn:Ef.
    + cbn [filter] in *. rewrite Ef in *. inversion H as [|? x ? xs' Hx Hxs]; subst. rewrite shape_bits_cons in Hb.
      pose proof (Hp f (or_introl eq_refl)) as Hf.
      assert (Hn : 0 <= shape_bits (filter is_operand fs)).
      { apply shape_bits_nonneg. intros g Hg. apply filter_In in Hg. apply Hp'. tauto. }
      assert (E : enc_fields p (f :: fs) (x :: xs') acc shift =
        (b <- enc_field f x ;; y <- ushl p 64 b shift ;; enc_fields p fs xs' (Z.lor acc y) (shift + field_bits f)))
        by (destruct f; try discriminate; reflexivity).
      rewrite E, enc_field_image by auto. cbn [bind]. pose proof (image_bound f x Hx) as Hi.
      unfold ushl. assert (0 < field_bits f) by (destruct f; cbn in *; try discriminate; lia).
      replace ((0 <=? shift) && (shift <? 64)) with true by lia. cbn [bind].
      assert (Hlt : field_image f x * 2 ^ shift < 2 ^ (field_bits f + shift)).
      { rewrite Z.pow_add_r by lia. apply Z.mul_lt_mono_pos_r; lia. }
      assert (0 <= field_image f x * 2 ^ shift) by (apply Z.mul_nonneg_nonneg; lia).
      assert (2 ^ (field_bits f + shift) <= 2 ^ 64) by (apply Z.pow_le_mono_r; lia).
      unfold uwrap. rewrite Z.mod_small by lia. rewrite lor_shift_add by lia.
      assert (field_image f x * 2 ^ shift <= (2 ^ field_bits f - 1) * 2 ^ shift) by (apply Z.mul_le_mono_nonneg_r; lia).
      rewrite IH; auto; try lia.
      * f_equal. cbn [fields_image]. rewrite Z.pow_add_r by lia. ring.
      * rewrite (Z.add_comm shift), Z.pow_add_r by lia. lia.
    + cbn [filter] in *. rewrite Ef in *. destruct f; try discriminate. cbn [enc_fields]. apply IH; auto.
Qed.

Lemma dec_field_image : forall f x v, operand_ok f x -> v mod 2 ^ field_bits f = field_image f x -> dec_field f v = Ok (Some x).
Proof.
  intros f x v H E. destruct f; cbn [operand_ok dec_field field_image field_bits] in *; try tauto.
  - change 63 with (2 ^ 6 - 1). rewrite land_ones by lia. congruence.
  - rewrite land_ones by lia. rewrite E, Z.mod_small by lia. reflexivity.
  - rewrite land_ones by lia. rewrite E. unfold as_i32, uwrap, sint. rewrite Z.mod_mod by lia.
    change (2 ^ (32 - 1)) with (2 ^ 31). do 2 f_equal. destruct (x mod 2 ^ 32 <? 2 ^ 31) eqn:C; lia.
  - rewrite land_ones by lia. rewrite E. unfold width_dec. replace (x mod 128 <? 128) with true by lia. cbn [bind].
    do 2 f_equal. destruct (x mod 128 =? 0) eqn:C; lia.
  - rewrite land_ones by lia. rewrite E. unfold as_i32, uwrap, sint. rewrite Z.mod_mod by lia.
    change (2 ^ (32 - 1)) with (2 ^ 31). do 2 f_equal. destruct (x mod 2 ^ 32 <? 2 ^ 31) eqn:C; lia.
Qed.

Lemma fields_image_nonneg : forall fs xs, Forall2 operand_ok fs xs -> 0 <= fields_image fs xs.
Proof.
  intros fs xs H. induction H as [|f x fs xs Hf H IH]; cbn [fields_image]; [lia|].
  pose proof (image_bound _ _ Hf). assert (0 <= 2 ^ field_bits f * fields_image fs xs) by (apply Z.mul_nonneg_nonneg; lia). lia.
Qed.

Lemma dec_fields_image : forall fs xs, Forall2 operand_ok (filter is_operand fs) xs ->
  (exists us, fs = filter is_operand fs ++ us /\ forall f, In f us -> is_operand f = false /\ 0 <= field_bits f) ->
  (forall f, In f fs -> 0 <= field_bits f) ->
  dec_fields fs (fields_image (filter is_operand fs) xs) = Ok (xs, 0).
Proof.
  intros fs xs H (us & Hus & Hu) Hp. remember (filter is_operand fs) as gs eqn:Eg. subst fs. clear Eg.
  induction H as [|f x gs xs Hf H IH].
  - cbn [app fields_image] in *. clear Hp. induction us as [|u us IHu]; [reflexivity|].
    cbn [dec_fields]. destruct (Hu u) as [U1 U2]; [now left|]. destruct u; try discriminate. cbn [dec_field bind].
    rewrite Z.shiftr_0_l. rewrite IHu; [reflexivity|]. intros f Hf. apply Hu. now right.
  - cbn [app dec_fields fields_image]. assert (0 <= field_bits f) by (apply Hp; now left).
    pose proof (image_bound f x Hf) as Hb. pose proof (fields_image_nonneg _ _ H) as Hn.
    assert (0 < 2 ^ field_bits f) by (apply Z.pow_pos_nonneg; lia).
    rewrite (dec_field_image f x) by (auto; rewrite Z.mul_comm, Z.mod_add by lia; now rewrite Z.mod_small by lia). cbn [bind].
    rewrite Z.shiftr_div_pow2 by lia.
    replace ((field_image f x + 2 ^ field_bits f * fields_image gs xs) / 2 ^ field_bits f) with (fields_image gs xs)
      by (rewrite Z.mul_comm, Z.div_add by lia; now rewrite Z.div_small by lia).
    rewrite IH; [reflexivity|]. intros g Hg. apply Hp. now right.
Qed.

Lemma shape_unused_last : forall o, exists us, shape o = filter is_operand (shape o) ++ us /\
  forall f, In f us -> is_operand f = false /\ 0 <= field_bits f.
Proof.
  intros o.
  exists (filter (fun f => negb (is_operand f)) (shape o)). split; [destruct o; reflexivity|].
  intros f H. apply filter_In in H. destruct H as [H1 H2]. split; [destruct (is_operand f); [discriminate|reflexivity]|].
  now apply (field_bits_pos o).
Qed.
Lemma shape_bits_bound : forall o, 0 <= shape_bits (filter is_operand (shape o)) <= shape_bits (shape o) /\ shape_bits (shape o) <= 51.
Proof. destruct o; vm_compute; repeat split; congruence. Qed.

Lemma opcode_roundtrip : forall o, opcode_try_from (op_byte o) = Ok o.
Proof. destruct o; reflexivity. Qed.
Lemma opcode_some : forall b o, opcode_try_from b = Ok o -> op_byte o = b.
Proof.
  unfold opcode_try_from. intros b o H. destruct (find _ _) eqn:E; [|discriminate]. apply find_some in E. destruct E as [_ E].
  injection H as <-. lia.
Qed.
Lemma opcode_none : forall b, (forall o, op_byte o <> b) -> opcode_try_from b = Err EInvalidInstruction.
Proof.
  intros b H. unfold opcode_try_from. destruct (find _ _) eqn:E; [|reflexivity]. apply find_some in E. destruct E as [_ E].
  exfalso. apply (H o). lia.
Qed.
Lemma op_byte_bound : forall o, 0 < op_byte o < 256.
Proof. destruct o; cbn; lia. Qed.

Lemma encode_image : forall p i, instr_wf i ->
  encode p i = Ok (op_byte (op i) + 256 * fields_image (filter is_operand (shape (op i))) (operands i)).
Proof.
  intros p i H. unfold encode. pose proof (op_byte_bound (op i)). pose proof (shape_bits_bound (op i)).
  rewrite enc_fields_image; auto; try lia.
  - f_equal. change (2 ^ 8) with 256. lia.
  - intros f Hf. now apply (field_bits_pos (op i)).
Qed.

Lemma fields_image_bound : forall fs xs, Forall2 operand_ok fs xs -> (forall f, In f fs -> 0 <= field_bits f) ->
  fields_image fs xs < 2 ^ shape_bits fs.
Proof.
  intros fs xs H. induction H as [|f x fs xs Hf H IH]; intros Hp; [reflexivity|].
  cbn [fields_image]. rewrite shape_bits_cons.
  assert (0 <= field_bits f) by (apply Hp; now left).
  assert (0 <= shape_bits fs) by (apply shape_bits_nonneg; intros g Hg; apply Hp; now right).
  rewrite Z.pow_add_r by lia. pose proof (image_bound f x Hf).
  assert (fields_image fs xs <= 2 ^ shape_bits fs - 1) by (specialize (IH (fun g h => Hp g (or_intror h))); lia).
  assert (2 ^ field_bits f * fields_image fs xs <= 2 ^ field_bits f * (2 ^ shape_bits fs - 1)) by (apply Z.mul_le_mono_nonneg_l; lia).
  lia.
Qed.

Lemma encode_bound : forall p i v, instr_wf i -> encode p i = Ok v -> 0 <= v < 2 ^ 64.
Proof.
  intros p i v H E. rewrite encode_image in E by auto.
  assert (Ev : v = op_byte (op i) + 256 * fields_image (filter is_operand (shape (op i))) (operands i)) by congruence.
  clear E. subst v.
  pose proof (op_byte_bound (op i)). pose proof (shape_bits_bound (op i)). unfold instr_wf in H.
  pose proof (fields_image_nonneg _ _ H).
  assert (fields_image (filter is_operand (shape (op i))) (operands i) < 2 ^ shape_bits (filter is_operand (shape (op i)))).
  { apply fields_image_bound; auto. intros f Hf. apply filter_In in Hf. now apply (field_bits_pos (op i)). }
  assert (2 ^ shape_bits (filter is_operand (shape (op i))) <= 2 ^ 51) by (apply Z.pow_le_mono_r; lia).
  lia.
Qed.

Lemma decode_encode : forall p i, instr_wf i -> exists v, encode p i = Ok v /\ 0 <= v < 2 ^ 64 /\ decode v = Ok i.
Proof.
  intros p i H. eexists. rewrite encode_image by auto. split; [reflexivity|]. split.
  { eapply encode_bound; [exact H|]. now apply (encode_image p). }
  unfold decode. pose proof (op_byte_bound (op i)). change 255 with (2 ^ 8 - 1). rewrite land_ones by lia. change (2 ^ 8) with 256.
  rewrite Z.mul_comm, Z.mod_add, Z.mod_small by lia. rewrite opcode_roundtrip. cbn [bind].
  rewrite Z.shiftr_div_pow2 by lia. change (2 ^ 8) with 256. rewrite Z.div_add, Z.div_small, Z.add_0_l by lia.
  rewrite dec_fields_image; auto.
  - cbn [bind Z.eqb]. destruct i; reflexivity.
  - apply shape_unused_last.
  - intros f Hf. now apply (field_bits_pos (op i)).
Qed.

Lemma encode_injective : forall p i j v, instr_wf i -> instr_wf j -> encode p i = Ok v -> encode p j = Ok v -> i = j.
Proof.
  intros p i j v Hi Hj Ei Ej. destruct (decode_encode p i Hi) as (v1 & E1 & _ & D1). destruct (decode_encode p j Hj) as (v2 & E2 & _ & D2).
  congruence.
Qed.

(** Decoding any field list. *)
Lemma dec_field_total : forall f v, 0 <= v -> exists o, dec_field f v = Ok o /\
  match o with Some x => is_operand f = true /\ operand_ok f x /\ field_image f x = v mod 2 ^ field_bits f | None => is_operand f = false end.
Proof.
  intros f v Hv. destruct f; cbn [dec_field is_operand operand_ok field_image field_bits].
  - change 63 with (2 ^ 6 - 1). rewrite land_ones by lia. eexists. split; [reflexivity|]. cbn beta iota. change (2 ^ 6) with 64. lia.
  - rewrite land_ones by lia. eexists. split; [reflexivity|]. cbn beta iota. rewrite Z.mod_mod by lia. lia.
  - rewrite land_ones by lia. eexists. split; [reflexivity|]. cbn beta iota. unfold as_i32, uwrap, sint. rewrite Z.mod_mod by lia.
    change (2 ^ (32 - 1)) with (2 ^ 31). destruct (v mod 2 ^ 32 <? 2 ^ 31) eqn:C; lia.
  - rewrite land_ones by lia. change (2 ^ 7) with 128. unfold width_dec. replace (v mod 128 <? 128) with true by lia. cbn [bind].
    eexists. split; [reflexivity|]. cbn beta iota. destruct (v mod 128 =? 0) eqn:C; lia.
  - rewrite land_ones by lia. eexists. split; [reflexivity|]. cbn beta iota. unfold as_i32, uwrap, sint. rewrite Z.mod_mod by lia.
    change (2 ^ (32 - 1)) with (2 ^ 31). destruct (v mod 2 ^ 32 <? 2 ^ 31) eqn:C; lia.
  - eexists. split; reflexivity.
Qed.

Lemma dec_fields_total : forall fs v, 0 <= v -> (forall f, In f fs -> 0 <= field_bits f) ->
  exists xs, dec_fields fs v = Ok (xs, v / 2 ^ shape_bits fs) /\ Forall2 operand_ok (filter is_operand fs) xs.
Proof.
  induction fs as [|f fs IH]; intros v Hv Hp.
  - exists []. cbn [dec_fields shape_bits fold_right]. change (2 ^ 0) with 1. rewrite Z.div_1_r. split; [reflexivity|constructor].
  - assert (0 <= field_bits f) by (apply Hp; now left).
    destruct (dec_field_total f v Hv) as (o & E & Ho). cbn [dec_fields]. rewrite E. cbn [bind].
    rewrite Z.shiftr_div_pow2 by lia. destruct (IH (v / 2 ^ field_bits f)) as (xs & E2 & H2).
    { apply Z.div_pos; [lia|]. apply Z.pow_pos_nonneg; lia. }
    { intros g Hg. apply Hp. now right. }
    rewrite E2. cbn [bind].
    assert (0 <= shape_bits fs) by (apply shape_bits_nonneg; intros g Hg; apply Hp; now right).
    exists (match o with Some x => x :: xs | None => xs end). split.
    + rewrite shape_bits_cons, Z.pow_add_r by lia. rewrite Z.div_div; auto; apply Z.pow_nonzero || apply Z.pow_pos_nonneg; lia.
    + cbn [filter]. destruct o as [x|]; [destruct Ho as (H3 & H4 & _)|]; rewrite ?H3, ?Ho; auto.
Qed.

Lemma decode_spec : forall v, 0 <= v < 2 ^ 64 ->
  (~ known_opcode v -> decode v = Err EInvalidInstruction) /\
  (forall o, op_byte o = v mod 256 ->
     (v < 2 ^ (8 + shape_bits (shape o)) -> exists i, decode v = Ok i /\ op i = o /\ instr_wf i) /\
     (2 ^ (8 + shape_bits (shape o)) <= v -> decode v = Panic)).
Proof.
  intros v Hv. unfold decode. change 255 with (2 ^ 8 - 1). rewrite land_ones by lia. change (2 ^ 8) with 256. split.
  - intros H. rewrite opcode_none; [reflexivity|]. intros o Ho. apply H. now exists o.
  - intros o Ho. rewrite <- Ho, opcode_roundtrip. cbn [bind]. rewrite Z.shiftr_div_pow2 by lia. change (2 ^ 8) with 256.
    pose proof (shape_bits_bound o) as Hb.
    destruct (dec_fields_total (shape o) (v / 256)) as (xs & E & Hw).
    { lia. }
    { intros f Hf. now apply (field_bits_pos o). }
    rewrite E. cbn [bind]. rewrite (Z.pow_add_r 2 8) by lia. change (2 ^ 8) with 256.
    assert (0 < 2 ^ shape_bits (shape o)) by (apply Z.pow_pos_nonneg; lia).
    rewrite Z.div_div by lia. split; intros Hr.
    + rewrite Z.div_small by lia. cbn [Z.eqb]. eexists. split; [reflexivity|]. split; [reflexivity|exact Hw].
    + assert (0 < v / (256 * 2 ^ shape_bits (shape o))) by (apply Z.div_str_pos; lia).
      replace (_ =? 0) with false by lia. reflexivity.
Qed.
