(** Properties C43, C47, C56 and the plaintext side of C44: encrypted integers, their serialised form and recryption. *)
From Verif Require Import Base BitsLemmas FluentInt FluentIntProofs FluentIntProofs2.

(** The values an n-bit integer can take. *)
Definition fits (sg : sign) (n : nat) (v : Z) : bool :=
  match sg with
  | Unsigned => (0 <=? v) && (v <? 2 ^ Z.of_nat n)
  | Signed => (- 2 ^ (Z.of_nat n - 1) <=? v) && (v <? 2 ^ (Z.of_nat n - 1))
  end.
(** The values of the plaintext type (u128 or i128). *)
Definition plaintext (sg : sign) (v : Z) : Prop :=
  match sg with Unsigned => 0 <= v < 2 ^ 128 | Signed => - 2 ^ 127 <= v < 2 ^ 127 end.
(** The integer a list of bits stands for. *)
Definition ival (sg : sign) (bits : list bool) : Z := match sg with Unsigned => uval bits | Signed => sval bits end.

(** C43 (partial: widths up to 128; signed integers have 1 to 127 bits, or 128 without overflow checks). A value that fits is
    encrypted to n bits that stand for it and decrypts to itself; a value that does not fit is refused. *)
Theorem int_round_trip_partial : forall p sg n v, (n <= 128)%nat -> (sg = Signed -> 1 <= n /\ (n = 128 -> p = Release))%nat -> plaintext sg v ->
  if fits sg n v
  then exists bits, int_encrypt p sg v n = Ok bits /\ length bits = n /\ ival sg bits = v /\ int_decrypt p sg bits = Ok v
  else int_encrypt p sg v n = Panic.
Proof.
  intros p sg n v N S V. destruct sg; cbn [fits plaintext ival] in *.
  - pose proof (unsigned_ok p n v N V) as H. destruct (Z.leb_spec 0 v); [|lia]. cbn [andb]. destruct (Z.ltb_spec v (2 ^ Z.of_nat n)); [|exact H].
    exists (to_bits n v). assert (E : uval (to_bits n v) = v) by (rewrite uval_to_bits, Z.mod_small by lia; reflexivity). rewrite to_bits_length. repeat split; auto.
    rewrite decrypt_ok by (rewrite ?to_bits_length; auto; discriminate). now rewrite E.
  - destruct (S eq_refl) as [N1 R]. pose proof (signed_ok p n v ltac:(lia) R V) as H. destruct ((- 2 ^ (Z.of_nat n - 1) <=? v) && (v <? 2 ^ (Z.of_nat n - 1)))%bool eqn:B; [|exact H].
    apply andb_prop in B. destruct B as [B1 B2]. apply Z.leb_le in B1. apply Z.ltb_lt in B2. exists (to_bits n v).
    assert (E : sval (to_bits n v) = v) by (apply sval_to_bits; lia). rewrite to_bits_length. repeat split; auto.
    rewrite decrypt_ok; [now rewrite E|rewrite to_bits_length; exact N|]. intros _ Z0. apply (f_equal (@length bool)) in Z0. rewrite to_bits_length in Z0. cbn in Z0. lia.
Qed.
Print Assumptions int_round_trip_partial.
Example int_round_trip_ex : int_encrypt Debug Signed (-3) 4 = Ok [true; false; true; true] /\ int_decrypt Debug Signed [true; false; true; true] = Ok (-3)
  /\ int_encrypt Debug Signed (-9) 4 = Panic /\ int_encrypt Release Unsigned 16 4 = Panic.
Proof. repeat split. Qed.

(** Whatever bits a computation leaves in an integer of up to 128 bits, decryption gives the integer they stand for. *)
Theorem decryption_reads_bits : forall p sg bits, (length bits <= 128)%nat -> (sg = Signed -> bits <> []) -> int_decrypt p sg bits = Ok (ival sg bits).
Proof. intros p sg bits L N. rewrite decrypt_ok by assumption. now destruct sg. Qed.
Print Assumptions decryption_reads_bits.

(** C43 outside those widths: 128-bit signed integers cannot be encrypted at all in a build with overflow checks; 256-bit
    unsigned integers refuse the value 1 (and in a build with overflow checks every value). *)
Theorem int_round_trip_refuted :
  (forall v, int_encrypt Debug Signed v 128 = Panic) /\
  (forall v, 0 < v -> fits Unsigned 256 1 = true /\ int_encrypt Release Unsigned v 256 = Panic) /\
  (forall v n, (128 < n)%nat -> int_encrypt Debug Unsigned v n = Panic).
Proof.
  repeat split.
  - unfold int_encrypt, assert_in_bounds, u_assert_in_bounds. change (Z.of_nat 256 =? 128) with false. cbn [ushl].
    change (ushl Release 128 1 (Z.of_nat 256)) with (Ok 1). cbn [bind]. destruct (Z.ltb_spec v 1); [lia|reflexivity].
  - intros v n N. unfold int_encrypt, assert_in_bounds, u_assert_in_bounds. destruct (Z.eqb_spec (Z.of_nat n) 128); [lia|].
    unfold ushl. destruct (Z.ltb_spec (Z.of_nat n) 128); [lia|]. rewrite andb_false_r. reflexivity.
Qed.
Print Assumptions int_round_trip_refuted.

(** C44, packed integers made by encryption: coefficient i is bit i, the rest is zero, and decryption inverts it. *)
Theorem packed_round_trip : forall p deg sg n v, (n < deg)%nat -> (n <= 128)%nat -> (sg = Signed -> 1 <= n /\ (n = 128 -> p = Release))%nat -> plaintext sg v ->
  if fits sg n v
  then exists c, packed_encrypt p deg sg v n = Ok c /\ length (pk_poly c) = deg /\ ival sg (firstn n (pk_poly c)) = v /\
         (forall i, (n <= i)%nat -> nth i (pk_poly c) false = false) /\ packed_decrypt p deg sg c = Ok v
  else packed_encrypt p deg sg v n = Panic.
Proof.
  intros p deg sg n v D N S V. pose proof (int_round_trip_partial p sg n v N S V) as H. unfold packed_encrypt. destruct (fits sg n v).
  - destruct H as (bits & E & L & I & DD). unfold int_encrypt in E. destruct (assert_in_bounds p sg v n) as [[]|e|]; cbn [bind] in *; try discriminate.
    rewrite packed_encode_ok by assumption. cbn [bind]. eexists. split; [reflexivity|]. cbn [pk_poly pk_len].
    assert (EB : bits = to_bits n v). { assert (pt_to_bits p sg v n = Ok (to_bits n v)) as E' by (destruct sg; apply shift_bits; lia). congruence. }
    rewrite app_length, to_bits_length, repeat_length. split; [lia|]. rewrite firstn_pack, <- EB. split; [exact I|]. split.
    + intros i Hi. rewrite app_nth2 by lia. apply nth_repeat.
    + unfold packed_decrypt. cbn [pk_len pk_poly]. destruct (Nat.ltb_spec n deg); [|lia]. cbn [negb]. rewrite EB, firstn_pack, <- EB. exact DD.
  - unfold int_encrypt in H. destruct (assert_in_bounds p sg v n) as [[]|e|]; cbn [bind] in *; try discriminate; [|reflexivity].
    assert (pt_to_bits p sg v n = Ok (to_bits n v)) as E' by (destruct sg; apply shift_bits; lia). congruence.
Qed.
Print Assumptions packed_round_trip.
Example packed_round_trip_ex : packed_encrypt Debug 8 Unsigned 5 3 = Ok (mkPacked 3 [true; false; true; false; false; false; false; false]).
Proof. reflexivity. Qed.

(** Trivial encryption of a packed integer does not refuse a value that is out of range: 9 in 3 bits becomes 1. A packed integer
    with as many bits as the degree (which packing produces) cannot be decrypted. *)
Theorem packed_trivial_checks_range_refuted :
  (exists c, packed_trivial Debug 8 Unsigned 9 3 = Ok c /\ packed_decrypt Debug 8 Unsigned c = Ok 1) /\
  (forall p sg deg poly, packed_decrypt p deg sg (mkPacked deg poly) = Panic).
Proof.
  split; [eexists; split; reflexivity|]. intros p sg deg poly. unfold packed_decrypt. cbn [pk_len]. rewrite Nat.ltb_irrefl. reflexivity.
Qed.
Print Assumptions packed_trivial_checks_range_refuted.

(** C56. Recrypting any message under any pad of the same length and removing the pad gives the message back; for packed
    integers, the integer. *)
Theorem otp_recryption : forall msg pad, length pad = length msg -> decrypt_otp (recrypt msg pad) pad = Ok msg.
Proof. exact decrypt_otp_ok. Qed.
Theorem otp_recrypted_integer : forall p deg sg n v c pad, (n < deg)%nat -> (n <= 128)%nat -> (sg = Signed -> 1 <= n /\ (n = 128 -> p = Release))%nat -> plaintext sg v ->
  packed_encrypt p deg sg v n = Ok c -> length pad = deg -> recrypted_decrypt p sg (pk_len c) (recrypt (pk_poly c) pad) pad = Ok v.
Proof.
  intros p deg sg n v c pad D N S V E L. pose proof (packed_round_trip p deg sg n v D N S V) as H. destruct (fits sg n v); [|congruence].
  destruct H as (c' & E' & LP & I & Z0 & DD). assert (c' = c) by congruence. subst c'. unfold recrypted_decrypt.
  assert (LR : length (recrypt (pk_poly c) pad) = deg) by (unfold recrypt; rewrite map_length, combine_length; lia). rewrite LR.
  unfold packed_decrypt in DD. destruct (Nat.ltb_spec (pk_len c) deg) as [Q|Q]; [|discriminate]. cbn [negb] in DD.
  destruct (Nat.leb_spec (pk_len c) deg); [|lia]. cbn [negb]. rewrite decrypt_otp_ok by lia. cbn [bind]. exact DD.
Qed.
(** With a pad of another length the message is not recovered silently: removing the pad aborts. *)
Theorem otp_wrong_length_refused : forall x pad, length pad <> length x -> decrypt_otp x pad = Panic.
Proof. intros x pad H. unfold decrypt_otp. destruct (Nat.eqb_spec (length pad) (length x)); [contradiction|reflexivity]. Qed.
Print Assumptions otp_recryption.
Print Assumptions otp_recrypted_integer.
Print Assumptions otp_wrong_length_refused.
Example otp_ex : recrypt [true; false; true] [true; true; false] = [false; true; true] /\ decrypt_otp [false; true; true] [true; true; false] = Ok [true; false; true].
Proof. split; reflexivity. Qed.

(** C47 (partial). For any bytes: deserialisation gives an error or an object, never an abort; every ciphertext of the object has
    the right size; and an N-bit integer has at most N bits. *)
Theorem deserialised_object_valid_partial : forall sz N data,
  (de_int sz N data <> Panic /\ de_packed sz data <> Panic /\ de_ct sz data <> Panic) /\
  (forall bits, de_int sz N data = Ok bits -> (length bits <= N)%nat /\ forall c, In c bits -> length c = sz) /\
  (forall n c, de_packed sz data = Ok (n, c) -> length c = sz) /\
  (forall c, de_ct sz data = Ok c -> length c = sz).
Proof.
  intros sz N data. split; [apply de_no_panic|]. split; [apply de_int_sound|]. split; [intros n c; apply de_packed_sound|apply de_ct_sound].
Qed.
Print Assumptions deserialised_object_valid_partial.
(** What was serialised is read back, with or without further bytes behind it. *)
Theorem deserialise_inverts_serialise : forall sz N bits rest, length bits = N -> Z.of_nat N < 2 ^ 64 -> Z.of_nat sz < 2 ^ 64 ->
  Forall (fun c => Forall (fun w => 0 <= w < 2 ^ 64) c /\ length c = sz) bits -> de_int sz N (ser_int bits ++ rest) = Ok bits.
Proof. exact de_int_ser. Qed.
Print Assumptions deserialise_inverts_serialise.
Example deserialise_ex : de_int 2 2 (ser_int [[1; 2]; [3; 2 ^ 64 - 1]] ++ [7; 7]) = Ok [[1; 2]; [3; 2 ^ 64 - 1]].
Proof. vm_compute. reflexivity. Qed.
(** C47, what is missing is false: eight zero bytes are accepted as an integer of any width N, with no bits at all, and a packed
    integer is accepted with any bit length, so that decrypting it aborts. *)
Theorem deserialised_object_valid_refuted : forall sz N deg p sg, (0 < N)%nat -> (1 <= deg < 2 ^ 32)%nat -> Z.of_nat sz < 2 ^ 64 ->
  (exists bits, de_int sz N (repeat 0 8) = Ok bits /\ length bits <> N) /\
  (forall c, length c = sz -> Forall (fun w => 0 <= w < 2 ^ 64) c -> exists data n, de_packed sz data = Ok (Z.of_nat n, c) /\ forall poly, packed_decrypt p deg sg (mkPacked n poly) = Panic).
Proof.
  intros sz N deg p sg HN HD HZ. split.
  - exists []. split; [|cbn; lia]. assert (0 < ct_size sz) by (unfold ct_size; lia).
    unfold de_int, read_vec, read_word. destruct (Z.ltb_spec (Z.of_nat N * ct_size sz + 8) (Z.of_nat 8)) as [Q|Q]; [nia|]. reflexivity.
  - intros c L U. exists (word_le 4 (Z.of_nat deg) ++ ser_ct c), deg. split.
    + assert (0 < ct_size sz) by (unfold ct_size; lia). assert (B : Z.of_nat deg < 2 ^ 32).
      { change (2 ^ 32) with (Z.of_nat 2 ^ Z.of_nat 32). rewrite <- Nat2Z.inj_pow. apply Nat2Z.inj_lt. apply HD. }
      unfold de_packed. rewrite read_word_le by (change (256 ^ Z.of_nat 4) with (2 ^ 32); lia). cbn [bind].
      rewrite <- (app_nil_r (ser_ct c)). rewrite read_ct_ser by (auto; rewrite ?L; lia). cbn [bind]. unfold ct_valid. rewrite L, Nat.eqb_refl. reflexivity.
    + intros poly. unfold packed_decrypt. cbn [pk_len]. rewrite Nat.ltb_irrefl. reflexivity.
Qed.
Print Assumptions deserialised_object_valid_refuted.
