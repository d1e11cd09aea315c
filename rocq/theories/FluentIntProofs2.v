(** Packed integers, recryption and checked deserialisation. *)
From Verif Require Import Base BitsLemmas Alu AluProofs MuxGraph FluentInt FluentIntProofs.
Ltac Zify.zify_post_hook ::= idtac.

(** * Packed integers *)
Lemma packed_encode_ok p deg sg v n : (n < deg)%nat -> (n <= 128)%nat -> packed_encode p deg sg v n = Ok (to_bits n v ++ repeat false (deg - n)).
Proof.
  intros D N. unfold packed_encode. destruct (Nat.ltb_spec n deg); [|lia]. cbn [negb].
  assert (pt_to_bits p sg v n = Ok (to_bits n v)) as -> by (destruct sg; apply shift_bits; lia). cbn [bind]. f_equal.
  rewrite firstn_app, to_bits_length. rewrite firstn_all2 by (rewrite to_bits_length; lia). f_equal.
  replace deg with ((deg - n) + n)%nat at 2 by lia. rewrite repeat_app, firstn_app, firstn_all2 by (rewrite repeat_length; lia).
  rewrite repeat_length, Nat.sub_diag. cbn [firstn]. apply app_nil_r.
Qed.
Lemma firstn_pack n v k : firstn n (to_bits n v ++ repeat false k) = to_bits n v.
Proof. rewrite firstn_app, to_bits_length, Nat.sub_diag. cbn [firstn]. rewrite app_nil_r. apply firstn_all2. rewrite to_bits_length. lia. Qed.

(** * Recryption *)
Lemma decrypt_otp_ok : forall c pad, length pad = length c -> decrypt_otp (recrypt c pad) pad = Ok c.
Proof.
  intros c pad L. unfold decrypt_otp. replace (length (recrypt c pad)) with (length pad).
  2:{ unfold recrypt. rewrite map_length, combine_length. lia. }
  rewrite Nat.eqb_refl. cbn [negb]. f_equal. unfold recrypt. revert pad L.
  induction c as [|a c IH]; intros [|b pad] L; try discriminate; [reflexivity|]. cbn [combine map]. f_equal; [destruct a, b; reflexivity|].
  apply IH. cbn in L. lia.
Qed.

(** * Deserialisation *)
Lemma le_word_le : forall k v, 0 <= v < 256 ^ Z.of_nat k -> le_word (word_le k v) = v.
Proof.
  induction k as [|k IH]; intros v H.
  - cbn in *. lia.
  - cbn [word_le]. unfold le_word in *. cbn [fold_right]. rewrite IH.
    + rewrite Z.add_comm. symmetry. apply Z.div_mod. lia.
    + rewrite Nat2Z.inj_succ, Z.pow_succ_r in H by lia. split; [apply Z.div_pos; lia|apply Z.div_lt_upper_bound; lia].
Qed.
Lemma word_le_length k v : length (word_le k v) = k.
Proof. revert v. induction k; intros v; cbn [word_le length]; [reflexivity|now rewrite IHk]. Qed.
Lemma read_word_le k v rest lim : 0 <= v < 256 ^ Z.of_nat k -> Z.of_nat k <= lim -> read_word k (word_le k v ++ rest, lim) = Ok (v, (rest, lim - Z.of_nat k)).
Proof.
  intros H L. unfold read_word. destruct (Z.ltb_spec lim (Z.of_nat k)); [lia|]. rewrite app_length, word_le_length.
  destruct (Nat.ltb_spec (k + length rest) k); [lia|]. rewrite firstn_app, skipn_app, word_le_length, Nat.sub_diag. cbn [firstn skipn].
  rewrite firstn_all2, skipn_all2 by (rewrite word_le_length; lia). rewrite app_nil_r, le_word_le by exact H. reflexivity.
Qed.
Lemma read_word_spec k r v r' : read_word k r = Ok (v, r') -> length (fst r) = (k + length (fst r'))%nat /\ snd r' = snd r - Z.of_nat k /\ Z.of_nat k <= snd r.
Proof.
  destruct r as [bs lim]. unfold read_word. destruct (Z.ltb_spec lim (Z.of_nat k)); [discriminate|]. destruct (Nat.ltb_spec (length bs) k); [discriminate|].
  intros E. injection E as <- <-. cbn [fst snd]. rewrite skipn_length. lia.
Qed.
Lemma read_word_no_panic k r : read_word k r <> Panic.
Proof. destruct r as [bs lim]. unfold read_word. destruct (lim <? Z.of_nat k); [discriminate|]. destruct (length bs <? k)%nat; discriminate. Qed.
Lemma read_seq_no_panic {A} (elem : reader -> res (A * reader)) : (forall r, elem r <> Panic) -> forall n r, read_seq elem n r <> Panic.
Proof.
  intros H. induction n as [|n IH]; intros r; [discriminate|]. cbn [read_seq]. destruct (elem r) as [[x r1]|e|] eqn:E; cbn [bind]; [|discriminate|now destruct (H r)].
  destruct (read_seq elem n r1) as [[xs r2]|e|] eqn:E2; cbn [bind]; [discriminate|discriminate|now destruct (IH r1)].
Qed.
Lemma read_vec_no_panic {A} (elem : reader -> res (A * reader)) : (forall r, elem r <> Panic) -> forall r, read_vec elem r <> Panic.
Proof.
  intros H r. unfold read_vec. destruct (read_word 8 r) as [[n r1]|e|] eqn:E; cbn [bind]; [|discriminate|now destruct (read_word_no_panic 8 r)].
  apply read_seq_no_panic. exact H.
Qed.
Lemma read_ct_no_panic r : read_ct r <> Panic.
Proof. apply read_vec_no_panic. apply read_word_no_panic. Qed.

(** Consumption: an element reader that uses at least one byte of input. *)
Definition consumes {A} (elem : reader -> res (A * reader)) : Prop := forall r x r', elem r = Ok (x, r') -> (length (fst r') < length (fst r))%nat.
Lemma read_seq_bound {A} (elem : reader -> res (A * reader)) : consumes elem -> forall n r xs r', read_seq elem n r = Ok (xs, r') -> length xs = n /\ (n + length (fst r') <= length (fst r))%nat.
Proof.
  intros C. induction n as [|n IH]; intros r xs r' E; cbn [read_seq] in E.
  - injection E as <- <-. cbn. lia.
  - destruct (elem r) as [[x r1]|e|] eqn:E1; cbn [bind] in E; try discriminate. destruct (read_seq elem n r1) as [[ys r2]|e|] eqn:E2; cbn [bind] in E; try discriminate.
    injection E as <- <-. apply C in E1. apply IH in E2. cbn [length]. lia.
Qed.
(** The cap on the length does not change what is accepted: reading that many elements would have failed anyway. *)
Lemma read_vec_uncapped {A} (elem : reader -> res (A * reader)) : consumes elem -> forall r xs r', read_vec elem r = Ok (xs, r') <->
  exists n r1, read_word 8 r = Ok (n, r1) /\ read_seq elem (Z.to_nat n) r1 = Ok (xs, r').
Proof.
  intros C r xs r'. unfold read_vec. destruct (read_word 8 r) as [[n r1]|e|] eqn:E; cbn [bind]; [|split; [discriminate|intros (n & r1 & H & _); discriminate]..].
  destruct (Z.ltb_spec (Z.of_nat (length (fst r1))) n) as [L|L].
  - split.
    + intros H. apply read_seq_bound in H; [lia|exact C].
    + intros (n' & r1' & H & H'). injection H as <- <-. apply read_seq_bound in H'; [lia|exact C].
  - split; [eauto|]. intros (n' & r1' & H & H'). injection H as <- <-. exact H'.
Qed.
Lemma read_word_consumes k : (0 < k)%nat -> consumes (read_word k).
Proof. intros K r x r' E. apply read_word_spec in E. lia. Qed.
Lemma read_seq_words : forall n r xs r', read_seq (read_word 8) n r = Ok (xs, r') -> length xs = n /\ snd r' = snd r - 8 * Z.of_nat n /\ (0 <= snd r -> 0 <= snd r').
Proof.
  induction n as [|n IH]; intros r xs r' E; cbn [read_seq] in E.
  - injection E as <- <-. cbn. lia.
  - destruct (read_word 8 r) as [[x r1]|e|] eqn:E1; cbn [bind] in E; try discriminate. destruct (read_seq (read_word 8) n r1) as [[ys r2]|e|] eqn:E2; cbn [bind] in E; try discriminate.
    injection E as <- <-. apply read_word_spec in E1. apply IH in E2. cbn [length]. lia.
Qed.
Lemma read_ct_spec r c r' : read_ct r = Ok (c, r') -> snd r' = snd r - ct_size (length c) /\ (0 <= snd r -> 0 <= snd r') /\ (length (fst r') < length (fst r))%nat.
Proof.
  intros E. unfold read_ct in E. apply read_vec_uncapped in E; [|apply read_word_consumes; lia]. destruct E as (n & r1 & E1 & E2).
  apply read_word_spec in E1. pose proof (read_seq_bound _ (read_word_consumes 8 ltac:(lia)) _ _ _ _ E2) as B. apply read_seq_words in E2. unfold ct_size.
  destruct E2 as (L & E3 & E4). subst. rewrite L. lia.
Qed.
Lemma read_ct_consumes : consumes read_ct.
Proof. intros r x r' E. apply read_ct_spec in E. apply E. Qed.
Lemma read_seq_cts sz : forall n r xs r', read_seq read_ct n r = Ok (xs, r') -> forallb (ct_valid sz) xs = true ->
  length xs = n /\ snd r' = snd r - Z.of_nat n * ct_size sz /\ (0 <= snd r -> 0 <= snd r').
Proof.
  induction n as [|n IH]; intros r xs r' E V; cbn [read_seq] in E.
  - injection E as <- <-. cbn. lia.
  - destruct (read_ct r) as [[x r1]|e|] eqn:E1; cbn [bind] in E; try discriminate. destruct (read_seq read_ct n r1) as [[ys r2]|e|] eqn:E2; cbn [bind] in E; try discriminate.
    injection E as <- <-. cbn [forallb] in V. apply andb_prop in V. destruct V as [V1 V2]. apply Nat.eqb_eq in V1.
    apply read_ct_spec in E1. rewrite V1 in E1. apply (IH _ _ _ E2) in V2. cbn [length]. lia.
Qed.
Lemma de_int_sound sz N data bits : de_int sz N data = Ok bits -> (length bits <= N)%nat /\ forall c, In c bits -> length c = sz.
Proof.
  intros E. unfold de_int in E. destruct (read_vec read_ct (data, Z.of_nat N * ct_size sz + 8)) as [[xs r]|e|] eqn:E1; cbn [bind] in E; try discriminate.
  destruct (forallb (ct_valid sz) xs) eqn:V; [|discriminate]. injection E as <-.
  apply read_vec_uncapped in E1; [|exact read_ct_consumes]. destruct E1 as (n & r1 & E1 & E2). apply read_word_spec in E1. cbn [fst snd] in E1.
  destruct (read_seq_cts sz _ _ _ _ E2 V) as (L & E3 & E4). rewrite L. split.
  - assert (0 < ct_size sz) by (unfold ct_size; lia). assert (0 <= snd r1) by lia. specialize (E4 H0). rewrite E3 in E4.
    assert (Z.of_nat (Z.to_nat n) * ct_size sz <= Z.of_nat N * ct_size sz) by lia. apply Z.mul_le_mono_pos_r in H1; lia.
  - intros c Hc. rewrite forallb_forall in V. apply V in Hc. now apply Nat.eqb_eq in Hc.
Qed.
Lemma de_packed_sound sz data n c : de_packed sz data = Ok (n, c) -> length c = sz.
Proof.
  unfold de_packed. destruct (read_word 4 (data, 4 + ct_size sz)) as [[m r]|e|]; cbn [bind]; try discriminate. destruct (read_ct r) as [[d r']|e|]; cbn [bind]; try discriminate.
  destruct (ct_valid sz d) eqn:V; [|discriminate]. intros E. injection E as <- <-. now apply Nat.eqb_eq in V.
Qed.
Lemma de_no_panic sz N data : de_int sz N data <> Panic /\ de_packed sz data <> Panic /\ de_ct sz data <> Panic.
Proof.
  unfold de_int, de_packed, de_ct. repeat split.
  - pose proof (read_vec_no_panic read_ct read_ct_no_panic (data, Z.of_nat N * ct_size sz + 8)) as H. destruct (read_vec _ _) as [[xs r]|e|]; cbn [bind]; [destruct (forallb _ _); discriminate|discriminate|contradiction].
  - pose proof (read_word_no_panic 4 (data, 4 + ct_size sz)) as H. destruct (read_word _ _) as [[n r]|e|]; cbn [bind]; [|discriminate|contradiction].
    pose proof (read_ct_no_panic r) as H'. destruct (read_ct r) as [[c r']|e|]; cbn [bind]; [destruct (ct_valid _ _); discriminate|discriminate|contradiction].
  - pose proof (read_ct_no_panic (data, ct_size sz)) as H'. destruct (read_ct _) as [[c r']|e|]; cbn [bind]; [destruct (ct_valid _ _); discriminate|discriminate|contradiction].
Qed.

(** Round trips. *)
Definition u64s (c : list Z) : Prop := Forall (fun w => 0 <= w < 2 ^ 64) c.
Lemma p64 : 256 ^ Z.of_nat 8 = 2 ^ 64. Proof. reflexivity. Qed.
Lemma read_words_ser : forall c rest lim, u64s c -> 8 * Z.of_nat (length c) <= lim -> read_seq (read_word 8) (length c) (flat_map (word_le 8) c ++ rest, lim) = Ok (c, (rest, lim - 8 * Z.of_nat (length c))).
Proof.
  induction c as [|w c IH]; intros rest lim U L; cbn [read_seq length flat_map].
  - cbn [app]. do 3 f_equal. cbn. lia.
  - inversion U as [|? ? Hw Uc]; subst. rewrite <- app_assoc, read_word_le by (rewrite ?p64; cbn [length] in L; lia). cbn [bind].
    rewrite IH by (auto; cbn [length] in L; lia). cbn [bind]. do 3 f_equal. lia.
Qed.
Lemma flat_words_length c : length (flat_map (word_le 8) c) = (8 * length c)%nat.
Proof. induction c as [|w c IH]; [reflexivity|]. cbn [flat_map length]. rewrite app_length, word_le_length, IH. lia. Qed.
Lemma ser_ct_length c : length (ser_ct c) = (8 * (length c + 1))%nat.
Proof. unfold ser_ct. rewrite app_length, word_le_length, flat_words_length. lia. Qed.
Lemma read_ct_ser c rest lim : u64s c -> Z.of_nat (length c) < 2 ^ 64 -> ct_size (length c) <= lim -> read_ct (ser_ct c ++ rest, lim) = Ok (c, (rest, lim - ct_size (length c))).
Proof.
  intros U L Q. unfold ct_size in *. apply read_vec_uncapped; [apply read_word_consumes; lia|]. exists (Z.of_nat (length c)), (flat_map (word_le 8) c ++ rest, lim - 8).
  unfold ser_ct. rewrite <- app_assoc, read_word_le by (rewrite ?p64; lia). split; [reflexivity|]. rewrite Nat2Z.id, read_words_ser by (auto; lia). do 3 f_equal. lia.
Qed.
Lemma read_cts_ser sz : forall bits rest lim, Forall (fun c => u64s c /\ length c = sz) bits -> Z.of_nat sz < 2 ^ 64 -> Z.of_nat (length bits) * ct_size sz <= lim ->
  read_seq read_ct (length bits) (flat_map ser_ct bits ++ rest, lim) = Ok (bits, (rest, lim - Z.of_nat (length bits) * ct_size sz)).
Proof.
  induction bits as [|c bits IH]; intros rest lim F Z64 L; cbn [read_seq length flat_map].
  - cbn [app]. do 3 f_equal. cbn [Z.of_nat]. lia.
  - inversion F as [|? ? [U E] Fc]; subst. assert (0 < ct_size (length c)) by (unfold ct_size; lia). cbn [length] in L. rewrite Nat2Z.inj_succ, Z.mul_succ_l in L.
    rewrite <- app_assoc, read_ct_ser by (auto; nia). cbn [bind]. rewrite IH by (auto; lia). cbn [bind]. do 3 f_equal. rewrite Nat2Z.inj_succ, Z.mul_succ_l. ring.
Qed.
Lemma de_int_ser sz N bits rest : length bits = N -> Z.of_nat N < 2 ^ 64 -> Z.of_nat sz < 2 ^ 64 -> Forall (fun c => u64s c /\ length c = sz) bits -> de_int sz N (ser_int bits ++ rest) = Ok bits.
Proof.
  intros L N64 Z64 F. unfold de_int.
  assert (read_vec read_ct (ser_int bits ++ rest, Z.of_nat N * ct_size sz + 8) = Ok (bits, (rest, 0))) as ->.
  { apply read_vec_uncapped; [exact read_ct_consumes|]. exists (Z.of_nat (length bits)), (flat_map ser_ct bits ++ rest, Z.of_nat N * ct_size sz).
    assert (0 < ct_size sz) by (unfold ct_size; lia). unfold ser_int. rewrite <- app_assoc, read_word_le by (rewrite ?p64; nia). split; [do 3 f_equal; lia|].
    rewrite Nat2Z.id, (read_cts_ser sz) by (auto; rewrite L; lia). do 3 f_equal. rewrite L. ring. }
  cbn [bind]. assert (forallb (ct_valid sz) bits = true) as ->; [|reflexivity].
  apply forallb_forall. intros c Hc. rewrite Forall_forall in F. apply Nat.eqb_eq. now apply F.
Qed.
Lemma de_ct_ser sz c rest : Z.of_nat sz < 2 ^ 64 -> u64s c -> length c = sz -> de_ct sz (ser_ct c ++ rest) = Ok c.
Proof.
  intros Z64 U L. unfold de_ct. rewrite <- L in *. rewrite read_ct_ser by (auto; lia). cbn [bind]. unfold ct_valid. rewrite Nat.eqb_refl. reflexivity.
Qed.
Lemma de_ct_sound sz data c : de_ct sz data = Ok c -> length c = sz.
Proof.
  unfold de_ct. destruct (read_ct (data, ct_size sz)) as [[d r]|e|]; cbn [bind]; try discriminate. destruct (ct_valid sz d) eqn:V; [|discriminate].
  intros E. injection E as <-. now apply Nat.eqb_eq in V.
Qed.
