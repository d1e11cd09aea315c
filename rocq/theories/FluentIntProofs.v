(** Lemmas about FluentInt.v. *)
From Verif Require Import Base BitsLemmas Alu AluProofs MuxGraph IsaProofs FluentInt.
Ltac Zify.zify_post_hook ::= idtac.

Lemma ushl_ok p w a s : 0 <= s < w -> ushl p w a s = Ok (uwrap w (a * 2 ^ s)).
Proof. intros H. unfold ushl. destruct (Z.leb_spec 0 s); [|lia]. destruct (Z.ltb_spec s w); [reflexivity|lia]. Qed.
Lemma ushr_ok p w a s : 0 <= s < w -> ushr p w a s = Ok (a / 2 ^ s).
Proof. intros H. unfold ushr. destruct (Z.leb_spec 0 s); [|lia]. destruct (Z.ltb_spec s w); [reflexivity|lia]. Qed.

Lemma shift_bits p v len : (len <= 128)%nat -> mapM (fun i => x <- ushr p 128 v (Z.of_nat i) ;; Ok (Z.odd x)) (seq 0 len) = Ok (to_bits len v).
Proof.
  intros H. rewrite to_bits_map. apply mapM_ok. intros i Hi. apply in_seq in Hi. rewrite ushr_ok by lia. cbn [bind]. reflexivity.
Qed.

Lemma pow_le m n : 0 <= m <= n -> 2 ^ m <= 2 ^ n.
Proof. intros H. apply Z.pow_le_mono_r; lia. Qed.
Lemma pow_lt m n : 0 <= m < n -> 2 ^ m < 2 ^ n.
Proof. intros H. apply Z.pow_lt_mono_r; lia. Qed.

Lemma u_fold_ok p : forall bits i s, (i + length bits <= 128)%nat -> 0 <= s < 2 ^ Z.of_nat i ->
  u_fold p bits i s = Ok (s + 2 ^ Z.of_nat i * uval bits).
Proof.
  induction bits as [|x bits IH]; intros i s L H; cbn [u_fold uval length] in *.
  - f_equal. ring.
  - rewrite ushl_ok by lia. cbn [bind]. pose proof (b2z_range x) as B. assert (P : 0 < 2 ^ Z.of_nat i) by (apply pow2_pos; lia).
    assert (L2 : b2z x * 2 ^ Z.of_nat i < 2 ^ 128).
    { apply Z.le_lt_trans with (1 * 2 ^ Z.of_nat i); [apply Z.mul_le_mono_nonneg_r; lia|]. rewrite Z.mul_1_l. apply pow_lt. lia. }
    unfold uwrap. rewrite Z.mod_small by (split; [apply Z.mul_nonneg_nonneg; lia|exact L2]).
    rewrite lor_shift_add by lia. rewrite IH; [|lia|rewrite pow2_S; split; [assert (0 <= b2z x * 2 ^ Z.of_nat i) by (apply Z.mul_nonneg_nonneg; lia); lia|]].
    + f_equal. rewrite pow2_S. ring.
    + assert (b2z x * 2 ^ Z.of_nat i <= 1 * 2 ^ Z.of_nat i) by (apply Z.mul_le_mono_nonneg_r; lia). lia.
Qed.
Lemma u_from_bits_ok p bits : (length bits <= 128)%nat -> u_from_bits p bits = Ok (uval bits).
Proof. intros H. unfold u_from_bits. rewrite u_fold_ok; [|lia|cbn; lia]. f_equal. change (2 ^ Z.of_nat 0) with 1. ring. Qed.

Lemma sint_small x : 0 <= x < 2 ^ 127 -> sint 128 x = x.
Proof. intros H. unfold sint. change (128 - 1) with 127. destruct (Z.ltb_spec x (2 ^ 127)); [reflexivity|lia]. Qed.
Lemma sshl_bit p b i : 0 <= i < 128 -> sshl p (b2z b) i = Ok (if (i =? 127) && b then (-1) * 2 ^ i else b2z b * 2 ^ i).
Proof.
  intros H. unfold sshl. assert (uwrap 128 (b2z b) = b2z b) as -> by (unfold uwrap; rewrite Z.mod_small; [reflexivity|destruct b; cbn; lia]).
  rewrite ushl_ok by lia. cbn [bind]. f_equal. assert (0 < 2 ^ i) by (apply pow2_pos; lia). assert (2 ^ i < 2 ^ 128) by (apply pow_lt; lia).
  unfold uwrap. destruct b; cbn [b2z]; rewrite ?Z.mul_1_l, ?Z.mul_0_l, ?andb_true_r, ?andb_false_r; [|reflexivity].
  rewrite Z.mod_small by lia. destruct (Z.eqb_spec i 127) as [->|N]; [reflexivity|]. apply sint_small. split; [lia|]. apply pow_lt. lia.
Qed.
Lemma s_fold_ok p : forall bits i s, (i + length bits <= 128)%nat -> 0 <= s < 2 ^ Z.of_nat i -> (i < 128)%nat ->
  s_fold p bits i s = Ok (sint 128 (s + 2 ^ Z.of_nat i * uval bits)).
Proof.
  induction bits as [|x bits IH]; intros i s L H I1; cbn [s_fold uval length] in *.
  - f_equal. rewrite Z.mul_0_r, Z.add_0_r. rewrite sint_small; [reflexivity|]. assert (2 ^ Z.of_nat i <= 2 ^ 127) by (apply pow_le; lia). lia.
  - rewrite sshl_bit by lia. cbn [bind]. rewrite (fun b => match b as b return Z.lor s (if b then _ else _) = if b then _ else _ with true => lor_shift_add s (-1) (Z.of_nat i) ltac:(lia) H | false => lor_shift_add s (b2z x) (Z.of_nat i) ltac:(lia) H end).
    assert (P : 0 < 2 ^ Z.of_nat i) by (apply pow2_pos; lia).
    destruct (Z.eqb_spec (Z.of_nat i) 127) as [E|N]; cbn [andb].
    + assert (i = 127%nat) as -> by lia. destruct bits; [|cbn [length] in L; lia]. cbn [s_fold uval]. f_equal. rewrite Z.mul_0_r, Z.add_0_r.
      change (Z.of_nat 127) with 127 in *. destruct x; cbn [b2z].
      * unfold sint. change (128 - 1) with 127. destruct (Z.ltb_spec (s + 2 ^ 127 * 1) (2 ^ 127)) as [Q|Q]; [lia|]. change (2 ^ 128) with (2 * 2 ^ 127). ring.
      * rewrite sint_small by lia. ring.
    + rewrite IH.
      * f_equal. f_equal. rewrite pow2_S. ring.
      * lia.
      * rewrite pow2_S. destruct x; cbn [b2z]; lia.
      * lia.
Qed.
Lemma s_extend_0 p : forall k from v, (from + k <= 128)%nat -> s_extend p 0 from k v = Ok v.
Proof.
  induction k as [|k IH]; intros from v L; [reflexivity|]. cbn [s_extend]. change 0 with (b2z false). rewrite sshl_bit by lia. cbn [bind].
  rewrite andb_false_r. cbn [b2z]. rewrite Z.mul_0_l, Z.lor_0_r. apply IH. lia.
Qed.
Lemma s_extend_1 p : forall k from v, (from + k = 128)%nat -> (0 < k)%nat -> 0 <= v < 2 ^ Z.of_nat from -> s_extend p 1 from k v = Ok (v - 2 ^ Z.of_nat from).
Proof.
  induction k as [|k IH]; intros from v L K H; [lia|]. cbn [s_extend]. change 1 with (b2z true). rewrite sshl_bit by lia. cbn [bind]. rewrite andb_true_r.
  destruct (Z.eqb_spec (Z.of_nat from) 127) as [E|N].
  - rewrite lor_shift_add by lia. assert (k = 0)%nat as -> by lia. cbn [s_extend]. f_equal; ring.
  - rewrite lor_shift_add by lia. cbn [b2z]. change (b2z true) with 1. rewrite IH; [|lia|lia|rewrite pow2_S; lia]. f_equal. rewrite pow2_S. ring.
Qed.
Lemma last_testbit l : (0 < length l)%nat -> last l false = Z.odd (uval l / 2 ^ (Z.of_nat (length l) - 1)).
Proof.
  intros H. assert (N : l <> []) by (intros ->; cbn in H; lia). destruct (list_snoc_cases l N) as (l' & x & ->).
  rewrite last_last, uval_app, app_length. cbn [length uval]. replace (Z.of_nat (length l' + 1) - 1) with (Z.of_nat (length l')) by lia.
  pose proof (uval_range l') as R. assert (P : 0 < 2 ^ Z.of_nat (length l')) by (apply pow2_pos; lia).
  replace (uval l' + 2 ^ Z.of_nat (length l') * (b2z x + 2 * 0)) with (uval l' + b2z x * 2 ^ Z.of_nat (length l')) by ring.
  rewrite Z.div_add by lia. rewrite Z.div_small by lia. destruct x; reflexivity.
Qed.
Lemma s_from_bits_ok p bits : (0 < length bits <= 128)%nat -> s_from_bits p bits = Ok (sval bits).
Proof.
  intros L. unfold s_from_bits. rewrite s_fold_ok; [|lia|cbn; lia|lia]. cbn [bind]. change (2 ^ Z.of_nat 0) with 1. rewrite Z.add_0_l, Z.mul_1_l.
  unfold sshr. rewrite ushr_ok by lia. cbn [bind]. pose proof (uval_range bits) as R.
  destruct (Nat.eq_dec (length bits) 128) as [E|E].
  - rewrite E. cbn [Nat.sub s_extend]. f_equal. rewrite sval_sint by lia. rewrite E. reflexivity.
  - assert (B : 2 ^ Z.of_nat (length bits) <= 2 ^ 127) by (apply pow_le; lia). rewrite sint_small by lia. rewrite <- last_testbit by lia.
    unfold sval. destruct (last bits false); cbn [b2z].
    + rewrite s_extend_1; [reflexivity|lia|lia|exact R].
    + rewrite s_extend_0 by lia. f_equal. ring.
Qed.
Lemma sval_to_bits n v : (0 < n)%nat -> - 2 ^ (Z.of_nat n - 1) <= v < 2 ^ (Z.of_nat n - 1) -> sval (to_bits n v) = v.
Proof.
  intros N H. rewrite sval_sint by (rewrite to_bits_length; lia). rewrite to_bits_length, uval_to_bits.
  assert (E : 2 ^ Z.of_nat n = 2 * 2 ^ (Z.of_nat n - 1)) by (rewrite <- Z.pow_succ_r by lia; f_equal; lia).
  assert (P : 0 < 2 ^ (Z.of_nat n - 1)) by (apply pow2_pos; lia). unfold sint. rewrite E.
  destruct (Z.ltb_spec v 0) as [Q|Q].
  - replace (v mod (2 * 2 ^ (Z.of_nat n - 1))) with (v + 2 * 2 ^ (Z.of_nat n - 1)).
    + destruct (Z.ltb_spec (v + 2 * 2 ^ (Z.of_nat n - 1)) (2 ^ (Z.of_nat n - 1))); lia.
    + apply Z.mod_unique_pos with (-1); lia.
  - rewrite Z.mod_small by lia. destruct (Z.ltb_spec v (2 ^ (Z.of_nat n - 1))); lia.
Qed.

(** C43, unsigned. *)
Lemma unsigned_ok p n v : (n <= 128)%nat -> 0 <= v < 2 ^ 128 ->
  if v <? 2 ^ Z.of_nat n then int_encrypt p Unsigned v n = Ok (to_bits n v) else int_encrypt p Unsigned v n = Panic.
Proof.
  intros N V. unfold int_encrypt, assert_in_bounds, u_assert_in_bounds. destruct (Z.eqb_spec (Z.of_nat n) 128) as [E|E].
  - rewrite E. destruct (Z.ltb_spec v (2 ^ 128)); [|lia]. cbn [bind pt_to_bits]. apply shift_bits. lia.
  - rewrite ushl_ok by lia. cbn [bind]. rewrite Z.mul_1_l. unfold uwrap. rewrite Z.mod_small by (split; [apply Z.pow_nonneg; lia|apply pow_lt; lia]).
    destruct (v <? 2 ^ Z.of_nat n); [|reflexivity]. cbn [bind pt_to_bits]. apply shift_bits. lia.
Qed.
(** C43, signed. *)
Lemma signed_ok p n v : (1 <= n <= 128)%nat -> (n = 128%nat -> p = Release) -> - 2 ^ 127 <= v < 2 ^ 127 ->
  if (- 2 ^ (Z.of_nat n - 1) <=? v) && (v <? 2 ^ (Z.of_nat n - 1)) then int_encrypt p Signed v n = Ok (to_bits n v) else int_encrypt p Signed v n = Panic.
Proof.
  intros N R V. unfold int_encrypt, assert_in_bounds, s_assert_in_bounds, usub. destruct (Z.leb_spec 1 (Z.of_nat n)); [|lia]. cbn [bind].
  rewrite ushl_ok by lia. cbn [bind]. rewrite Z.mul_1_l. set (q := 2 ^ (Z.of_nat n - 1)). assert (P : 0 < q) by (apply pow2_pos; lia).
  assert (Q : q <= 2 ^ 127) by (apply pow_le; lia). unfold uwrap. rewrite Z.mod_small by (assert (2 ^ 127 < 2 ^ 128) by (apply pow_lt; lia); lia).
  destruct (Z.leb_spec 1 q); [|lia]. cbn [bind]. rewrite (sint_small (q - 1)) by lia.
  destruct (Z.eqb_spec (Z.of_nat n) 128) as [E|E].
  - assert (n = 128%nat) as -> by lia. rewrite R by reflexivity. subst q. change (sint 128 (2 ^ (Z.of_nat 128 - 1))) with (- 2 ^ 127).
    change (2 ^ (Z.of_nat 128 - 1)) with (2 ^ 127) in *. cbn [sneg]. unfold sneg. rewrite Z.eqb_refl. cbn [bind orb]. 
    destruct (Z.leb_spec (- 2 ^ 127) v); [|lia]. destruct (Z.ltb_spec v (2 ^ 127)); [|lia]. cbn [andb pt_to_bits bind]. apply shift_bits. lia.
  - assert (Q' : q < 2 ^ 127) by (apply pow_lt; lia). rewrite sint_small by lia. unfold sneg. destruct (Z.eqb_spec q (- 2 ^ 127)); [lia|]. cbn [bind orb].
    destruct (Z.leb_spec v (q - 1)); destruct (Z.ltb_spec v q); try lia; destruct (Z.leb_spec (- q) v); cbn [andb bind]; try reflexivity.
    cbn [pt_to_bits]. apply shift_bits. lia.
Qed.
Lemma decrypt_ok p sg bits : (length bits <= 128)%nat -> (sg = Signed -> bits <> []) ->
  int_decrypt p sg bits = Ok (match sg with Unsigned => uval bits | Signed => sval bits end).
Proof.
  intros L N. destruct sg; cbn [int_decrypt pt_from_bits]; unfold int_decrypt; cbn [pt_from_bits].
  - apply u_from_bits_ok. exact L.
  - apply s_from_bits_ok. destruct bits; [now destruct (N eq_refl)|cbn [length] in *; lia].
Qed.
