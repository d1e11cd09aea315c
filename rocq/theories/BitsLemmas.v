(** Lemmas about bit lists and machine integers (no model definitions). *)
From Verif Require Import Base.
From Coq Require Import ZifyBool ZifyNat.
Ltac Zify.zify_post_hook ::= Z.div_mod_to_equations.

Lemma b2z_range b : 0 <= b2z b <= 1.
Proof. destruct b; simpl; lia. Qed.

Lemma pow2_pos n : 0 <= n -> 0 < 2 ^ n.
Proof. intros; apply Z.pow_pos_nonneg; lia. Qed.

Lemma pow2_S n : 2 ^ Z.of_nat (S n) = 2 * 2 ^ Z.of_nat n.
Proof. rewrite Nat2Z.inj_succ, Z.pow_succ_r; lia. Qed.

Lemma uval_range l : 0 <= uval l < 2 ^ Z.of_nat (length l).
Proof.
  induction l as [|b l IH]; cbn [uval length]; [simpl; lia|].
  rewrite pow2_S. pose proof (b2z_range b). lia.
Qed.

Lemma to_bits_length n z : length (to_bits n z) = n.
Proof. revert z; induction n; intros; cbn [to_bits length]; auto. Qed.

Lemma uval_to_bits n z : uval (to_bits n z) = z mod 2 ^ Z.of_nat n.
Proof.
  revert z; induction n as [|n IH]; intros z; cbn [to_bits uval].
  - simpl. rewrite Z.mod_1_r. reflexivity.
  - rewrite IH, pow2_S.
    pose proof (pow2_pos (Z.of_nat n) ltac:(lia)) as Hp.
    rewrite Z.rem_mul_r by lia.
    assert (b2z (Z.odd z) = z mod 2) as ->.
    { rewrite Zmod_odd. destruct (Z.odd z); reflexivity. }
    lia.
Qed.

Lemma to_bits_uval l : to_bits (length l) (uval l) = l.
Proof.
  induction l as [|b l IH]; cbn [to_bits uval length]; [reflexivity|].
  assert (Z.odd (b2z b + 2 * uval l) = b) as ->.
  { replace (2 * uval l) with (uval l * 2) by lia.
    rewrite Z.odd_add, Z.odd_mul. destruct b; simpl; now rewrite andb_false_r. }
  assert ((b2z b + 2 * uval l) / 2 = uval l) as -> by (pose proof (b2z_range b); lia).
  now rewrite IH.
Qed.

Lemma uval_inj l l' : length l = length l' -> uval l = uval l' -> l = l'.
Proof.
  intros Hl Hv. rewrite <- (to_bits_uval l), <- (to_bits_uval l'), Hl, Hv. reflexivity.
Qed.

Lemma to_bits_mod n z : to_bits n (z mod 2 ^ Z.of_nat n) = to_bits n z.
Proof.
  apply uval_inj; rewrite ?to_bits_length; [reflexivity|].
  rewrite !uval_to_bits. apply Z.mod_mod. pose proof (pow2_pos (Z.of_nat n)). lia.
Qed.

(** A list is the bits of [z] as soon as its value agrees modulo 2^n. *)
Lemma bits_eq l n z :
  length l = n -> (exists k, uval l = z + k * 2 ^ Z.of_nat n) -> l = to_bits n z.
Proof.
  intros Hl [k Hk]. apply uval_inj; rewrite ?to_bits_length; [exact Hl|].
  rewrite uval_to_bits.
  pose proof (uval_range l) as Hr. rewrite Hl in Hr.
  apply Z.mod_unique with (-k); [left; lia|lia].
Qed.

Lemma uval_app l1 l2 : uval (l1 ++ l2) = uval l1 + 2 ^ Z.of_nat (length l1) * uval l2.
Proof.
  induction l1 as [|b l1 IH]; cbn [uval app length]; [simpl (2 ^ Z.of_nat 0); lia|].
  rewrite IH, pow2_S. lia.
Qed.

Lemma uval_repeat_false n : uval (repeat false n) = 0.
Proof. induction n; cbn [repeat uval b2z]; lia. Qed.

Lemma uval_repeat_true n : uval (repeat true n) = 2 ^ Z.of_nat n - 1.
Proof. induction n; cbn [repeat uval b2z]; [reflexivity|]. rewrite pow2_S; lia. Qed.

Lemma to_bits_app n m z : to_bits (n + m) z = to_bits n z ++ to_bits m (z / 2 ^ Z.of_nat n).
Proof.
  revert z; induction n as [|n IH]; intros z; cbn [to_bits app Nat.add].
  - simpl (2 ^ Z.of_nat 0). now rewrite Z.div_1_r.
  - rewrite IH, pow2_S. f_equal. f_equal. f_equal.
    rewrite Z.div_div; [reflexivity|lia|apply pow2_pos; lia].
Qed.

Lemma interleave_length {A} (a b : list A) :
  length a = length b -> length (interleave a b) = (2 * length a)%nat.
Proof.
  revert b; induction a as [|x a IH]; destruct b as [|y b]; cbn; intros H; try lia.
  rewrite IH; lia.
Qed.

Lemma interleave_nth_even {A} (a b : list A) d i :
  length a = length b -> (i < length a)%nat -> nth (2 * i) (interleave a b) d = nth i a d.
Proof.
  revert b i; induction a as [|x a IH]; destruct b as [|y b]; cbn [length interleave]; intros i H Hi; try lia.
  destruct i as [|i]; [reflexivity|].
  replace (2 * S i)%nat with (S (S (2 * i))) by lia. cbn [nth]. apply IH; lia.
Qed.

Lemma interleave_nth_odd {A} (a b : list A) d i :
  length a = length b -> (i < length a)%nat -> nth (2 * i + 1) (interleave a b) d = nth i b d.
Proof.
  revert b i; induction a as [|x a IH]; destruct b as [|y b]; cbn [length interleave]; intros i H Hi; try lia.
  destruct i as [|i]; [reflexivity|].
  replace (2 * S i + 1)%nat with (S (S (2 * i + 1))) by lia. cbn [nth]. apply IH; lia.
Qed.

Lemma uval_nth_testbit l i : nth i l false = Z.testbit (uval l) (Z.of_nat i).
Proof.
  revert i; induction l as [|b l IH]; intros i; cbn [uval].
  - destruct i; cbn [nth]; now rewrite Z.bits_0.
  - destruct i as [|i]; cbn [nth].
    + simpl (Z.of_nat 0). rewrite Z.bit0_odd.
      replace (2 * uval l) with (uval l * 2) by lia.
      rewrite Z.odd_add, Z.odd_mul. destruct b; simpl; now rewrite andb_false_r.
    + rewrite IH, Nat2Z.inj_succ.
      replace (b2z b + 2 * uval l) with (2 * uval l + Z.b2z b) by (destruct b; cbn [b2z Z.b2z]; lia).
      symmetry. apply Z.testbit_succ_r. lia.
Qed.

Lemma to_bits_nth n z i : (i < n)%nat -> nth i (to_bits n z) false = Z.testbit z (Z.of_nat i).
Proof.
  intros Hi. rewrite uval_nth_testbit, uval_to_bits, Z.mod_pow2_bits_low; [reflexivity|lia].
Qed.

Lemma sval_cons b l : l <> [] -> sval (b :: l) = b2z b + 2 * sval l.
Proof.
  intros Hl. unfold sval. destruct l as [|c l]; [congruence|].
  cbn [uval length]. change (last (b :: c :: l) false) with (last (c :: l) false).
  destruct (last (c :: l) false); rewrite ?pow2_S; lia.
Qed.

Lemma sval_app l b : sval (l ++ [b]) = uval l - b2z b * 2 ^ Z.of_nat (length l).
Proof.
  unfold sval. rewrite last_last, app_length, uval_app. cbn [length uval].
  replace (Z.of_nat (length l + 1)) with (Z.of_nat (S (length l))) by lia. rewrite pow2_S.
  destruct b; cbn [b2z]; lia.
Qed.

Lemma list_snoc_cases {A} (l : list A) : l <> [] -> exists l' x, l = l' ++ [x].
Proof. intros H. destruct (exists_last H) as [l' [x ->]]. eauto. Qed.

Lemma sval_sint l : (0 < length l)%nat -> sval l = sint (Z.of_nat (length l)) (uval l).
Proof.
  intros Hl. destruct (list_snoc_cases l) as (l' & b & ->); [destruct l; simpl in *; try lia; congruence|].
  rewrite sval_app. unfold sint. rewrite uval_app, app_length. cbn [length uval].
  replace (Z.of_nat (length l' + 1) - 1) with (Z.of_nat (length l')) by lia.
  replace (Z.of_nat (length l' + 1)) with (Z.of_nat (S (length l'))) by lia. rewrite pow2_S.
  pose proof (uval_range l').
  destruct b; cbn [b2z]; destruct (Z.ltb_spec (uval l' + 2 ^ Z.of_nat (length l') * (1 + 2 * 0)) (2 ^ Z.of_nat (length l')));
   try (destruct (Z.ltb_spec (uval l' + 2 ^ Z.of_nat (length l') * (0 + 2 * 0)) (2 ^ Z.of_nat (length l')))); lia.
Qed.

Lemma sval_mod l : exists k, sval l = uval l + k * 2 ^ Z.of_nat (length l).
Proof. unfold sval. destruct (last l false); [exists (-1)|exists 0]; lia. Qed.

Lemma land_ones_mod a n : 0 <= n -> Z.land a (2 ^ n - 1) = a mod 2 ^ n.
Proof.
  intros H. replace (2 ^ n - 1) with (Z.ones n) by (rewrite Z.ones_equiv; lia).
  now apply Z.land_ones.
Qed.
