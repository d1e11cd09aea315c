(** Proofs: Barrett reduction, Zq conversions, rounded division, triangular pairs. *)
From Coq Require Import ZifyBool ZifyNat.
From Verif Require Import Base Math.

Lemma uint_lim_pos n : 0 < uint_lim n.
Proof. unfold uint_lim. apply Z.pow_pos_nonneg; lia. Qed.
Lemma uint_lim_half n : (0 < n)%nat -> uint_lim n = 2 * 2 ^ (64 * Z.of_nat n - 1).
Proof. intros H. unfold uint_lim. rewrite <- Z.pow_succ_r by lia. f_equal. lia. Qed.

(** The configuration of an accepted modulus. *)
Definition good (n : nat) (m : Z) (c : barrett) : Prop :=
  limbs c = n /\ modulus c = m /\ cR c = uint_lim n / m /\ cT c = uint_lim n mod m /\ cS c = uint_lim n * (uint_lim n mod m) / m.
Lemma derive_ok n m : (0 < n)%nat -> 2 <= m <= 2 ^ (64 * Z.of_nat n - 1) -> exists c, derive_barrett n m = Ok c /\ good n m c.
Proof.
  intros Hn Hm. pose proof (uint_lim_half n Hn) as Hh. pose proof (uint_lim_pos n) as Hp. set (W := uint_lim n) in *.
  unfold derive_barrett. destruct n as [|n']; [lia|]. fold W. replace (2 ^ (64 * Z.of_nat (S n') - 1) <? m) with false by lia. replace (m =? 0) with false by lia.
  cbv zeta. rewrite !Z.quot_div_nonneg by nia.
  set (r := W / m). assert (Er : W = m * r + W mod m) by (subst r; apply Z.div_mod; lia). pose proof (Z.mod_pos_bound W m ltac:(lia)) as Bt.
  assert (Es : W * W / m - W * r = W * (W mod m) / m).
  { replace (W * W) with (W * (W mod m) + (W * r) * m) by (transitivity (W * (m * r + W mod m)); [ring|f_equal; auto]). rewrite Z.div_add by lia. lia. }
  rewrite Es. assert (Et : W - r * m = W mod m) by (transitivity (m * r + W mod m - r * m); [f_equal; auto|ring]). rewrite Et.
  assert (Bs : 0 <= W * (W mod m) / m < W). { clear Er Es Et. clearbody r. set (t := W mod m) in *. clearbody t. split; [apply Z.div_pos; [apply Z.mul_nonneg_nonneg|]; lia|]. apply Z.div_lt_upper_bound; [lia|]. rewrite (Z.mul_comm m). apply Z.mul_lt_mono_pos_l; lia. }
  assert (Br : 0 <= r < W) by (subst r; split; [apply Z.div_pos|apply Z.div_lt]; lia).
  unfold emit_limbs. fold W. rewrite !Z.abs_eq by lia.
  replace (m <? W) with true by lia. replace (r <? W) with true by lia. replace (W * (W mod m) / m <? W) with true by lia. replace (W mod m <? W) with true by lia.
  cbn [bind]. eexists. split; [reflexivity|]. unfold good. cbn. auto.
Qed.

Lemma reduce_ok c v : 0 < modulus c -> 0 <= v < 2 * modulus c -> 2 * modulus c <= uint_lim (limbs c) -> reduce c v = v mod modulus c.
Proof.
  intros Hq Hv Hw. unfold reduce. destruct (v <? modulus c) eqn:E; [rewrite Z.mod_small; lia|]. rewrite Z.mod_small by lia.
  rewrite <- (Z.mod_small (v - modulus c) (modulus c)) by lia. replace (v - modulus c) with (v + (-1) * modulus c) by lia. now rewrite Z.mod_add by lia.
Qed.
Lemma sub_mod_lim W a k q : 0 < W -> 0 <= a - k * q < W -> (a mod W - (k * q) mod W) mod W = a - k * q.
Proof. intros HW H. rewrite <- Zminus_mod. now apply Z.mod_small. Qed.
Lemma sub_mod_lim' W a k q : 0 < W -> 0 <= a - k * q < W -> (a - (k * q) mod W) mod W = a - k * q.
Proof. intros HW H. rewrite Zminus_mod_idemp_r. now apply Z.mod_small. Qed.

Lemma hi_bound W m hi : 2 <= m -> 2 * m <= W -> 0 <= hi < W ->
  let T := W mod m in let k := hi * (W * T / m) / W in 0 <= hi * T - k * m < 2 * m.
Proof.
  intros Hm HW Hh T k. pose proof (Z.mod_pos_bound W m ltac:(lia)) as BT. fold T in BT.
  set (S := W * T / m) in *. pose proof (Z.div_mod (W * T) m ltac:(lia)) as ES. fold S in ES. pose proof (Z.mod_pos_bound (W * T) m ltac:(lia)) as Bs. set (s := (W * T) mod m) in *.
  pose proof (Z.div_mod (hi * S) W ltac:(lia)) as EK. fold k in EK. pose proof (Z.mod_pos_bound (hi * S) W ltac:(lia)) as Bk. set (u := (hi * S) mod W) in *.
  (* W (hi T - k m) = hi (m S + s) - m (hi S - u) = hi s + m u *)
  assert (E : W * (hi * T - k * m) = hi * s + m * u).
  { transitivity (hi * (W * T) - m * (W * k)); [ring|]. rewrite ES. replace (W * k) with (hi * S - u) by lia. ring. }
  clearbody s u k. clear ES EK. clearbody S T. set (X := hi * T - k * m) in *. clearbody X. assert (hi * s <= W * (m - 1)) by (apply Z.mul_le_mono_nonneg; lia). assert (m * u <= m * (W - 1)) by (apply Z.mul_le_mono_nonneg_l; lia).
  assert (0 <= hi * s) by (apply Z.mul_nonneg_nonneg; lia). assert (0 <= m * u) by (apply Z.mul_nonneg_nonneg; lia). split; [apply (Z.mul_le_mono_pos_l 0 X W)|apply (Z.mul_lt_mono_pos_l W X (2 * m))]; lia.
Qed.
Lemma lo_bound W m lo : 2 <= m -> 2 * m <= W -> 0 <= lo < W -> let k := lo * (W / m) / W in 0 <= lo - k * m < 2 * m.
Proof.
  intros Hm HW Hh k. set (r := W / m) in *. pose proof (Z.div_mod W m ltac:(lia)) as ER. fold r in ER. pose proof (Z.mod_pos_bound W m ltac:(lia)) as Bt. set (t := W mod m) in *.
  pose proof (Z.div_mod (lo * r) W ltac:(lia)) as EK. fold k in EK. pose proof (Z.mod_pos_bound (lo * r) W ltac:(lia)) as Bk. set (u := (lo * r) mod W) in *.
  assert (E : W * (lo - k * m) = lo * t + m * u).
  { transitivity (lo * W - m * (W * k)); [ring|]. replace (W * k) with (lo * r - u) by lia. rewrite ER at 1. ring. }
  clearbody t u k. clear ER EK. clearbody r. set (X := lo - k * m) in *. clearbody X. assert (lo * t <= W * (m - 1)) by (apply Z.mul_le_mono_nonneg; lia). assert (m * u <= m * (W - 1)) by (apply Z.mul_le_mono_nonneg_l; lia).
  assert (0 <= lo * t) by (apply Z.mul_nonneg_nonneg; lia). assert (0 <= m * u) by (apply Z.mul_nonneg_nonneg; lia). split; [apply (Z.mul_le_mono_pos_l 0 X W)|apply (Z.mul_lt_mono_pos_l W X (2 * m))]; lia.
Qed.
Lemma barrett_ok n m c lo hi : (0 < n)%nat -> 2 <= m <= 2 ^ (64 * Z.of_nat n - 1) -> good n m c -> 0 <= lo < uint_lim n -> 0 <= hi < uint_lim n ->
  barrett_reduce c lo hi = (lo + uint_lim n * hi) mod m.
Proof.
  intros Hn Hm (G1 & G2 & G3 & G4 & G5) Hlo Hhi. pose proof (uint_lim_half n Hn) as Hh. pose proof (uint_lim_pos n) as Hp.
  unfold barrett_reduce. rewrite G1, G3, G4, G5. set (W := uint_lim n) in *.
  pose proof (hi_bound W m hi ltac:(lia) ltac:(lia) Hhi) as B1. pose proof (lo_bound W m lo ltac:(lia) ltac:(lia) Hlo) as B2. cbv zeta in B1, B2.
  rewrite G2. rewrite (sub_mod_lim W (hi * (W mod m))) by lia. rewrite (sub_mod_lim' W lo) by lia.
  assert (Q : forall v, 0 <= v < 2 * m -> reduce c v = v mod m).
  { intros v Hv. rewrite <- G2. apply reduce_ok; rewrite ?G1, ?G2; fold W; lia. }
  rewrite (Q (hi * _ - _)) by lia. rewrite (Q (lo - _)) by lia.
  set (k1 := hi * (W * (W mod m) / m) / W) in *. set (k2 := lo * (W / m) / W) in *.
  pose proof (Z.mod_pos_bound (hi * (W mod m) - k1 * m) m ltac:(lia)). pose proof (Z.mod_pos_bound (lo - k2 * m) m ltac:(lia)).
  rewrite (Z.mod_small (_ + _) W) by lia. rewrite Q by lia.
  replace (lo - k2 * m) with (lo + (- k2) * m) by ring. replace (hi * (W mod m) - k1 * m) with (hi * (W mod m) + (- k1) * m) by ring.
  rewrite !Z.mod_add by lia. rewrite <- Zplus_mod. rewrite (Zplus_mod lo), (Zplus_mod lo (W * hi)). f_equal. f_equal.
  rewrite Zmult_mod_idemp_r. f_equal. ring.
Qed.
Lemma mul_mod_ok n m c a b : (0 < n)%nat -> 2 <= m <= 2 ^ (64 * Z.of_nat n - 1) -> good n m c -> 0 <= a < uint_lim n -> 0 <= b < uint_lim n ->
  mul_mod c a b = (a * b) mod m.
Proof.
  intros Hn Hm G Ha Hb. assert (G1 : limbs c = n) by apply G. unfold mul_mod. rewrite G1. pose proof (uint_lim_pos n) as Hp. set (W := uint_lim n) in *.
  rewrite (barrett_ok n m c) by (auto; fold W; try apply Z.mod_pos_bound; try split; try apply Z.div_pos; try apply Z.div_lt_upper_bound; nia).
  fold W. f_equal. pose proof (Z.div_mod (a * b) W ltac:(lia)). lia.
Qed.

(** ** Conversions *)
Lemma from_i64_ok c x : 0 < modulus c -> Z.abs x <= modulus c \/ 0 <= x -> modulus c <= uint_lim (limbs c) -> Z.abs x < uint_lim (limbs c) -> zq_from_i64 c x = x mod modulus c.
Proof.
  intros Hq Hx Hw Hw'. unfold zq_from_i64. destruct (x <? 0) eqn:E.
  - rewrite (Z.mod_small (modulus c - Z.abs x)) by lia. replace (modulus c - Z.abs x) with (x + 1 * modulus c) by lia. now rewrite Z.mod_add by lia.
  - f_equal. lia.
Qed.

(** ** Rounded division *)
Lemma div_rounded_value p bits a b : 0 < b -> 0 <= a -> a / b + 1 < 2 ^ bits -> div_rounded bits p a b = Ok ((a + (b - b / 2)) / b).
Proof.
  intros Hb Ha Ho. unfold div_rounded. replace (b =? 0) with false by lia. cbv zeta.
  destruct (b / 2 <=? a mod b) eqn:E.
  - unfold uadd. replace (a / b + 1 <? 2 ^ bits) with true by lia. f_equal.
    apply (Z.div_unique_pos _ _ _ (a mod b - b / 2)); pose proof (Z.mod_pos_bound a b Hb); pose proof (Z.div_mod a b ltac:(lia)); nia.
  - f_equal. apply (Z.div_unique_pos _ _ _ (a mod b + (b - b / 2))); pose proof (Z.mod_pos_bound a b Hb); pose proof (Z.div_mod a b ltac:(lia)); nia.
Qed.

(** ** Triangular pairs *)
Local Open Scope nat_scope.
Fixpoint tails_pairs {A} (l : list A) : list (A * A) := match l with [] => [] | x :: t => map (fun y => (x, y)) (x :: t) ++ tails_pairs t end.
Lemma nth_error_skipn {A} (l : list A) : forall k, nth_error l k = nth_error (skipn k l) 0.
Proof. induction l as [|x l IH]; intros [|k]; cbn; auto. apply IH. Qed.
Lemma skipn_S {A} (l : list A) k x t : skipn k l = x :: t -> skipn (S k) l = t.
Proof. revert k. induction l as [|y l IH]; intros [|k] H; cbn in *; try discriminate; [congruence|]. now apply IH. Qed.
Lemma tri_row {A} (items : list A) o x t : skipn o items = x :: t -> forall row i fuel rest, skipn i items = row -> row <> [] ->
  tri_collect fuel items (S o, S o) = Some rest ->
  tri_collect (length row + fuel) items (o, i) = Some (map (fun y => (x, y)) row ++ rest).
Proof.
  intros Ho. assert (No : nth_error items o = Some x) by (rewrite nth_error_skipn, Ho; reflexivity).
  assert (Lo : o < length items) by (apply nth_error_Some; congruence).
  induction row as [|y row IH]; intros i fuel rest Hi Hn Hf; [congruence|]. cbn [length Nat.add tri_collect].
  unfold tri_next. replace (length items <=? o) with false by lia. rewrite No.
  assert (Ni : nth_error items i = Some y) by (rewrite nth_error_skipn, Hi; reflexivity). rewrite Ni.
  pose proof (skipn_S _ _ _ _ Hi) as Hs. assert (Li : length items = S (i + length row)).
  { pose proof (skipn_length i items) as L. rewrite Hi in L. cbn [length] in L. assert (i < length items) by (apply nth_error_Some; congruence). lia. }
  destruct row as [|z row].
  - cbn [length] in Li. replace (length items <=? S i) with true by lia. cbn [length Nat.add]. rewrite Hf. reflexivity.
  - cbn [length] in Li. replace (length items <=? S i) with false by lia. rewrite (IH (S i) fuel rest Hs ltac:(discriminate) Hf). reflexivity.
Qed.
Lemma tri_from {A} (items : list A) : forall l o, skipn o items = l -> forall fuel, length (tails_pairs l) < fuel -> tri_collect fuel items (o, o) = Some (tails_pairs l).
Proof.
  induction l as [|x t IH]; intros o Ho fuel Hf; cbn [tails_pairs] in *.
  - destruct fuel as [|fuel]; [lia|]. cbn [tri_collect]. unfold tri_next. assert (length items <= o) by (pose proof (skipn_length o items) as L; rewrite Ho in L; cbn in L; lia).
    replace (length items <=? o) with true by lia. reflexivity.
  - rewrite app_length, map_length in Hf. replace fuel with (length (x :: t) + (fuel - length (x :: t))) by lia.
    apply (tri_row items o x t Ho); [auto|discriminate|]. apply IH; [now apply (skipn_S _ _ x)|lia].
Qed.
Lemma tails_pairs_in {A} (l : list A) : forall a b, In (a, b) (tails_pairs l) <-> exists i j, i <= j /\ nth_error l i = Some a /\ nth_error l j = Some b.
Proof.
  induction l as [|x t IH]; intros a b; cbn [tails_pairs].
  - split; [intros []|]. intros ([|i] & j & _ & H & _); discriminate.
  - rewrite in_app_iff, in_map_iff, IH. split.
    + intros [(y & E & Hy)|(i & j & H1 & H2 & H3)].
      * injection E as <- <-. apply In_nth_error in Hy as [j Hj]. exists 0, j. split; [lia|auto].
      * exists (S i), (S j). split; [lia|auto].
    + intros ([|i] & j & H1 & H2 & H3).
      * cbn in H2. injection H2 as <-. left. exists b. split; [auto|]. eapply nth_error_In; eauto.
      * destruct j as [|j]; [lia|]. right. exists i, j. split; [lia|auto].
Qed.
Lemma tails_pairs_length {A} (l : list A) : 2 * length (tails_pairs l) = length l * (length l + 1).
Proof. induction l as [|x t IH]; cbn [tails_pairs length]; [auto|]. rewrite app_length, map_length. cbn [length]. nia. Qed.
Lemma tails_pairs_index {A} (l : list A) : tails_pairs l = flat_map (fun i => match nth_error l i with Some a => map (fun b => (a, b)) (skipn i l) | None => [] end) (seq 0 (length l)).
Proof.
  induction l as [|x t IH]; cbn [tails_pairs length seq flat_map nth_error skipn]; [auto|]. f_equal. rewrite IH. rewrite <- seq_shift, flat_map_concat_map, flat_map_concat_map, map_map. reflexivity.
Qed.

(** ** More on conversions *)
Local Open Scope Z_scope.
Lemma from_i64_exact n m c x : (0 < n)%nat -> 2 <= m <= 2 ^ (64 * Z.of_nat n - 1) -> good n m c -> Z.abs x < uint_lim n ->
  zq_from_i64 c x = x mod m <-> (- m <= x \/ (m | uint_lim n)).
Proof.
  intros Hn Hm (G1 & G2 & _) Hx. pose proof (uint_lim_half n Hn) as Hh. set (h := 2 ^ (64 * Z.of_nat n - 1)) in *. clearbody h. set (W := uint_lim n) in *.
  destruct (Z_le_gt_dec (- m) x) as [L|L].
  - split; [auto|]. intros _. rewrite <- G2. apply from_i64_ok; rewrite ?G1, ?G2; fold W; clearbody W; try (left; lia); lia.
  - unfold zq_from_i64. rewrite G1, G2. fold W. clearbody W. clear G1 G2 Hn. assert (Hx0 : (x <? 0) = true) by lia. rewrite Hx0.
    assert (E : (m - Z.abs x) mod W = W + m + x) by (symmetry; apply (Z.mod_unique_pos _ _ (-1)); lia).
    cbv zeta. rewrite E. replace (W + m + x) with (W + x + 1 * m) by ring. rewrite Z.mod_add by lia. clear E. split.
    + intros H. right. apply Z.mod_divide; [lia|]. replace W with (W + x - x) by ring. rewrite Zminus_mod, H, Z.sub_diag. apply Z.mod_0_l; lia.
    + intros [H|H]; [lia|]. destruct H as [k Hk]. rewrite Hk. rewrite Z.add_comm. apply Z.mod_add. lia.
Qed.
Lemma derive_rejects n m : (0 < n)%nat -> 2 ^ (64 * Z.of_nat n - 1) < m -> exists e, derive_barrett n m = Err e.
Proof. intros Hn H. unfold derive_barrett. destruct n as [|n]; [lia|]. replace (2 ^ (64 * Z.of_nat (S n) - 1) <? m) with true by lia. eauto. Qed.
