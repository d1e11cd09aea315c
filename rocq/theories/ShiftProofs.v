(** Lemmas about the barrel shifter. *)
From Verif Require Import Base Spec BitsLemmas Combos Circuits CircuitsProofs.
From Coq Require Import ZifyBool ZifyNat.
Ltac Zify.zify_post_hook ::= Z.div_mod_to_equations.

(** Bit [j] (index 0 = most significant) of an n-bit word [f] shifted by [s]. *)
Definition shifted_be (n : nat) (dir : shift_dir) (mode : shift_mode) (msb : bool) (f : nat -> bool) (s j : nat) : bool :=
  match mode, dir with
  | MLogical, DLeft => if (j + s <? n)%nat then f (j + s)%nat else false
  | MLogical, DRight => if (s <=? j)%nat then f (j - s)%nat else false
  | MArithmetic, _ => if (s <=? j)%nat then f (j - s)%nat else msb
  | MRotation, DLeft => f ((j + s) mod n)%nat
  | MRotation, DRight => f ((j + (n - s mod n)) mod n)%nat
  end.

Lemma mod_add_r a b n : (n <> 0)%nat -> ((a + b mod n) mod n = (a + b) mod n)%nat.
Proof. intros. now rewrite Nat.add_mod_idemp_r. Qed.

Lemma rot_right_comp j s1 s2 n : (n <> 0)%nat ->
  (((j + (n - s2 mod n)) mod n + (n - s1 mod n)) mod n = (j + (n - (s1 + s2) mod n)) mod n)%nat.
Proof.
  intros Hn. rewrite Nat.add_mod_idemp_l by exact Hn.
  rewrite (Nat.add_mod s1 s2 n Hn).
  pose proof (Nat.mod_upper_bound s1 n Hn). pose proof (Nat.mod_upper_bound s2 n Hn).
  set (u := (s1 mod n)%nat) in *. set (w := (s2 mod n)%nat) in *.
  destruct (Nat.lt_ge_cases (u + w) n) as [H1|H1].
  - rewrite (Nat.mod_small (u + w)) by lia.
    replace (j + (n - w) + (n - u))%nat with (j + (n - (u + w)) + 1 * n)%nat by lia.
    now rewrite Nat.mod_add by lia.
  - replace ((u + w) mod n)%nat with (u + w - n)%nat.
    + f_equal. lia.
    + replace (u + w)%nat with ((u + w - n) + 1 * n)%nat at 2 by lia. rewrite Nat.mod_add by lia.
      rewrite Nat.mod_small by lia. reflexivity.
Qed.

Lemma shifted_be_comp n dir mode msb f g s1 s2 j :
  (n <> 0)%nat -> (j < n)%nat ->
  (forall i, (i < n)%nat -> g i = shifted_be n dir mode msb f s1 i) ->
  shifted_be n dir mode msb g s2 j = shifted_be n dir mode msb f (s1 + s2) j.
Proof.
  intros Hn Hj Hg. unfold shifted_be in *.
  destruct mode, dir.
  - destruct (Nat.ltb_spec (j + s2) n).
    + rewrite Hg by lia. replace (j + s2 + s1)%nat with (j + (s1 + s2))%nat by lia. reflexivity.
    + destruct (Nat.ltb_spec (j + (s1 + s2)) n); [lia|reflexivity].
  - destruct (Nat.leb_spec s2 j).
    + rewrite Hg by lia. replace (j - s2 - s1)%nat with (j - (s1 + s2))%nat by lia.
      destruct (Nat.leb_spec s1 (j - s2)), (Nat.leb_spec (s1 + s2) j); try lia; reflexivity.
    + destruct (Nat.leb_spec (s1 + s2) j); [lia|reflexivity].
  - rewrite Hg by (apply Nat.mod_upper_bound; exact Hn).
    rewrite Nat.add_mod_idemp_l by exact Hn. f_equal. f_equal. lia.
  - rewrite Hg by (apply Nat.mod_upper_bound; exact Hn). now rewrite rot_right_comp.
  - destruct (Nat.leb_spec s2 j).
    + rewrite Hg by lia. replace (j - s2 - s1)%nat with (j - (s1 + s2))%nat by lia.
      destruct (Nat.leb_spec s1 (j - s2)), (Nat.leb_spec (s1 + s2) j); try lia; reflexivity.
    + destruct (Nat.leb_spec (s1 + s2) j); [lia|reflexivity].
  - destruct (Nat.leb_spec s2 j).
    + rewrite Hg by lia. replace (j - s2 - s1)%nat with (j - (s1 + s2))%nat by lia.
      destruct (Nat.leb_spec s1 (j - s2)), (Nat.leb_spec (s1 + s2) j); try lia; reflexivity.
    + destruct (Nat.leb_spec (s1 + s2) j); [lia|reflexivity].
Qed.

Lemma nth_rotate_left (l : list bool) k j :
  (k <= length l)%nat -> (j < length l)%nat ->
  nth j (rotate_left k l) false = nth ((j + k) mod length l) l false.
Proof.
  intros Hk Hj. unfold rotate_left.
  destruct (Nat.lt_ge_cases j (length l - k)) as [H|H].
  - rewrite app_nth1 by (rewrite skipn_length; lia). rewrite nth_skipn, Nat.mod_small by lia. f_equal. lia.
  - rewrite app_nth2 by (rewrite skipn_length; lia). rewrite skipn_length, nth_firstn by lia.
    f_equal. replace (j + k)%nat with (j - (length l - k) + 1 * length l)%nat by lia.
    rewrite Nat.mod_add, Nat.mod_small by lia. reflexivity.
Qed.

Lemma nth_rotate_right (l : list bool) k j :
  (k <= length l)%nat -> (j < length l)%nat ->
  nth j (rotate_right k l) false = nth ((j + (length l - k)) mod length l) l false.
Proof.
  intros Hk Hj. change (rotate_right k l) with (rotate_left (length l - k) l).
  rewrite nth_rotate_left by lia. reflexivity.
Qed.

Lemma nth_map_seq {A} (f : nat -> A) n j d : (j < n)%nat -> nth j (map f (seq 0 n)) d = f j.
Proof.
  intros Hj. rewrite (nth_indep _ d (f 0%nat)) by (rewrite map_length, seq_length; exact Hj).
  rewrite map_nth, seq_nth by exact Hj. reflexivity.
Qed.

(** The shift amounts occurring in the circuit satisfy [s < n] or [n = s = 1]. *)
Lemma shift_stage_spec n dir mode msb s sel l j :
  length l = n -> (0 < n)%nat -> (0 < s)%nat -> (s < n \/ (n = 1 /\ s = 1))%nat -> (j < n)%nat ->
  (mode = MArithmetic -> dir = DRight) ->
  nth j (shift_stage n dir mode msb s sel l) false =
  if sel then shifted_be n dir mode msb (fun i => nth i l false) s j else nth j l false.
Proof.
  intros Hl Hn Hs0 Hs Hj Hmode. unfold shift_stage. rewrite nth_map_seq by exact Hj.
  destruct sel; [|reflexivity].
  assert (Hsm : (s mod n <= length l)%nat) by (pose proof (Nat.mod_upper_bound s n ltac:(lia)); lia).
  destruct mode, dir; cbn [shifted_be].
  - destruct (Nat.leb_spec (n - s) j), (Nat.ltb_spec (j + s) n); try lia; try reflexivity.
    rewrite nth_rotate_left by lia. f_equal. rewrite Hl.
    rewrite mod_add_r by lia. apply Nat.mod_small. lia.
  - destruct (Nat.ltb_spec j s), (Nat.leb_spec s j); try lia; try reflexivity.
    rewrite nth_rotate_right by lia. f_equal. rewrite Hl.
    rewrite (Nat.mod_small s) by lia.
    replace (j + (n - s))%nat with (j - s + 1 * n)%nat by lia.
    rewrite Nat.mod_add, Nat.mod_small by lia. reflexivity.
  - rewrite nth_rotate_left by lia. f_equal. rewrite Hl. now rewrite mod_add_r by lia.
  - rewrite nth_rotate_right by lia. f_equal. now rewrite Hl.
  - specialize (Hmode eq_refl). discriminate.
  - destruct (Nat.ltb_spec j s), (Nat.leb_spec s j); try lia; try reflexivity.
    rewrite nth_rotate_right by lia. f_equal. rewrite Hl.
    rewrite (Nat.mod_small s) by lia.
    replace (j + (n - s))%nat with (j - s + 1 * n)%nat by lia.
    rewrite Nat.mod_add, Nat.mod_small by lia. reflexivity.
Qed.

Lemma shift_stage_length n dir mode msb s sel l : length (shift_stage n dir mode msb s sel l) = n.
Proof. unfold shift_stage. now rewrite map_length, seq_length. Qed.

Lemma shifted_be_0 n dir mode msb f j : (j < n)%nat -> (0 < n)%nat -> shifted_be n dir mode msb f 0 j = f j.
Proof.
  intros Hj Hn. unfold shifted_be. destruct mode, dir; rewrite ?Nat.add_0_r, ?Nat.sub_0_r.
  - destruct (Nat.ltb_spec j n); [reflexivity|lia].
  - reflexivity.
  - now rewrite Nat.mod_small.
  - rewrite Nat.mod_0_l, Nat.sub_0_r by lia.
    replace (j + n)%nat with (j + 1 * n)%nat by lia. rewrite Nat.mod_add, Nat.mod_small by lia. reflexivity.
  - reflexivity.
  - reflexivity.
Qed.

(** The amount selected by stages with select bits sel i, .., sel (i+k-1) (most significant first). *)
Fixpoint sel_amount (sel : nat -> bool) (i k : nat) : nat :=
  match k with O => O | S k' => ((if sel i then 2 ^ k' else 0) + sel_amount sel (S i) k')%nat end.

Lemma shift_stages_spec n dir mode msb sel f : forall k i l s0,
  (0 < n)%nat -> length l = n -> (mode = MArithmetic -> dir = DRight) ->
  (forall k', (k' < k)%nat -> (2 ^ k' < n \/ (n = 1 /\ 2 ^ k' = 1))%nat) ->
  (forall j, (j < n)%nat -> nth j l false = shifted_be n dir mode msb f s0 j) ->
  length (shift_stages n dir mode msb sel i k l) = n /\
  forall j, (j < n)%nat ->
    nth j (shift_stages n dir mode msb sel i k l) false = shifted_be n dir mode msb f (s0 + sel_amount sel i k) j.
Proof.
  induction k as [|k IH]; intros i l s0 Hn Hl Hmode Hk Hinv; cbn [shift_stages sel_amount].
  - split; [exact Hl|]. intros j Hj. rewrite Nat.add_0_r. now apply Hinv.
  - destruct (IH (S i) (shift_stage n dir mode msb (2 ^ k) (sel i) l)
                (s0 + (if sel i then 2 ^ k else 0))%nat) as [IHl IHn].
    + exact Hn.
    + apply shift_stage_length.
    + exact Hmode.
    + intros k' Hk'. apply Hk. lia.
    + intros j Hj. rewrite shift_stage_spec; auto; [|pose proof (Nat.pow_nonzero 2 k); lia].
      destruct (sel i).
      * apply shifted_be_comp; [lia|exact Hj|exact Hinv].
      * rewrite Nat.add_0_r. now apply Hinv.
    + split; [exact IHl|]. intros j Hj. rewrite IHn by exact Hj. now rewrite Nat.add_assoc.
Qed.

(** ** Relating select bits to the little-endian shift amount *)

Lemma uval_rev_sel (l : list bool) :
  Z.of_nat (sel_amount (fun i => nth i l false) 0 (length l)) = uval (rev l).
Proof.
  assert (H : forall l i f, (forall j, (j < length l)%nat -> f (i + j)%nat = nth j l false) ->
            Z.of_nat (sel_amount f i (length l)) = uval (rev l)).
  { clear l. induction l as [|b l IH]; intros i f Hf; [reflexivity|].
    cbn [length sel_amount rev]. rewrite uval_app. cbn [uval].
    rewrite Nat2Z.inj_add. rewrite (IH (S i) f).
    - specialize (Hf 0%nat ltac:(cbn; lia)). rewrite Nat.add_0_r in Hf. cbn [nth] in Hf. rewrite Hf.
      rewrite rev_length. destruct b; cbn [b2z]; [rewrite Nat2Z.inj_pow; change (Z.of_nat 2) with 2|]; lia.
    - intros j Hj. specialize (Hf (S j) ltac:(cbn; lia)). cbn [nth] in Hf. rewrite <- Hf. f_equal. lia. }
  apply H. intros j Hj. reflexivity.
Qed.

Lemma sel_amount_ext f g : forall k i i',
  (forall j, (j < k)%nat -> f (i + j)%nat = g (i' + j)%nat) -> sel_amount f i k = sel_amount g i' k.
Proof.
  induction k as [|k IH]; intros i i' H; cbn [sel_amount]; [reflexivity|].
  rewrite (IH (S i) (S i')).
  - specialize (H 0%nat ltac:(lia)). rewrite !Nat.add_0_r in H. now rewrite H.
  - intros j Hj. specialize (H (S j) ltac:(lia)).
    replace (S i + j)%nat with (i + S j)%nat by lia. replace (S i' + j)%nat with (i' + S j)%nat by lia. exact H.
Qed.

Definition used_bits (n : nat) : nat := if (ilog2_rounded_up n =? 0)%nat then 1%nat else ilog2_rounded_up n.

Lemma ilog2_rounded_up_spec n : (0 < n)%nat ->
  (n <= 2 ^ ilog2_rounded_up n)%nat /\ (forall k, (k < ilog2_rounded_up n)%nat -> (2 ^ k < n)%nat).
Proof.
  intros Hn. unfold ilog2_rounded_up. destruct (Nat.eqb_spec n 0); [lia|].
  destruct (Nat.log2_spec n Hn) as [H1 H2].
  destruct (Nat.eqb_spec n (2 ^ Nat.log2 n)) as [He|He].
  - split; [lia|]. intros k Hk.
    assert (2 ^ k < 2 ^ Nat.log2 n)%nat by (apply Nat.pow_lt_mono_r; lia). lia.
  - split; [lia|]. intros k Hk.
    assert (2 ^ k <= 2 ^ Nat.log2 n)%nat by (apply Nat.pow_le_mono_r; lia). lia.
Qed.

Lemma used_bits_spec n : (0 < n)%nat ->
  (0 < used_bits n)%nat /\ (n <= 2 ^ used_bits n)%nat /\
  (forall k, (k < used_bits n)%nat -> (2 ^ k < n \/ (n = 1 /\ 2 ^ k = 1))%nat).
Proof.
  intros Hn. destruct (ilog2_rounded_up_spec n Hn) as [H1 H2]. unfold used_bits.
  destruct (Nat.eqb_spec (ilog2_rounded_up n) 0) as [E|E].
  - rewrite E in H1. cbn in H1. repeat split; try (cbn; lia).
    intros k Hk. assert (k = 0%nat) by lia. subst. cbn. lia.
  - repeat split; try lia. intros k Hk. left. now apply H2.
Qed.

Lemma used_bits_le n s : (0 < n)%nat -> (0 < s)%nat -> (n <= 2 ^ s)%nat -> (used_bits n <= s)%nat.
Proof.
  intros Hn Hs H. destruct (Nat.le_gt_cases (used_bits n) s) as [|Hgt]; [assumption|].
  destruct (used_bits_spec n Hn) as (_ & _ & H3). specialize (H3 s Hgt).
  destruct H3 as [H3|[_ H3]]; [lia|].
  assert (2 ^ 1 <= 2 ^ s)%nat by (apply Nat.pow_le_mono_r; lia). cbn in *. lia.
Qed.

(** The used / excess split of the shift amount. *)
Lemma excess_spec (l : list bool) : fold_left orb l false = negb (uval (rev l) =? 0).
Proof.
  assert (H : forall acc, fold_left orb l acc = acc || existsb id l).
  { induction l as [|b l IH]; intros acc; cbn [fold_left existsb]; [now rewrite orb_false_r|].
    rewrite IH. unfold id. now rewrite orb_assoc. }
  rewrite H. cbn [orb]. clear H.
  assert (H : existsb id l = negb (uval l =? 0)).
  { induction l as [|b l IH]; [reflexivity|]. cbn [existsb uval]. rewrite IH. unfold id.
    pose proof (uval_range l). destruct b; cbn [b2z orb]; lia. }
  assert (Hr : existsb id l = existsb id (rev l)).
  { apply Bool.eq_iff_eq_true. rewrite !existsb_exists. split; intros [x [Hx E]]; exists x; split; auto.
    - now apply in_rev in Hx.
    - now apply in_rev. }
  rewrite Hr. clear H Hr. generalize (rev l). clear l. intros l.
  induction l as [|b l IH]; [reflexivity|]. cbn [existsb uval]. rewrite IH. unfold id.
  pose proof (uval_range l). destruct b; cbn [b2z orb]; lia.
Qed.

Lemma bitshift_be dir mode (x k : list bool) :
  (0 < length x)%nat -> (0 < length k)%nat -> (length x <= 2 ^ length k)%nat ->
  (mode = MArithmetic -> dir = DRight) ->
  (mode = MRotation -> exists e, length x = (2 ^ e)%nat) ->
  exists out,
    run_res (bitshift (length x) (length k) dir mode) (x ++ k) = Ok out /\ length out = length x /\
    forall j, (j < length x)%nat ->
      nth j out false = shifted_be (length x) dir mode (nth 0 x false) (fun i => nth i x false) (Z.to_nat (uval (rev k))) j.
Proof.
  intros Hx Hk Hle Hmode Hrot.
  set (n := length x) in *. set (ss := length k) in *.
  pose proof (used_bits_le n ss Hx Hk Hle) as Hu.
  destruct (used_bits_spec n Hx) as (Hu0 & Hun & Hul).
  unfold run_res, bitshift. fold (used_bits n). set (u := used_bits n) in *.
  destruct (Nat.leb_spec u ss) as [_|]; [|lia]. cbn [negb].
  assert (Hg1 : match mode with MRotation => negb (n =? 2 ^ Nat.log2 n)%nat || (n =? 0)%nat | _ => false end = false).
  { destruct mode; try reflexivity. destruct (Hrot eq_refl) as [e He].
    rewrite He, Nat.log2_pow2, Nat.eqb_refl by lia. cbn. apply Nat.eqb_neq. lia. }
  rewrite Hg1.
  assert (Hg2 : match mode, dir with MArithmetic, DLeft => true | _, _ => false end = false).
  { destruct mode; try reflexivity. destruct dir; try reflexivity. specialize (Hmode eq_refl). discriminate. }
  rewrite Hg2. destruct (Nat.eqb_spec n 0) as [Hz|_]; [lia|]. cbn [bind].
  unfold run_circuit. cbn [c_arity c_fn]. rewrite app_length. fold n ss. rewrite Nat.eqb_refl.
  set (v := x ++ k).
  assert (Hres : map (fun i => var v i) (seq 0 n) = x).
  { apply map_seq_from; [reflexivity|]. intros j Hj. unfold var, v. now rewrite app_nth1 by (fold n; lia). }
  rewrite Hres.
  assert (Hex : map (fun y => var v (n + y)) (seq 0 (ss - u)) = firstn (ss - u) k).
  { apply map_seq_from; [rewrite firstn_length; fold ss; lia|]. intros j Hj.
    unfold v, n. cbn [Nat.add]. rewrite var_app_r, nth_firstn by lia. reflexivity. }
  rewrite Hex, excess_spec.
  set (sel := fun i => var v (n + (ss - u) + i)).
  assert (Hsel : Z.of_nat (sel_amount sel 0 u) = uval (rev (skipn (ss - u) k))).
  { rewrite <- uval_rev_sel. f_equal.
    replace (length (skipn (ss - u) k)) with u by (rewrite skipn_length; fold ss; lia).
    apply sel_amount_ext. intros j Hj. unfold sel, v, n. cbn [Nat.add].
    rewrite <- Nat.add_assoc, var_app_r, nth_skipn. reflexivity. }
  destruct (shift_stages_spec n dir mode (nth 0 x false) sel (fun i => nth i x false) u 0 x 0) as [Hlen Hnth];
    [exact Hx|reflexivity|exact Hmode|exact Hul| |].
  { intros j Hj. now rewrite shifted_be_0. }
  cbn [Nat.add] in Hnth.
  assert (Hsplit : uval (rev k) = uval (rev (skipn (ss - u) k)) + 2 ^ Z.of_nat u * uval (rev (firstn (ss - u) k))).
  { rewrite <- (firstn_skipn (ss - u) k) at 1. rewrite rev_app_distr, uval_app, rev_length, skipn_length.
    fold ss. replace (ss - (ss - u))%nat with u by lia. reflexivity. }
  pose proof (uval_range (rev (firstn (ss - u) k))) as Re.
  pose proof (uval_range (rev (skipn (ss - u) k))) as Rs.
  assert (Hnz : Z.of_nat n <= 2 ^ Z.of_nat u).
  { change 2 with (Z.of_nat 2). rewrite <- Nat2Z.inj_pow. lia. }
  set (ex := uval (rev (firstn (ss - u) k))) in *.
  set (us := uval (rev (skipn (ss - u) k))) in *.
  destruct mode.
  - eexists. split; [reflexivity|]. split; [rewrite map_length; exact Hlen|].
    intros j Hj. rewrite (nth_indep _ false (if negb (ex =? 0) then false else false)) by (rewrite map_length; lia).
    rewrite (map_nth (fun r => if negb (ex =? 0) then false else r)).
    destruct (Z.eqb_spec ex 0) as [E|E]; cbn [negb].
    + rewrite Hnth by exact Hj. f_equal. lia.
    + symmetry. unfold shifted_be. destruct dir.
      * destruct (Nat.ltb_spec (j + Z.to_nat (uval (rev k))) n); [nia|reflexivity].
      * destruct (Nat.leb_spec (Z.to_nat (uval (rev k))) j); [nia|reflexivity].
  - eexists. split; [reflexivity|]. split; [exact Hlen|].
    intros j Hj. rewrite Hnth by exact Hj.
    destruct (Hrot eq_refl) as [e He].
    assert (Hmod : (Z.to_nat (uval (rev k)) mod n = sel_amount sel 0 u mod n)%nat).
    { (* n divides 2^u *)
      assert (Hdiv : exists q, (2 ^ u = q * n)%nat).
      { exists (2 ^ (u - e))%nat. rewrite He, <- Nat.pow_add_r. f_equal.
        assert (e <= u)%nat; [|lia]. destruct (Nat.le_gt_cases e u); [assumption|].
        assert (2 ^ u < 2 ^ e)%nat by (apply Nat.pow_lt_mono_r; lia). lia. }
      destruct Hdiv as [q Hq].
      replace (Z.to_nat (uval (rev k))) with (sel_amount sel 0 u + (Z.to_nat ex * q) * n)%nat.
      - now rewrite Nat.mod_add by lia.
      - assert (HqZ : 2 ^ Z.of_nat u = Z.of_nat q * Z.of_nat n).
        { change 2 with (Z.of_nat 2). rewrite <- Nat2Z.inj_pow, Hq. lia. }
        rewrite HqZ in Hsplit. nia. }
    unfold shifted_be. destruct dir.
    + rewrite <- (mod_add_r j (Z.to_nat (uval (rev k)))) by lia. rewrite Hmod, mod_add_r by lia. reflexivity.
    + now rewrite Hmod.
  - eexists. split; [reflexivity|]. split; [rewrite map_length; exact Hlen|].
    intros j Hj. rewrite (nth_indep _ false (if negb (ex =? 0) then nth 0 x false else false)) by (rewrite map_length; lia).
    rewrite (map_nth (fun r => if negb (ex =? 0) then nth 0 x false else r)).
    rewrite (Hmode eq_refl) in *.
    destruct (Z.eqb_spec ex 0) as [E|E]; cbn [negb].
    + rewrite Hnth by exact Hj. f_equal. lia.
    + symmetry. unfold shifted_be.
      destruct (Nat.leb_spec (Z.to_nat (uval (rev k))) j); [nia|reflexivity].
Qed.

(** ** Little-endian statements *)

Lemma nth_rev (l : list bool) j : (j < length l)%nat -> nth j (rev l) false = nth (length l - S j) l false.
Proof. intros. now apply rev_nth. Qed.

Lemma bits_ext (l : list bool) n z :
  length l = n -> (forall i, (i < n)%nat -> nth i l false = Z.testbit z (Z.of_nat i)) -> l = to_bits n z.
Proof.
  intros Hl H. apply nth_ext with (d := false) (d' := false); [now rewrite to_bits_length|].
  intros i Hi. rewrite to_bits_nth by lia. apply H. lia.
Qed.

Lemma shl_circuit_correct a k :
  (0 < length a)%nat -> (0 < length k)%nat -> (length a <= 2 ^ length k)%nat ->
  run_res (bitshift (length a) (length k) DLeft MLogical) (rev a ++ rev k)
  = Ok (rev (to_bits (length a) (uval a * 2 ^ uval k))).
Proof.
  intros Ha Hk Hle.
  destruct (bitshift_be DLeft MLogical (rev a) (rev k)) as (out & Hrun & Hlen & Hn);
    rewrite ?rev_length; auto; try congruence.
  rewrite !rev_length in Hrun. rewrite Hrun. f_equal. rewrite rev_length in Hlen, Hn. rewrite rev_involutive in Hn.
  rewrite <- (rev_involutive out). f_equal. pose proof (uval_range k) as Rk.
  apply bits_ext; [now rewrite rev_length|]. intros i Hi.
  rewrite nth_rev by lia. rewrite Hn by lia. cbn [shifted_be].
  rewrite Hlen. rewrite <- Z.shiftl_mul_pow2 by lia. rewrite Z.shiftl_spec by lia.
  destruct (Nat.ltb_spec (length a - S i + Z.to_nat (uval k)) (length a)) as [H|H].
  - rewrite nth_rev by lia.
    replace (length a - S (length a - S i + Z.to_nat (uval k)))%nat with (i - Z.to_nat (uval k))%nat by lia.
    rewrite uval_nth_testbit. f_equal. lia.
  - symmetry. apply Z.testbit_neg_r. lia.
Qed.

Lemma shr_circuit_correct a k :
  (0 < length a)%nat -> (0 < length k)%nat -> (length a <= 2 ^ length k)%nat ->
  run_res (bitshift (length a) (length k) DRight MLogical) (rev a ++ rev k)
  = Ok (rev (to_bits (length a) (uval a / 2 ^ uval k))).
Proof.
  intros Ha Hk Hle.
  destruct (bitshift_be DRight MLogical (rev a) (rev k)) as (out & Hrun & Hlen & Hn);
    rewrite ?rev_length; auto; try congruence.
  rewrite !rev_length in Hrun. rewrite Hrun. f_equal. rewrite rev_length in Hlen, Hn. rewrite rev_involutive in Hn.
  rewrite <- (rev_involutive out). f_equal. pose proof (uval_range k) as Rk.
  apply bits_ext; [now rewrite rev_length|]. intros i Hi.
  rewrite nth_rev by lia. rewrite Hn by lia. cbn [shifted_be].
  rewrite Hlen. rewrite <- Z.shiftr_div_pow2 by lia. rewrite Z.shiftr_spec by lia.
  destruct (Nat.leb_spec (Z.to_nat (uval k)) (length a - S i)) as [H|H].
  - rewrite nth_rev by lia.
    replace (length a - S (length a - S i - Z.to_nat (uval k)))%nat with (i + Z.to_nat (uval k))%nat by lia.
    rewrite uval_nth_testbit. f_equal. lia.
  - symmetry. replace (Z.of_nat i + uval k) with (Z.of_nat (i + Z.to_nat (uval k))) by lia.
    rewrite <- uval_nth_testbit. apply nth_overflow. lia.
Qed.

Lemma sval_testbit a i : (0 < length a)%nat ->
  Z.testbit (sval a) (Z.of_nat i) = if (i <? length a)%nat then nth i a false else last a false.
Proof.
  intros Ha. destruct (list_snoc_cases a) as (l & b & ->); [destruct a; cbn in *; [lia|congruence]|].
  clear Ha. rewrite sval_app, last_last, app_length. cbn [length].
  revert i. induction l as [|x l IH]; intros i; cbn [app uval length].
  - destruct b; cbn [b2z].
    + change (0 - 1 * 2 ^ Z.of_nat 0) with (-1). rewrite Z.bits_m1 by lia.
      destruct (Nat.ltb_spec i (0 + 1)); [|reflexivity]. destruct i; [reflexivity|lia].
    + change (0 - 0 * 2 ^ Z.of_nat 0) with 0. rewrite Z.bits_0.
      destruct (Nat.ltb_spec i (0 + 1)); [|reflexivity]. destruct i; [reflexivity|lia].
  - rewrite pow2_S.
    replace (b2z x + 2 * uval l - b2z b * (2 * 2 ^ Z.of_nat (length l)))
      with (2 * (uval l - b2z b * 2 ^ Z.of_nat (length l)) + Z.b2z x)
      by (replace (Z.b2z x) with (b2z x) by (destruct x; reflexivity); lia).
    destruct i as [|i].
    + change (Z.of_nat 0) with 0. rewrite Z.testbit_0_r. reflexivity.
    + rewrite Nat2Z.inj_succ, Z.testbit_succ_r by lia. rewrite IH. cbn [nth].
      destruct (Nat.ltb_spec i (length l + 1)), (Nat.ltb_spec (S i) (S (length l) + 1)); try lia; reflexivity.
Qed.

Lemma last_nth (l : list bool) : last l false = nth (length l - 1) l false.
Proof.
  induction l as [|b l IH]; [reflexivity|]. destruct l as [|c l]; [reflexivity|].
  change (last (b :: c :: l) false) with (last (c :: l) false). rewrite IH.
  cbn [length]. replace (S (S (length l)) - 1)%nat with (S (S (length l) - 1))%nat by lia. reflexivity.
Qed.

Lemma shra_circuit_correct a k :
  (0 < length a)%nat -> (0 < length k)%nat -> (length a <= 2 ^ length k)%nat ->
  run_res (bitshift (length a) (length k) DRight MArithmetic) (rev a ++ rev k)
  = Ok (rev (to_bits (length a) (sval a / 2 ^ uval k))).
Proof.
  intros Ha Hk Hle.
  destruct (bitshift_be DRight MArithmetic (rev a) (rev k)) as (out & Hrun & Hlen & Hn);
    rewrite ?rev_length; auto; try congruence.
  rewrite !rev_length in Hrun. rewrite Hrun. f_equal. rewrite rev_length in Hlen, Hn. rewrite rev_involutive in Hn.
  rewrite <- (rev_involutive out). f_equal. pose proof (uval_range k) as Rk.
  apply bits_ext; [now rewrite rev_length|]. intros i Hi.
  rewrite nth_rev by lia. rewrite Hn by lia. cbn [shifted_be].
  rewrite Hlen. rewrite <- Z.shiftr_div_pow2 by lia. rewrite Z.shiftr_spec by lia.
  replace (Z.of_nat i + uval k) with (Z.of_nat (i + Z.to_nat (uval k))) by lia.
  rewrite sval_testbit by lia.
  destruct (Nat.leb_spec (Z.to_nat (uval k)) (length a - S i)) as [H|H].
  - rewrite nth_rev by lia.
    replace (length a - S (length a - S i - Z.to_nat (uval k)))%nat with (i + Z.to_nat (uval k))%nat by lia.
    destruct (Nat.ltb_spec (i + Z.to_nat (uval k)) (length a)); [reflexivity|lia].
  - destruct (Nat.ltb_spec (i + Z.to_nat (uval k)) (length a)); [lia|].
    rewrite nth_rev by lia. rewrite last_nth. reflexivity.
Qed.

Lemma rotl_circuit_correct a k e :
  length a = (2 ^ e)%nat -> (0 < length k)%nat -> (length a <= 2 ^ length k)%nat ->
  exists out,
    run_res (bitshift (length a) (length k) DLeft MRotation) (rev a ++ rev k) = Ok (rev out) /\
    length out = length a /\
    forall p, (p < length a)%nat ->
      nth ((p + Z.to_nat (uval k)) mod length a) out false = nth p a false.
Proof.
  intros He Hk Hle. assert (Ha : (0 < length a)%nat) by (pose proof (Nat.pow_nonzero 2 e); lia).
  destruct (bitshift_be DLeft MRotation (rev a) (rev k)) as (out & Hrun & Hlen & Hn);
    rewrite ?rev_length; eauto; try congruence.
  rewrite !rev_length in Hrun. rewrite rev_length in Hlen, Hn. rewrite rev_involutive in Hn.
  exists (rev out). rewrite rev_involutive, rev_length. split; [exact Hrun|]. split; [exact Hlen|].
  intros p Hp. set (n := length a) in *. set (s := Z.to_nat (uval k)) in *.
  pose proof (Nat.mod_upper_bound (p + s) n ltac:(lia)) as Hm.
  rewrite nth_rev by lia. rewrite Hlen. rewrite Hn by lia. cbn [shifted_be].
  assert (Hx : ((n - S ((p + s) mod n) + s) mod n = n - S p)%nat).
  { pose proof (Nat.div_mod (p + s) n ltac:(lia)) as Hd.
    set (q := ((p + s) / n)%nat) in *. set (r := ((p + s) mod n)%nat) in *.
    replace (n - S r + s)%nat with (n - S p + q * n)%nat by nia.
    rewrite Nat.mod_add, Nat.mod_small by lia. reflexivity. }
  rewrite Hx. rewrite nth_rev by lia. f_equal. lia.
Qed.

Lemma rotr_circuit_correct a k e :
  length a = (2 ^ e)%nat -> (0 < length k)%nat -> (length a <= 2 ^ length k)%nat ->
  exists out,
    run_res (bitshift (length a) (length k) DRight MRotation) (rev a ++ rev k) = Ok (rev out) /\
    length out = length a /\
    forall p, (p < length a)%nat ->
      nth p out false = nth ((p + Z.to_nat (uval k)) mod length a) a false.
Proof.
  intros He Hk Hle. assert (Ha : (0 < length a)%nat) by (pose proof (Nat.pow_nonzero 2 e); lia).
  destruct (bitshift_be DRight MRotation (rev a) (rev k)) as (out & Hrun & Hlen & Hn);
    rewrite ?rev_length; eauto; try congruence.
  rewrite !rev_length in Hrun. rewrite rev_length in Hlen, Hn. rewrite rev_involutive in Hn.
  exists (rev out). rewrite rev_involutive, rev_length. split; [exact Hrun|]. split; [exact Hlen|].
  intros p Hp. set (n := length a) in *. set (s := Z.to_nat (uval k)) in *.
  rewrite nth_rev by lia. rewrite Hlen. rewrite Hn by lia. cbn [shifted_be].
  pose proof (Nat.mod_upper_bound (p + s) n ltac:(lia)) as Hm.
  assert (Hx : ((n - S p + (n - s mod n)) mod n = n - S ((p + s) mod n))%nat).
  { rewrite (Nat.add_mod p s n), (Nat.mod_small p n) by lia.
    pose proof (Nat.mod_upper_bound s n ltac:(lia)).
    set (r := (s mod n)%nat) in *.
    destruct (Nat.lt_ge_cases (p + r) n).
    - rewrite (Nat.mod_small (p + r)) by lia.
      replace (n - S p + (n - r))%nat with (n - S (p + r) + 1 * n)%nat by lia.
      rewrite Nat.mod_add, Nat.mod_small by lia. reflexivity.
    - replace ((p + r) mod n)%nat with (p + r - n)%nat.
      + rewrite Nat.mod_small by lia. lia.
      + replace (p + r)%nat with (p + r - n + 1 * n)%nat at 2 by lia.
        rewrite Nat.mod_add, Nat.mod_small by lia. reflexivity. }
  rewrite Hx. rewrite nth_rev by lia. f_equal. lia.
Qed.

(** An encrypted shift amount narrower than needed aborts the host (bitshift.rs:57-60). *)
Lemma bitshift_narrow_panics n s dir mode v :
  (0 < n)%nat -> (2 ^ s < n \/ s = 0)%nat -> run_res (bitshift n s dir mode) v = Panic.
Proof.
  intros Hn Hs. unfold run_res, bitshift. fold (used_bits n).
  destruct (Nat.leb_spec (used_bits n) s) as [H|H]; [|reflexivity].
  destruct (used_bits_spec n Hn) as (H0 & H1 & H2).
  destruct Hs as [Hs| ->]; [|lia].
  assert (2 ^ used_bits n <= 2 ^ s)%nat by (apply Nat.pow_le_mono_r; lia). lia.
Qed.
