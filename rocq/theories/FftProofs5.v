(** Rounding to integers and reduction modulo 2^w. *)
From Coq Require Import Reals ZArith List Lia Lra Psatz Bool.
From Coquelicot Require Import Complex.
From Verif Require Import Fft SpecFft.
Import ListNotations.
Open Scope R_scope.
Open Scope Z_scope.

Lemma rfloor_spec x : (IZR (rfloor x) <= x < IZR (rfloor x) + 1)%R.
Proof. unfold rfloor. rewrite minus_IZR. pose proof (archimed x). lra. Qed.
Lemma rfloor_unique x z : (IZR z <= x < IZR z + 1)%R -> rfloor x = z.
Proof.
  intros H. pose proof (rfloor_spec x) as G.
  assert (H1 : (IZR (rfloor x) < IZR (z + 1))%R) by (rewrite plus_IZR; lra).
  assert (H2 : (IZR z < IZR (rfloor x + 1))%R) by (rewrite plus_IZR; lra).
  apply lt_IZR in H1, H2. lia.
Qed.
Lemma rround_near x : (Rabs (IZR (rround x) - x) <= / 2)%R.
Proof.
  unfold rround. destruct (Rle_dec 0 x).
  - pose proof (rfloor_spec (x + / 2)). apply Rabs_le. lra.
  - rewrite opp_IZR. pose proof (rfloor_spec (- x + / 2)). apply Rabs_le. lra.
Qed.
Lemma rround_unique x z : (Rabs (x - IZR z) < / 2)%R -> rround x = z.
Proof.
  intros H. pose proof (rround_near x) as G.
  assert (E : (Rabs (IZR (rround x - z)) < 1)%R).
  { rewrite minus_IZR. replace (IZR (rround x) - IZR z)%R with ((IZR (rround x) - x) + (x - IZR z))%R by ring.
    eapply Rle_lt_trans; [apply Rabs_triang|]. lra. }
  rewrite <- abs_IZR in E. apply lt_IZR in E. lia.
Qed.
Lemma rround_IZR z : rround (IZR z) = z.
Proof. apply rround_unique. replace (IZR z - IZR z)%R with 0%R by ring. rewrite Rabs_R0. lra. Qed.
Lemma rtrunc_IZR z : rtrunc (IZR z) = z.
Proof.
  unfold rtrunc. destruct (Rle_dec 0 (IZR z)).
  - apply rfloor_unique. lra.
  - rewrite <- opp_IZR. rewrite (rfloor_unique _ (- z)); [lia|lra].
Qed.
Lemma rtrunc_quot V q : 0 < q -> rtrunc (IZR V / IZR q) = Z.quot V q.
Proof.
  intros Hq. assert (Hq' : (0 < IZR q)%R) by (apply IZR_lt; lia).
  assert (D : forall W, rfloor (IZR W / IZR q) = W / q).
  { intros W. apply rfloor_unique. pose proof (Z.div_mod W q ltac:(lia)) as E. pose proof (Z.mod_pos_bound W q Hq) as B.
    split.
    - apply (Rmult_le_reg_r (IZR q)); [lra|]. unfold Rdiv. rewrite Rmult_assoc, Rinv_l, Rmult_1_r by lra.
      rewrite <- mult_IZR. apply IZR_le. nia.
    - apply (Rmult_lt_reg_r (IZR q)); [lra|]. unfold Rdiv. rewrite Rmult_assoc, Rinv_l, Rmult_1_r by lra.
      rewrite <- plus_IZR, <- mult_IZR. apply IZR_lt. nia. }
  unfold rtrunc. destruct (Rle_dec 0 (IZR V / IZR q)) as [H|H].
  - rewrite D. symmetry. apply Z.quot_div_nonneg; [|lia].
    apply le_IZR. apply (Rmult_le_reg_r (/ IZR q)); [apply Rinv_0_lt_compat; lra|]. unfold Rdiv in H. lra.
  - replace (- (IZR V / IZR q))%R with (IZR (- V) / IZR q)%R by (rewrite opp_IZR; field; lra). rewrite D.
    assert (V < 0). { apply lt_IZR. apply Rnot_le_lt. intros G. apply H. unfold Rdiv. apply Rmult_le_pos; [exact G|].
      left. apply Rinv_0_lt_compat. lra. }
    rewrite <- (Z.quot_div_nonneg (- V) q) by lia. rewrite Z.quot_opp_l by lia. lia.
Qed.

(** What [mod_pow2_elem] computes on the integer [V]. *)
Definition reduced (w V : Z) : Z := if Z.rem V (2 ^ w) =? - 2 ^ (w - 1) then 2 ^ (w - 1) - 1 else V mod 2 ^ w.

Lemma half w : 1 <= w -> 2 ^ w = 2 * 2 ^ (w - 1) /\ 1 <= 2 ^ (w - 1).
Proof.
  intros Hw. split; [rewrite <- Z.pow_succ_r by lia; f_equal; lia|].
  pose proof (Z.pow_pos_nonneg 2 (w - 1)). lia.
Qed.

Lemma from_f64_IZR w z : from_f64 w (IZR z) = uwrap w (Z.max (- 2 ^ (w - 1)) (Z.min (2 ^ (w - 1) - 1) z)).
Proof. unfold from_f64. rewrite rtrunc_IZR. reflexivity. Qed.

Lemma mod_pow2_elem_int fl w V : 1 <= w ->
  fl (IZR V / IZR (2 ^ w))%R = (IZR V / IZR (2 ^ w))%R ->
  fl (IZR (Z.rem V (2 ^ w))) = IZR (Z.rem V (2 ^ w)) ->
  (2 ^ (w - 1) <= Z.rem V (2 ^ w) -> fl (IZR (Z.rem V (2 ^ w) - 2 ^ w)) = IZR (Z.rem V (2 ^ w) - 2 ^ w)) ->
  (Z.rem V (2 ^ w) <= - 2 ^ (w - 1) -> fl (IZR (Z.rem V (2 ^ w) + 2 ^ w)) = IZR (Z.rem V (2 ^ w) + 2 ^ w)) ->
  mod_pow2_elem fl w (IZR V) = reduced w V.
Proof.
  intros Hw H1 H2 H3 H4. destruct (half w Hw) as [Hq Hh]. unfold mod_pow2_elem, mod_q.
  rewrite H1, rtrunc_quot by lia.
  set (q := 2 ^ w) in *. set (r := Z.rem V q) in *.
  assert (Er : (- IZR (Z.quot V q) * IZR q + IZR V)%R = IZR r).
  { rewrite <- opp_IZR, <- mult_IZR, <- plus_IZR. f_equal. unfold r. pose proof (Z.quot_rem' V q). lia. }
  rewrite Er, H2.
  assert (Br : - q < r < q).
  { unfold r. pose proof (Z.rem_bound_abs V q ltac:(lia)). lia. }
  assert (Em : V mod q = r mod q).
  { unfold r. rewrite (Z.quot_rem' V q) at 1. rewrite Z.add_comm, Z.mul_comm, Z_mod_plus_full. reflexivity. }
  unfold reduced. fold q r.
  destruct (Rle_dec (IZR (2 ^ (w - 1))) (IZR r)) as [G|G].
  - apply le_IZR in G. rewrite <- minus_IZR, H3 by exact G. rewrite from_f64_IZR.
    destruct (Z.eqb_spec r (- 2 ^ (w - 1))); [lia|].
    rewrite Z.min_r, Z.max_r by lia. unfold uwrap. fold q. rewrite Em.
    replace (r - q) with (r + (-1) * q) by ring. apply Z_mod_plus_full.
  - destruct (Rle_dec (IZR r) (- IZR (2 ^ (w - 1)))) as [G'|G'].
    + rewrite <- opp_IZR in G'. apply le_IZR in G'. rewrite <- plus_IZR, H4 by exact G'. rewrite from_f64_IZR.
      destruct (Z.eqb_spec r (- 2 ^ (w - 1))) as [E|E].
      * rewrite Z.min_l, Z.max_r by lia. unfold uwrap. fold q. apply Z.mod_small. lia.
      * rewrite Z.min_r, Z.max_r by lia. unfold uwrap. fold q. rewrite Em.
        replace (r + q) with (r + 1 * q) by ring. apply Z_mod_plus_full.
    + assert (r < 2 ^ (w - 1)) by (apply Z.nle_gt; intros L; apply G, IZR_le, L).
      assert (- 2 ^ (w - 1) < r).
      { apply Z.nle_gt; intros L; apply G'. rewrite <- opp_IZR. apply IZR_le, L. }
      rewrite from_f64_IZR. destruct (Z.eqb_spec r (- 2 ^ (w - 1))); [lia|].
      rewrite Z.min_r, Z.max_r by lia. unfold uwrap. fold q. symmetry. exact Em.
Qed.

Lemma reduced_near w V : 1 <= w -> exists d, (d = 0 \/ d = -1) /\ reduced w V = (V + d) mod 2 ^ w.
Proof.
  intros Hw. destruct (half w Hw) as [Hq Hh]. unfold reduced.
  destruct (Z.eqb_spec (Z.rem V (2 ^ w)) (- 2 ^ (w - 1))) as [E|E].
  - exists (-1). split; [auto|]. pose proof (Z.quot_rem' V (2 ^ w)) as Q. rewrite E in Q.
    replace (V + -1) with ((2 ^ (w - 1) - 1) + (Z.quot V (2 ^ w) - 1) * 2 ^ w) by lia.
    rewrite Z_mod_plus_full, Z.mod_small by lia. reflexivity.
  - exists 0. split; [auto|]. rewrite Z.add_0_r. reflexivity.
Qed.

(** ** Doubles *)
Lemma powerRZ_IZR e : 0 <= e -> powerRZ 2 e = IZR (2 ^ e).
Proof.
  intros He. rewrite <- (Z2Nat.id e) by exact He. rewrite <- pow_powerRZ, <- pow_IZR. reflexivity.
Qed.
Lemma powerRZ_pos e : (0 < powerRZ 2 e)%R.
Proof. apply powerRZ_lt. lra. Qed.

Lemma f64_IZR_small z e : 0 <= e -> Z.abs z < 2 ^ 53 -> f64 (IZR (z * 2 ^ e)).
Proof. intros He Hz. exists z, e. rewrite mult_IZR, powerRZ_IZR by exact He. repeat split; lia. Qed.

Lemma f64_int V : f64 (IZR V) -> exists m e, V = m * 2 ^ e /\ Z.abs m < 2 ^ 53 /\ 0 <= e.
Proof.
  intros (m & e & E & Hm & He). destruct (Z.le_gt_cases 0 e) as [H|H].
  - exists m, e. rewrite powerRZ_IZR, <- mult_IZR in E by exact H. apply eq_IZR in E. auto.
  - exists V, 0. split; [lia|]. split; [|lia].
    assert (Hle : (Rabs (IZR V) <= IZR (Z.abs m))%R).
    { rewrite E, Rabs_mult, <- abs_IZR. rewrite (Rabs_right (powerRZ 2 e)) by (left; apply powerRZ_pos).
      rewrite <- (Rmult_1_r (IZR (Z.abs m))) at 2. apply Rmult_le_compat_l; [apply IZR_le; lia|].
      replace e with (- Z.of_nat (Z.to_nat (- e)))%Z by lia. rewrite powerRZ_neg'.
      rewrite <- pow_powerRZ. replace 1%R with (/ 1)%R by field. apply Rinv_le_contravar; [lra|]. apply pow_R1_Rle. lra. }
    rewrite <- abs_IZR in Hle. apply le_IZR in Hle. lia.
Qed.

Lemma f64_round x : f64 x -> f64 (IZR (rround x)).
Proof.
  intros (m & e & E & Hm & He). destruct (Z.le_gt_cases 0 e) as [H|H].
  - rewrite powerRZ_IZR, <- mult_IZR in E by exact H. rewrite E, rround_IZR. apply f64_IZR_small; assumption.
  - replace (rround x) with (rround x * 2 ^ 0) by lia. apply f64_IZR_small; [lia|].
    assert (Hle : (Rabs x <= IZR (Z.abs m) / 2)%R).
    { rewrite E, Rabs_mult, <- abs_IZR. rewrite (Rabs_right (powerRZ 2 e)) by (left; apply powerRZ_pos).
      unfold Rdiv. apply Rmult_le_compat_l; [apply IZR_le; lia|].
      replace e with (- Z.of_nat (S (Z.to_nat (- e - 1))))%Z by lia. rewrite powerRZ_neg'.
      rewrite <- pow_powerRZ. apply Rinv_le_contravar; [lra|].
      rewrite <- tech_pow_Rmult. pose proof (pow_R1_Rle 2 (Z.to_nat (- e - 1)) ltac:(lra)). lra. }
    pose proof (rround_near x) as Hr.
    assert (Hb : (IZR (Z.abs (rround x)) <= IZR (Z.abs m) / 2 + / 2)%R).
    { rewrite abs_IZR. replace (IZR (rround x)) with ((IZR (rround x) - x) + x)%R by ring.
      eapply Rle_trans; [apply Rabs_triang|]. lra. }
    assert (Hb' : (IZR (2 * Z.abs (rround x)) <= IZR (Z.abs m + 1))%R) by (rewrite mult_IZR, plus_IZR; lra).
    apply le_IZR in Hb'. lia.
Qed.

Lemma mod_pow2_elem_f64 fl w V : f64_rounding fl -> 1 <= w <= 1000 -> f64 (IZR V) ->
  mod_pow2_elem fl w (IZR V) = reduced w V.
Proof.
  intros Hfl [Hw Hw'] HV. destruct (half w Hw) as [Hq Hh]. destruct (f64_int V HV) as (m & e & E & Hm & He).
  assert (Hr : exists r, Z.rem V (2 ^ w) = r * 2 ^ e /\ Z.abs r <= Z.abs m /\ (e < w -> Z.abs r < 2 ^ (w - e)) /\ (w <= e -> r = 0)).
  { destruct (Z.lt_ge_cases e w) as [L|L].
    - exists (Z.rem m (2 ^ (w - e))). rewrite E.
      replace (2 ^ w) with (2 ^ (w - e) * 2 ^ e) by (rewrite <- Z.pow_add_r by lia; f_equal; lia).
      rewrite Z.mul_rem_distr_r by (pose proof (Z.pow_pos_nonneg 2 e); pose proof (Z.pow_pos_nonneg 2 (w - e)); lia).
      split; [reflexivity|]. pose proof (Z.pow_pos_nonneg 2 (w - e) ltac:(lia) ltac:(lia)) as P.
      split; [|split; [|lia]].
      + destruct (Z.le_gt_cases 0 m).
        * rewrite !Z.abs_eq; [|assumption|apply Z.rem_nonneg; lia]. apply Z.rem_le; lia.
        * pose proof (Z.rem_le (- m) (2 ^ (w - e)) ltac:(lia) ltac:(lia)). rewrite Z.rem_opp_l in * by lia.
          pose proof (Z.rem_nonneg (- m) (2 ^ (w - e)) ltac:(lia) ltac:(lia)). rewrite Z.rem_opp_l in * by lia. lia.
      + intros _. pose proof (Z.rem_bound_abs m (2 ^ (w - e)) ltac:(lia)). lia.
    - exists 0. rewrite E. replace (m * 2 ^ e) with ((m * 2 ^ (e - w)) * 2 ^ w)
        by (rewrite <- Z.mul_assoc, <- Z.pow_add_r by lia; do 2 f_equal; lia).
      rewrite Z.rem_mul by lia. lia. }
  destruct Hr as (r & Er & Hrm & Hrl & Hr0).
  pose proof (Z.pow_pos_nonneg 2 e ltac:(lia) He) as Pe.
  apply mod_pow2_elem_int; auto.
  - apply (fr_exact _ Hfl). exists m, (e - w). split; [|lia].
    rewrite E, mult_IZR, <- (powerRZ_IZR e He), <- (powerRZ_IZR w) by lia.
    unfold Z.sub. rewrite powerRZ_add, powerRZ_neg' by lra. field. pose proof (powerRZ_pos w). lra.
  - rewrite Er. apply (fr_exact _ Hfl). apply f64_IZR_small; lia.
  - intros G. destruct (Z.lt_ge_cases e w) as [L|L]; [|rewrite (Hr0 L) in Er; lia].
    rewrite Er in *. assert (Ew : 2 ^ w = 2 ^ (w - e) * 2 ^ e) by (rewrite <- Z.pow_add_r by lia; f_equal; lia).
    replace (r * 2 ^ e - 2 ^ w) with ((r - 2 ^ (w - e)) * 2 ^ e) by (rewrite Ew; ring).
    apply (fr_exact _ Hfl). apply f64_IZR_small; [lia|]. specialize (Hrl L).
    assert (2 ^ (w - e) <= 2 * r). { apply (Z.mul_le_mono_pos_r _ _ (2 ^ e)); [lia|]. rewrite <- Ew. lia. }
    lia.
  - intros G. destruct (Z.lt_ge_cases e w) as [L|L]; [|rewrite (Hr0 L) in Er; lia].
    rewrite Er in *. assert (Ew : 2 ^ w = 2 ^ (w - e) * 2 ^ e) by (rewrite <- Z.pow_add_r by lia; f_equal; lia).
    replace (r * 2 ^ e + 2 ^ w) with ((r + 2 ^ (w - e)) * 2 ^ e) by (rewrite Ew; ring).
    apply (fr_exact _ Hfl). apply f64_IZR_small; [lia|]. specialize (Hrl L).
    assert (2 ^ (w - e) <= - (2 * r)). { apply (Z.mul_le_mono_pos_r _ _ (2 ^ e)); [lia|]. rewrite <- Ew. lia. }
    lia.
Qed.

Lemma mod_pow2_elem_exact w V : 1 <= w -> mod_pow2_elem (fun x => x) w (IZR V) = reduced w V.
Proof. intros Hw. apply mod_pow2_elem_int; auto. Qed.
