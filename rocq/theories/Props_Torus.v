(** Theorems about the samplers of sunscreen_tfhe/src/rand.rs and the conversions between torus elements and doubles. *)
From Coq Require Import Reals ZArith List Lia Lra Psatz Bool.
From Flocq Require Import Core.
Require Import Flocq.Prop.Relative.
From Verif Require Import Base Tfhe SpecTfhe PolyRing TfheProofs Props_Tfhe Fft SpecFft FftProofs5 FftFloat TorusMisc.
Import ListNotations.
Ltac Zify.zify_post_hook ::= idtac.
Open Scope Z_scope.

(** * C116: samplers *)

Lemma from_u64_mod w v : word w -> 0 <= v < 2 ^ 64 -> from_u64 w v = v mod 2 ^ w.
Proof.
  intros [-> | ->] H; unfold from_u64; cbn [Z.eqb Pos.eqb].
  - change 4294967295 with (Z.ones 32). apply Z.land_ones. lia.
  - symmetry. apply Z.mod_small. exact H.
Qed.

(** Uniform generator words give uniform torus elements: every element has exactly the [2^(64-w)] preimages [t + k 2^w]. *)
Theorem uniform_torus_uniform w t v : word w -> 0 <= t < 2 ^ w -> 0 <= v < 2 ^ 64 ->
  (uniform_torus w v = t <-> exists k, 0 <= k < 2 ^ (64 - w) /\ v = t + k * 2 ^ w).
Proof.
  intros Hw Ht Hv. unfold uniform_torus. rewrite from_u64_mod by assumption.
  assert (Hp : 0 < 2 ^ w) by (apply Z.pow_pos_nonneg; destruct Hw; lia).
  assert (E : 2 ^ 64 = 2 ^ (64 - w) * 2 ^ w) by (rewrite <- Z.pow_add_r by (destruct Hw; lia); f_equal; lia).
  split.
  - intros <-. exists (v / 2 ^ w). split; [|rewrite (Z.mul_comm (v / 2 ^ w)), Z.add_comm; apply Z.div_mod; lia].
    split; [apply Z.div_pos; lia|]. apply Z.div_lt_upper_bound; [lia|]. rewrite Z.mul_comm, <- E. lia.
  - intros (k & _ & ->). rewrite Z.mod_add by lia. now apply Z.mod_small.
Qed.
Print Assumptions uniform_torus_uniform.

(** Binary samples are bits, and both bits have exactly [2^63] preimages. *)
Theorem binary_sample_uniform w b v : word w -> 0 <= v < 2 ^ 64 ->
  (binary_sample w v = 0 \/ binary_sample w v = 1) /\
  (b = 0 \/ b = 1 -> (binary_sample w v = b <-> exists k, 0 <= k < 2 ^ 63 /\ v = b + 2 * k)).
Proof.
  intros Hw Hv. unfold binary_sample. pose proof (Z.mod_pos_bound v 2 ltac:(lia)) as B. rewrite from_u64_mod by (assumption || lia).
  rewrite (Z.mod_small (v mod 2)) by (destruct Hw as [-> | ->]; lia).
  split; [lia|]. intros Hb. change (2 ^ 64) with (2 * 2 ^ 63) in Hv. pose proof (Z.div_mod v 2 ltac:(lia)) as E. split.
  - intros <-. exists (v / 2). split; [|lia]. split; [apply Z.div_pos; lia|apply Z.div_lt_upper_bound; lia].
  - intros (k & _ & ->). rewrite Z.mul_comm, Z.mod_add by lia. apply Z.mod_small. lia.
Qed.
Print Assumptions binary_sample_uniform.
(** Hence generated binary keys are binary. *)
Theorem binary_polynomial_binary w vs : word w -> Forall (fun v => 0 <= v < 2 ^ 64) vs -> length (binary_polynomial w vs) = length vs /\ binary (binary_polynomial w vs).
Proof.
  intros Hw H. split; [apply map_length|]. unfold binary, binary_polynomial. apply Forall_map. eapply Forall_impl; [|exact H]. cbv beta. intros v Hv.
  exact (proj1 (binary_sample_uniform w 0 v Hw Hv)).
Qed.
Print Assumptions binary_polynomial_binary.

(** The documentation of [FromU64] promises the most significant bits; the implementation keeps the least significant ones. *)
Theorem from_u64_most_significant_refuted : exists v, 0 <= v < 2 ^ 64 /\ from_u64 32 v <> v / 2 ^ (64 - 32).
Proof. exists (2 ^ 63). split; [lia|]. vm_compute. discriminate. Qed.
Print Assumptions from_u64_most_significant_refuted.

(** ** Gaussian samples *)

Lemma scale_exact w e0 : 0 <= w -> f64 e0 -> rnd64 (e0 * IZR (2 ^ w)) = (e0 * IZR (2 ^ w))%R.
Proof.
  intros Hw (m & e & -> & Hm & He). apply (fr_exact _ rnd64_rounding). exists m, (e + w). split; [|split; [exact Hm|lia]].
  rewrite powerRZ_add by lra. rewrite (powerRZ_IZR w) by exact Hw. ring.
Qed.
Lemma near_abs w e E : 0 <= w -> Z.abs e <= E -> near w E (e mod 2 ^ w) 0.
Proof. intros Hw He. exists e. split; [exact He|]. rewrite Z.add_0_l. apply zeq_mod. Qed.
Lemma mod64_mod w e : word w -> (e mod 2 ^ 64) mod 2 ^ w = e mod 2 ^ w.
Proof.
  intros Hw. assert (E : 2 ^ 64 = 2 ^ w * 2 ^ (64 - w)) by (rewrite <- Z.pow_add_r by (destruct Hw; lia); f_equal; lia).
  rewrite E. symmetry. assert (0 < 2 ^ w) by (apply Z.pow_pos_nonneg; destruct Hw; lia). assert (0 < 2 ^ (64 - w)) by (apply Z.pow_pos_nonneg; destruct Hw; lia).
  rewrite Z.rem_mul_r by lia. rewrite Z.mul_comm, Z.mod_add by lia. symmetry. apply Z.mod_mod. lia.
Qed.
Lemma normal_value w e0 : word w -> f64 e0 -> normal_torus rnd64 w e0 = Z.max (- 2 ^ 63) (Z.min (2 ^ 63 - 1) (rround (e0 * IZR (2 ^ w)))) mod 2 ^ w.
Proof.
  intros Hw He. unfold normal_torus. rewrite scale_exact by (try assumption; destruct Hw; lia). unfold uwrap.
  rewrite from_u64_mod by (try assumption; apply Z.mod_pos_bound; lia). now apply mod64_mod.
Qed.
Lemma rround_le x E : (Rabs x <= IZR E)%R -> Z.abs (rround x) <= E.
Proof.
  intros H. pose proof (rround_near x) as G.
  assert (L : (IZR (2 * Z.abs (rround x)) <= IZR (2 * E) + 1)%R).
  { rewrite !mult_IZR, abs_IZR. replace (IZR (rround x)) with ((IZR (rround x) - x) + x)%R by ring. pose proof (Rabs_triang (IZR (rround x) - x) x). lra. }
  rewrite <- plus_IZR in L. apply le_IZR in L. lia.
Qed.

(** A sampled error is never larger than the Gaussian value it was drawn from: with [|e0| 2^w <= E] it is within [E] of zero, the form
    in which the noise hypotheses of the encryption theorems are stated. *)
Theorem normal_torus_bounded w e0 E : word w -> f64 e0 -> (Rabs e0 * IZR (2 ^ w) <= IZR E)%R -> near w E (normal_torus rnd64 w e0) 0.
Proof.
  intros Hw He HE. rewrite normal_value by assumption. apply near_abs; [destruct Hw; lia|].
  assert (H : Z.abs (rround (e0 * IZR (2 ^ w))) <= E).
  { apply rround_le. rewrite Rabs_mult, (Rabs_right (IZR (2 ^ w))); [exact HE|]. apply Rle_ge, IZR_le. apply Z.pow_nonneg. lia. }
  revert H. generalize (rround (e0 * IZR (2 ^ w))). intros z. clear. lia.
Qed.
Print Assumptions normal_torus_bounded.

(** The torus element represents [e0] modulo 1 to the nearest representable point: for 32-bit words whenever [|e0| < 2^31 - 1], for
    64-bit words whenever [|e0| < 1/2 - 2^-64]. *)
Theorem normal_torus_nearest_partial w e0 : word w -> f64 e0 -> (Rabs e0 * IZR (2 ^ w) < IZR (2 ^ 63 - 1))%R ->
  exists z, congr w (normal_torus rnd64 w e0) z /\ (Rabs (IZR z / IZR (2 ^ w) - e0) <= / 2 / IZR (2 ^ w))%R.
Proof.
  intros Hw He HE. rewrite normal_value by assumption. exists (rround (e0 * IZR (2 ^ w))).
  assert (Hq : (0 < IZR (2 ^ w))%R) by (apply IZR_lt, Z.pow_pos_nonneg; destruct Hw; lia). split.
  - assert (Z.abs (rround (e0 * IZR (2 ^ w))) <= 2 ^ 63 - 1). { apply rround_le. rewrite Rabs_mult, (Rabs_right (IZR (2 ^ w))) by lra. lra. }
    rewrite Z.min_r, Z.max_r by lia. apply zeq_mod.
  - pose proof (rround_near (e0 * IZR (2 ^ w))) as G.
    replace (IZR (rround (e0 * IZR (2 ^ w))) / IZR (2 ^ w) - e0)%R with ((IZR (rround (e0 * IZR (2 ^ w))) - e0 * IZR (2 ^ w)) * / IZR (2 ^ w))%R by (field; lra).
    rewrite Rabs_mult, (Rabs_right (/ IZR (2 ^ w))) by (apply Rle_ge, Rlt_le, Rinv_0_lt_compat, Hq). unfold Rdiv.
    apply Rmult_le_compat_r; [apply Rlt_le, Rinv_0_lt_compat, Hq|exact G].
Qed.
Print Assumptions normal_torus_nearest_partial.

(** Beyond that 64-bit samples saturate instead of wrapping around the torus: [3/4] becomes the point next to [1/2]. *)
Theorem normal_torus_wraps_refuted : f64 (3 / 4) /\ normal_torus rnd64 64 (3 / 4) = 2 ^ 63 - 1.
Proof.
  assert (F : f64 (3 / 4)). { exists 3, (-2). split; [|lia]. rewrite p2_bpow. change (bpow radix2 (-2)) with (/ 4)%R. lra. }
  split; [exact F|]. rewrite normal_value by (try exact F; right; reflexivity).
  replace (3 / 4 * IZR (2 ^ 64))%R with (IZR (3 * 2 ^ 62)). 2:{ rewrite mult_IZR. change (2 ^ 64) with (4 * 2 ^ 62). rewrite (mult_IZR 4). lra. }
  rewrite rround_IZR. reflexivity.
Qed.
Print Assumptions normal_torus_wraps_refuted.

(** End to end: encryption with a sampled error decrypts whenever the Gaussian value is below half a message step (minus one unit). *)
Theorem lwe_sampled_error_decrypts pr w dim sk m p mask e0 : word w -> dim <> O -> length sk = dim -> length mask = dim ->
  0 < p < w -> p < 32 -> 0 <= m < 2 ^ p -> f64 e0 -> (Rabs e0 * IZR (2 ^ w) <= IZR (2 ^ (w - p - 1) - 1))%R ->
  exists c, lwe_sk_encrypt w dim sk m p mask (normal_torus rnd64 w e0) = Ok c /\ lwe_decrypt pr w dim sk c p = Ok m.
Proof. intros Hw Hd H1 H2 Hp Hp' Hm He HE. apply lwe_decrypt_encrypt; try assumption. now apply normal_torus_bounded. Qed.
Print Assumptions lwe_sampled_error_decrypts.
Example sampled_error_ex : f64 (/ 1024) /\ (Rabs (/ 1024) * IZR (2 ^ 64) <= IZR (2 ^ (64 - 3 - 1) - 1))%R /\ normal_torus rnd64 64 (/ 1024) = 2 ^ 54.
Proof.
  assert (F : f64 (/ 1024)). { exists 1, (-10). split; [|lia]. rewrite p2_bpow. change (bpow radix2 (-10)) with (/ 1024)%R. lra. }
  split; [exact F|]. rewrite Rabs_right by lra. split; [rewrite <- (Rmult_1_l (IZR (2 ^ 64))); change (2 ^ 64) with (1024 * 2 ^ 54); rewrite mult_IZR; change (2 ^ (64 - 3 - 1) - 1) with (2 ^ 54 + (2 ^ 60 - 1 - 2 ^ 54)); rewrite plus_IZR; pose proof (IZR_le 0 (2 ^ 60 - 1 - 2 ^ 54) ltac:(lia)); lra|].
  rewrite normal_value by (try exact F; right; reflexivity). replace (/ 1024 * IZR (2 ^ 64))%R with (IZR (2 ^ 54)). 2:{ change (2 ^ 64) with (1024 * 2 ^ 54). rewrite (mult_IZR 1024). lra. }
  rewrite rround_IZR. reflexivity.
Qed.

(** * C117: torus elements as doubles *)

Lemma to_f64_div w V : 0 <= w <= 1000 -> f64 (IZR V) -> rnd64 (IZR V / IZR (2 ^ w)) = (IZR V / IZR (2 ^ w))%R.
Proof.
  intros Hw HV. destruct (f64_int V HV) as (m & e & -> & Hm & He). apply (fr_exact _ rnd64_rounding). exists m, (e - w).
  split; [|split; [exact Hm|lia]]. rewrite mult_IZR, <- (powerRZ_IZR e), <- (powerRZ_IZR w) by lia.
  unfold Z.sub. rewrite powerRZ_add by lra. rewrite powerRZ_neg'. unfold Rdiv. ring.
Qed.
Lemma rnd64_int x : exists V, rnd64 (IZR x) = IZR V /\ f64 (IZR V).
Proof.
  destruct (fr_f64 _ rnd64_rounding (IZR x)) as (m & e & E & Hm & He). destruct (Z.le_gt_cases 0 e) as [H|H].
  - exists (m * 2 ^ e). split; [rewrite E, powerRZ_IZR, <- mult_IZR by exact H; reflexivity|now apply f64_IZR_small].
  - assert (H53 : Z.abs x <= 2 ^ 53).
    { destruct (Z.le_gt_cases (Z.abs x) (2 ^ 53)) as [L|L]; [exact L|exfalso].
      assert (Hle : (Rabs (rnd64 (IZR x)) < IZR (2 ^ 53))%R).
      { rewrite E, Rabs_mult, <- abs_IZR. rewrite (Rabs_right (powerRZ 2 e)) by (left; apply powerRZ_pos).
        apply Rle_lt_trans with (IZR (Z.abs m) * 1)%R; [|rewrite Rmult_1_r; apply IZR_lt; exact Hm]. apply Rmult_le_compat_l; [apply IZR_le; lia|].
        rewrite p2_bpow. change 1%R with (bpow radix2 0). apply bpow_le. lia. }
      assert (F53 : generic_format radix2 (FLT_exp (-1074) 53) (IZR (2 ^ 53))).
      { apply f64_format. exists 1, 53. split; [rewrite powerRZ_IZR by lia; lra|lia]. }
      apply (Rlt_not_le _ _ Hle). rewrite <- (round_generic radix2 (FLT_exp (-1074) 53) ZnearestE (IZR (2 ^ 53)) F53).
      destruct (Z.le_ge_cases 0 x) as [P|P].
      - eapply Rle_trans; [|apply Rle_abs]. apply round_le; [apply FLT_exp_valid; reflexivity|apply valid_rnd_N|]. apply IZR_le. lia.
      - rewrite <- Rabs_Ropp. eapply Rle_trans; [|apply Rle_abs]. unfold rnd64. rewrite <- round_NE_opp. apply round_le; [apply FLT_exp_valid; reflexivity|apply valid_rnd_N|].
        rewrite <- opp_IZR. apply IZR_le. lia. }
    exists x. assert (F : f64 (IZR x)). { destruct (Z.eq_dec (Z.abs x) (2 ^ 53)) as [Q|Q]; [exists (Z.sgn x), 53|exists x, 0]; (split; [|split; [|lia]]).
      - rewrite powerRZ_IZR, <- mult_IZR by lia. f_equal. lia.
      - lia.
      - cbn. ring.
      - lia. }
    split; [apply (fr_exact _ rnd64_rounding), F|exact F].
Qed.
Lemma normalized_value w x : word w -> normalized_torus rnd64 w x = (rnd64 (IZR x) / IZR (2 ^ w))%R.
Proof. intros Hw. unfold normalized_torus, to_f64. destruct (rnd64_int x) as (V & -> & F). apply to_f64_div; [destruct Hw; lia|exact F]. Qed.
Lemma rnd64_small x : Z.abs x < 2 ^ 53 -> rnd64 (IZR x) = IZR x.
Proof. intros H. apply (fr_exact _ rnd64_rounding). exists x, 0. split; [cbn; ring|lia]. Qed.
Lemma rnd64_mono a b : (a <= b)%R -> (rnd64 a <= rnd64 b)%R.
Proof. intros H. apply round_le; [apply FLT_exp_valid; reflexivity|apply valid_rnd_N|exact H]. Qed.
Lemma f64_pow e : 0 <= e -> rnd64 (IZR (2 ^ e)) = IZR (2 ^ e).
Proof. intros H. apply (fr_exact _ rnd64_rounding). exists 1, e. split; [rewrite powerRZ_IZR by lia; ring|lia]. Qed.
Lemma rnd64_opp x : rnd64 (- x) = (- rnd64 x)%R.
Proof. apply round_NE_opp. Qed.

(** 32-bit torus elements, and 64-bit ones below [2^53], are converted exactly. *)
Theorem normalized_torus_exact w x : word w -> 0 <= x < 2 ^ w -> w = 32 \/ x < 2 ^ 53 -> normalized_torus rnd64 w x = (IZR x / IZR (2 ^ w))%R.
Proof.
  intros Hw Hx H. rewrite normalized_value by assumption. rewrite rnd64_small; [reflexivity|]. destruct H as [-> |H]; lia.
Qed.
Print Assumptions normalized_torus_exact.

(** Always the position to within [2^-53], between 0 and 1 inclusive, and monotone. *)
Theorem normalized_torus_accurate w x : word w -> 0 <= x < 2 ^ w ->
  (Rabs (normalized_torus rnd64 w x - IZR x / IZR (2 ^ w)) <= powerRZ 2 (-53))%R /\ (0 <= normalized_torus rnd64 w x <= 1)%R /\
  forall y, x <= y < 2 ^ w -> (normalized_torus rnd64 w x <= normalized_torus rnd64 w y)%R.
Proof.
  intros Hw Hx. assert (Hq : (1 <= IZR (2 ^ w))%R) by (apply IZR_le; destruct Hw as [-> | ->]; lia).
  assert (Hi : (0 < / IZR (2 ^ w) <= 1)%R). { split; [apply Rinv_0_lt_compat; lra|]. rewrite <- Rinv_1. apply Rinv_le_contravar; lra. }
  rewrite normalized_value by assumption. split; [|split].
  - replace (rnd64 (IZR x) / IZR (2 ^ w) - IZR x / IZR (2 ^ w))%R with ((rnd64 (IZR x) - IZR x) * / IZR (2 ^ w))%R by (field; lra).
    rewrite Rabs_mult, (Rabs_right (/ IZR (2 ^ w))) by lra.
    apply Rmult_le_reg_r with (IZR (2 ^ w)); [lra|]. rewrite Rmult_assoc, Rinv_l, Rmult_1_r by lra.
    pose proof (fr_error _ rnd64_rounding (IZR x)) as H. rewrite (Rabs_right (IZR x)) in H by (apply Rle_ge, IZR_le; lia).
    assert (Hx' : (IZR x <= IZR (2 ^ w) - 1)%R) by (rewrite <- minus_IZR; apply IZR_le; lia).
    assert (Hu : (powerRZ 2 (-1075) <= powerRZ 2 (-53))%R) by (rewrite !p2_bpow; apply bpow_le; lia). pose proof (powerRZ_pos (-53)). nra.
  - assert (H0 : (0 <= rnd64 (IZR x))%R). { rewrite <- (rnd64_small 0) by (cbn; lia). apply rnd64_mono, IZR_le. lia. }
    assert (H1 : (rnd64 (IZR x) <= IZR (2 ^ w))%R). { rewrite <- (f64_pow w) by (destruct Hw; lia). apply rnd64_mono, IZR_le. lia. }
    unfold Rdiv. split; [nra|]. apply Rmult_le_reg_r with (IZR (2 ^ w)); [lra|]. rewrite Rmult_assoc, Rinv_l by lra. lra.
  - intros y Hy. rewrite normalized_value by assumption. unfold Rdiv. apply Rmult_le_compat_r; [lra|]. apply rnd64_mono, IZR_le. lia.
Qed.
Print Assumptions normalized_torus_accurate.

Lemma rnd64_tie : rnd64 (IZR (2 ^ 64 - 1024)) = IZR (2 ^ 64).
Proof.
  assert (M : mag radix2 (IZR (2 ^ 64 - 1024)) = 64 :> Z).
  { apply mag_unique. rewrite Rabs_right by (apply Rle_ge, IZR_le; lia). rewrite <- !(p2_bpow), !powerRZ_IZR by lia. split; [apply IZR_le|apply IZR_lt]; lia. }
  assert (Ce : Generic_fmt.cexp radix2 (FLT_exp (-1074) 53) (IZR (2 ^ 64 - 1024)) = Z.max (64 - 53) (-1074)) by (unfold Generic_fmt.cexp; rewrite M; reflexivity).
  unfold rnd64, Generic_fmt.round, scaled_mantissa. rewrite !Ce.
  replace (IZR (2 ^ 64 - 1024) * bpow radix2 (- Z.max (64 - 53) (-1074)))%R with (IZR (2 ^ 53 - 1) + / 2)%R.
  2:{ change (- Z.max (64 - 53) (-1074)) with (-11). change (2 ^ 64 - 1024) with ((2 * (2 ^ 53 - 1) + 1) * 1024). rewrite !mult_IZR, plus_IZR, mult_IZR. change (bpow radix2 (-11)) with (/ 2048)%R. lra. }
  assert (Fl : Zfloor (IZR (2 ^ 53 - 1) + / 2) = 2 ^ 53 - 1) by (apply Zfloor_imp; rewrite plus_IZR; lra).
  assert (Z1 : ZnearestE (IZR (2 ^ 53 - 1) + / 2) = 2 ^ 53).
  { unfold Znearest. rewrite Fl. rewrite Rcompare_Eq by lra. change (negb (Z.even (2 ^ 53 - 1))) with true. cbv iota. apply Zceil_imp.
    replace (2 ^ 53 - 1) with (2 ^ 53 - 1)%Z by reflexivity. split; [lra|]. replace (IZR (2 ^ 53)) with (IZR (2 ^ 53 - 1) + 1)%R by (rewrite <- plus_IZR; f_equal). lra. }
  rewrite Z1. unfold F2R. cbn [Fnum Fexp]. change (Z.max (64 - 53) (-1074)) with 11. rewrite <- p2_bpow, powerRZ_IZR by lia. rewrite <- mult_IZR. f_equal.
Qed.

(** The documented range is [0, 1), but the last 1024 positions of the 64-bit torus are reported as 1. *)
Theorem normalized_torus_one x : 0 <= x < 2 ^ 64 -> (normalized_torus rnd64 64 x = 1%R <-> 2 ^ 64 - 1024 <= x).
Proof.
  intros Hx. rewrite normalized_value by (right; reflexivity). assert (Hq : (0 < IZR (2 ^ 64))%R) by (apply IZR_lt; lia).
  assert (E : (rnd64 (IZR x) / IZR (2 ^ 64))%R = 1%R <-> rnd64 (IZR x) = IZR (2 ^ 64)).
  { split; intros H; [|rewrite H; field; lra]. apply (f_equal (fun r => (r * IZR (2 ^ 64))%R)) in H. unfold Rdiv in H. rewrite Rmult_assoc, Rinv_l, Rmult_1_r, Rmult_1_l in H by lra. exact H. }
  rewrite E. clear E. split.
  - intros H. destruct (Z.le_gt_cases (2 ^ 64 - 1024) x) as [L|L]; [exact L|exfalso].
    assert (F : f64 (IZR (2 ^ 64 - 2048))). { change (2 ^ 64 - 2048) with ((2 ^ 53 - 1) * 2 ^ 11). apply f64_IZR_small; lia. }
    destruct (Z.le_gt_cases x (2 ^ 64 - 2048)) as [L2|L2].
    + assert (G : (rnd64 (IZR x) <= IZR (2 ^ 64 - 2048))%R). { rewrite <- (fr_exact _ rnd64_rounding _ F). apply rnd64_mono, IZR_le, L2. }
      rewrite H in G. apply le_IZR in G. lia.
    + assert (Vd : Valid_exp (FLT_exp (-1074) 53)) by (apply FLT_exp_valid; reflexivity). destruct (@round_N_pt radix2 (FLT_exp (-1074) 53) Vd (fun z => negb (Z.even z)) (IZR x)) as [_ N].
      specialize (N (IZR (2 ^ 64 - 2048)) (proj1 (f64_format _) F)). fold (rnd64 (IZR x)) in N. rewrite H in N.
      rewrite <- !minus_IZR, <- !abs_IZR in N. apply le_IZR in N. lia.
  - intros H. apply Rle_antisym.
    + rewrite <- (f64_pow 64) by lia. apply rnd64_mono, IZR_le. lia.
    + rewrite <- rnd64_tie. apply rnd64_mono, IZR_le. exact H.
Qed.
Print Assumptions normalized_torus_one.
Theorem normalized_torus_below_one_refuted : exists x, 0 <= x < 2 ^ 64 /\ normalized_torus rnd64 64 x = 1%R.
Proof. exists (2 ^ 64 - 1). split; [lia|]. apply normalized_torus_one; lia. Qed.
Print Assumptions normalized_torus_below_one_refuted.

(** The distance is the shorter way round: [D] steps with [-2^(w-1) < D <= 2^(w-1)] lead from [a] to [b], and the result is [D / 2^w],
    exactly for 32-bit words and with an error of at most [2^-54] for 64-bit words; it never exceeds 1/2 in absolute value. *)
Theorem torus_distance_shortest w a b : word w -> 0 <= a < 2 ^ w -> 0 <= b < 2 ^ w ->
  exists D, congr w b (a + D) /\ - 2 ^ (w - 1) < D <= 2 ^ (w - 1) /\
    (w = 32 -> normalized_torus_distance rnd64 w a b = (IZR D / IZR (2 ^ w))%R) /\
    (Rabs (normalized_torus_distance rnd64 w a b - IZR D / IZR (2 ^ w)) <= powerRZ 2 (-54))%R /\
    (Rabs (normalized_torus_distance rnd64 w a b) <= / 2)%R.
Proof.
  intros Hw Ha Hb. assert (E2 : 2 ^ w = 2 * 2 ^ (w - 1)) by (rewrite <- Z.pow_succ_r by (destruct Hw; lia); f_equal; lia).
  assert (Hp : 0 < 2 ^ (w - 1)) by (apply Z.pow_pos_nonneg; destruct Hw; lia).
  set (D := if tsub w a b <? tsub w b a then - tsub w a b else tsub w b a).
  assert (HD : congr w b (a + D) /\ - 2 ^ (w - 1) < D <= 2 ^ (w - 1)).
  { subst D. unfold tsub, uwrap. assert (M : forall z, - 2 ^ w < z < 2 ^ w -> z mod 2 ^ w = if z <? 0 then z + 2 ^ w else z).
    { intros z Hz. destruct (Z.ltb_spec z 0); [rewrite <- (Z.mod_add z 1) by lia; rewrite Z.mul_1_l|]; apply Z.mod_small; lia. }
    split.
    - destruct (_ <? _).
      + assert (C : congr w ((a - b) mod 2 ^ w) (a - b)) by apply zeq_mod. rewrite Z.add_opp_r, C. apply zeq_refl'. ring.
      + assert (C : congr w ((b - a) mod 2 ^ w) (b - a)) by apply zeq_mod. rewrite C. apply zeq_refl'. ring.
    - rewrite !M by lia. destruct (Z.ltb_spec (a - b) 0), (Z.ltb_spec (b - a) 0); destruct (Z.ltb_spec (a - b) (b - a)); try destruct (Z.ltb_spec (a - b + 2 ^ w) (b - a)); try destruct (Z.ltb_spec (a - b) (b - a + 2 ^ w));
        try destruct (Z.ltb_spec (a - b + 2 ^ w) (b - a + 2 ^ w)); lia. }
  exists D. destruct HD as [HC HB]. split; [exact HC|]. split; [exact HB|].
  assert (EV : normalized_torus_distance rnd64 w a b = (rnd64 (IZR D) / IZR (2 ^ w))%R).
  { unfold normalized_torus_distance, to_f64. cbv zeta. replace (if tsub w a b <? tsub w b a then (- rnd64 (IZR (tsub w a b)))%R else rnd64 (IZR (tsub w b a))) with (rnd64 (IZR D)).
    2:{ subst D. destruct (_ <? _); [|reflexivity]. rewrite opp_IZR. apply rnd64_opp. }
    destruct (rnd64_int D) as (V & -> & F). apply to_f64_div; [destruct Hw; lia|exact F]. }
  rewrite EV. assert (Hq : (2 <= IZR (2 ^ w))%R) by (apply IZR_le; destruct Hw as [-> | ->]; lia).
  assert (Hi : (0 < / IZR (2 ^ w))%R) by (apply Rinv_0_lt_compat; lra).
  assert (AD : (Rabs (IZR D) <= IZR (2 ^ (w - 1)))%R) by (rewrite <- abs_IZR; apply IZR_le; lia).
  assert (Q2 : IZR (2 ^ w) = (2 * IZR (2 ^ (w - 1)))%R) by (rewrite E2 at 1; apply mult_IZR).
  split; [|split].
  - intros W. rewrite rnd64_small; [reflexivity|]. subst w. lia.
  - replace (rnd64 (IZR D) / IZR (2 ^ w) - IZR D / IZR (2 ^ w))%R with ((rnd64 (IZR D) - IZR D) * / IZR (2 ^ w))%R by (field; lra).
    rewrite Rabs_mult, (Rabs_right (/ IZR (2 ^ w))) by lra. apply Rmult_le_reg_r with (IZR (2 ^ w)); [lra|]. rewrite Rmult_assoc, Rinv_l, Rmult_1_r by lra.
    destruct (Z.lt_ge_cases (Z.abs D) (2 ^ 53)) as [L|L].
    { rewrite rnd64_small by exact L. rewrite Rminus_eq_0, Rabs_R0. pose proof (powerRZ_pos (-54)). nra. }
    assert (G : (Rabs (rnd64 (IZR D) - IZR D) <= powerRZ 2 (-53) * Rabs (IZR D))%R).
    { unfold rnd64. assert (P53 : powerRZ 2 (-53) = (/ 2 * bpow radix2 (- (53) + 1))%R).
      { rewrite p2_bpow. change (- (53) + 1)%Z with (1 + -53)%Z. rewrite bpow_plus. change (bpow radix2 1) with 2%R. lra. }
      rewrite P53.
      apply (relative_error_N_FLT radix2 (-1074) 53 ltac:(lia) (fun z => negb (Z.even z))). rewrite <- abs_IZR. apply Rle_trans with (bpow radix2 53); [apply bpow_le; lia|]. rewrite <- p2_bpow, powerRZ_IZR by lia. apply IZR_le, L. }
    assert (P : powerRZ 2 (-53) = (2 * powerRZ 2 (-54))%R) by (change (-53)%Z with (1 + -54)%Z; rewrite powerRZ_add by lra; rewrite powerRZ_1; ring).
    rewrite P in G. pose proof (powerRZ_pos (-54)). nra.
  - unfold Rdiv. rewrite Rabs_mult, (Rabs_right (/ IZR (2 ^ w))) by lra. apply Rmult_le_reg_r with (IZR (2 ^ w)); [lra|]. rewrite Rmult_assoc, Rinv_l, Rmult_1_r by lra.
    assert (H1 : (rnd64 (IZR D) <= IZR (2 ^ (w - 1)))%R). { rewrite <- (f64_pow (w - 1)) by (destruct Hw; lia). apply rnd64_mono. pose proof (Rle_abs (IZR D)). lra. }
    assert (H2 : (- IZR (2 ^ (w - 1)) <= rnd64 (IZR D))%R). { rewrite <- (f64_pow (w - 1)) by (destruct Hw; lia). rewrite <- rnd64_opp. apply rnd64_mono. pose proof (Rle_abs (- IZR D)) as RA; rewrite Rabs_Ropp in RA; lra. }
    apply Rabs_le. lra.
Qed.
Print Assumptions torus_distance_shortest.

(** Modulus switching to a smaller word keeps the leading bits: the position moves down by less than one step of the new torus. *)
Theorem switch_modulus_correct pr x : 0 <= x < 2 ^ 64 ->
  switch_modulus_smaller pr 64 64 x = Ok x /\
  exists y, switch_modulus_smaller pr 64 32 x = Ok y /\ 0 <= y < 2 ^ 32 /\ y * 2 ^ 32 <= x < (y + 1) * 2 ^ 32.
Proof.
  intros Hx. assert (G : forall t sh, 64 - t = sh -> t <= 64 -> 0 <= sh < 64 -> x / 2 ^ sh < 2 ^ t -> switch_modulus_smaller pr 64 t x = Ok (x / 2 ^ sh)).
  { intros t sh <- H1 H2 H3. unfold switch_modulus_smaller, usub, ushr. rewrite (proj2 (Z.leb_le _ _) H1). cbn [bind]. rewrite (proj2 (Z.leb_le _ _) (proj1 H2)), (proj2 (Z.ltb_lt _ _) (proj2 H2)). cbn [andb bind]. now rewrite (proj2 (Z.ltb_lt _ _) H3). }
  assert (B : 0 <= x / 2 ^ 32 < 2 ^ 32) by (split; [apply Z.div_pos; lia|apply Z.div_lt_upper_bound; lia]).
  split; [rewrite (G 64 0); [|lia..|change (2 ^ 0) with 1; rewrite Z.div_1_r; lia]; change (2 ^ 0) with 1; now rewrite Z.div_1_r|]. rewrite (G 32 32); [|lia..].
  exists (x / 2 ^ 32). split; [reflexivity|]. split; [exact B|]. pose proof (Z.div_mod x (2 ^ 32) ltac:(lia)). pose proof (Z.mod_pos_bound x (2 ^ 32) ltac:(lia)). lia.
Qed.
Print Assumptions switch_modulus_correct.
(** To a larger word it aborts in debug builds and returns the word unscaled in release builds. *)
Theorem switch_modulus_larger x : 0 <= x < 2 ^ 32 -> switch_modulus_smaller Debug 32 64 x = Panic /\ switch_modulus_smaller Release 32 64 x = Ok x.
Proof.
  intros Hx. split; [reflexivity|]. unfold switch_modulus_smaller, usub, ushr, uwrap. change (64 <=? 32) with false. cbv iota. cbn [bind].
  change (((32 - 64) mod 2 ^ 32 <? 32)) with false. rewrite andb_false_r. cbn [bind]. change (2 ^ ((32 - 64) mod 2 ^ 32 mod 32)) with 1. rewrite Z.div_1_r. destruct (Z.ltb_spec x (2 ^ 64)); [reflexivity|lia].
Qed.
Print Assumptions switch_modulus_larger.
Example torus_ex : normalized_torus rnd64 32 (2 ^ 30) = (/ 4)%R /\ switch_modulus_smaller Debug 64 32 (7 * 2 ^ 60 + 12345) = Ok (7 * 2 ^ 28).
Proof. split; [|reflexivity]. rewrite normalized_torus_exact by (try (left; reflexivity); lia). change (2 ^ 32) with (4 * 2 ^ 30). rewrite mult_IZR. field. apply not_0_IZR. lia. Qed.
