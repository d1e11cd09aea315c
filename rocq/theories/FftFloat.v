(** IEEE-754 double precision rounding (Flocq) meets the hypotheses of the FFT theorems. *)
From Coq Require Import Reals ZArith List Lia Lra Psatz Bool.
From Coquelicot Require Import Complex.
From Flocq Require Import Core.
Require Import Flocq.Prop.Relative.
From Verif Require Import Fft SpecFft FftProofs FftProofs2 FftProofs6.
Import ListNotations.
Open Scope R_scope.

(** Round to nearest even, 53 bits, smallest exponent -1074. *)
Definition rnd64 : R -> R := round radix2 (FLT_exp (-1074) 53) ZnearestE.

Lemma p2_bpow e : powerRZ 2 e = bpow radix2 e.
Proof. rewrite bpow_powerRZ. reflexivity. Qed.

Lemma f64_format x : f64 x <-> generic_format radix2 (FLT_exp (-1074) 53) x.
Proof.
  split.
  - intros (m & e & E & Hm & He). apply generic_format_FLT. exists (Float radix2 m e).
    + rewrite E, p2_bpow. reflexivity.
    + exact Hm.
    + exact He.
  - intros H. apply FLT_format_generic in H; [|reflexivity]. destruct H as [f E Hm He].
    exists (Fnum f), (Fexp f). rewrite p2_bpow. split; [exact E|]. split; [exact Hm|exact He].
Qed.

Lemma rnd64_error x : Rabs (rnd64 x - x) <= powerRZ 2 (-53) * Rabs x + powerRZ 2 (-1075).
Proof.
  destruct (error_N_FLT radix2 (-1074) 53 ltac:(lia) (fun z => negb (Z.even z)) x) as (eps & eta & H1 & H2 & _ & E).
  unfold rnd64. rewrite E. replace (x * (1 + eps) + eta - x) with (x * eps + eta) by ring.
  eapply Rle_trans; [apply Rabs_triang|]. apply Rplus_le_compat.
  - rewrite Rabs_mult, Rmult_comm. apply Rmult_le_compat_r; [apply Rabs_pos|].
    eapply Rle_trans; [exact H1|]. rewrite <- p2_bpow. simpl. lra.
  - eapply Rle_trans; [exact H2|]. rewrite <- p2_bpow.
    change (-1074)%Z with (1 + -1075)%Z. rewrite powerRZ_add by lra. simpl (powerRZ 2 1). lra.
Qed.

Lemma rnd64_rounding : f64_rounding rnd64.
Proof.
  split.
  - intros x H. apply round_generic; [apply valid_rnd_N|]. apply f64_format, H.
  - intros x. apply f64_format, generic_format_round; [apply FLT_exp_valid; reflexivity|apply valid_rnd_N].
  - apply rnd64_error.
Qed.

(** ** Tables built with rounded angles *)
Lemma sin_le x : Rabs (sin x) <= Rabs x.
Proof.
  destruct (Rtotal_order x 0) as [H|[->|H]].
  - rewrite <- (Rabs_Ropp (sin x)), <- (Rabs_Ropp x), <- sin_neg. pose proof (sin_lt_x (- x) ltac:(lra)) as L.
    rewrite (Rabs_right (- x)) by lra. destruct (Rle_dec 1 (- x)).
    + pose proof (SIN_bound (- x)). apply Rabs_le. lra.
    + pose proof PI_RGT_0. pose proof PI2_1. pose proof (sin_ge_0 (- x) ltac:(lra) ltac:(lra)).
      rewrite Rabs_right by lra. lra.
  - rewrite sin_0, Rabs_R0. lra.
  - pose proof (sin_lt_x x H) as L. rewrite (Rabs_right x) by lra. destruct (Rle_dec 1 x).
    + pose proof (SIN_bound x). apply Rabs_le. lra.
    + pose proof PI_RGT_0. pose proof PI2_1. pose proof (sin_ge_0 x ltac:(lra) ltac:(lra)).
      rewrite Rabs_right by lra. lra.
Qed.
Lemma cexp_lip a b : Cmod (Cminus (cexp a) (cexp b)) <= 2 * Rabs (a - b).
Proof.
  assert (B : forall x y, Rabs x <= 1 -> Rabs (2 * x * sin y) <= 2 * Rabs y).
  { intros x y Hx. rewrite !Rabs_mult, (Rabs_right 2) by lra. pose proof (sin_le y). pose proof (Rabs_pos (sin y)).
    pose proof (Rabs_pos x). nra. }
  assert (H : forall t, Rabs (sin t) <= 1 /\ Rabs (cos t) <= 1).
  { intros t. pose proof (SIN_bound t). pose proof (COS_bound t). split; apply Rabs_le; lra. }
  assert (E2 : Rabs ((a - b) / 2) = Rabs (a - b) / 2).
  { unfold Rdiv. rewrite Rabs_mult, (Rabs_right (/ 2)) by lra. reflexivity. }
  eapply Rle_trans; [apply mod_sum|]. unfold Cminus, Cplus, Copp, cexp; cbn [fst snd].
  pose proof (form2 a b) as F1. pose proof (form4 a b) as F2. unfold Rminus in F1 at 1. unfold Rminus in F2 at 1.
  rewrite F1, F2.
  replace (-2 * sin ((a - b) / 2) * sin ((a + b) / 2)) with (- (2 * sin ((a + b) / 2) * sin ((a - b) / 2))) by ring.
  rewrite Rabs_Ropp.
  pose proof (B (sin ((a + b) / 2)) ((a - b) / 2) (proj1 (H _))).
  pose proof (B (cos ((a + b) / 2)) ((a - b) / 2) (proj2 (H _))). lra.
Qed.

Section Angle.
Context (fl : R -> R) (u : R) (Hu : 0 <= u <= / 64) (Hfl : forall x, Rabs (fl x - x) <= u * Rabs x + u).

Lemma fl_step x y e B : Rabs y <= B -> Rabs (x - y) <= e -> Rabs (fl x - y) <= u * (B + e) + u + e.
Proof.
  intros HB He. replace (fl x - y) with ((fl x - x) + (x - y)) by ring.
  eapply Rle_trans; [apply Rabs_triang|].
  assert (Hx : Rabs x <= B + e).
  { replace x with ((x - y) + y) by ring. eapply Rle_trans; [apply Rabs_triang|]. lra. }
  pose proof (Hfl x). assert (u * Rabs x <= u * (B + e)) by (apply Rmult_le_compat_l; lra). lra.
Qed.

Lemma angle_err n j : (j < n)%nat ->
  Rabs (fl (fl (fl (fl PI * 2) * INR j) / INR (2 * n * 2)) - 2 * PI * INR j / (4 * INR n)) <= 20 * u.
Proof.
  intros Hj. assert (Hn : 1 <= INR n) by (change 1 with (INR 1); apply le_INR; lia).
  assert (Hjn : 0 <= INR j <= INR n) by (split; [apply pos_INR|apply le_INR; lia]).
  pose proof PI_RGT_0 as P0. pose proof PI_4 as P4.
  assert (U2 : 0 <= u * u <= / 64 * u) by (split; [apply Rmult_le_pos|apply Rmult_le_compat_r]; lra).
  assert (E1 : Rabs (fl PI - PI) <= 5 * u).
  { pose proof (fl_step PI PI 0 4) as H. rewrite Rabs_right in H by lra. replace (PI - PI) with 0 in H by ring.
    rewrite Rabs_R0 in H. specialize (H ltac:(lra) ltac:(lra)). lra. }
  assert (E2 : Rabs (fl (fl PI * 2) - 2 * PI) <= 20 * u).
  { eapply Rle_trans; [apply (fl_step _ _ (10 * u) 8)|].
    - rewrite Rabs_right; lra.
    - replace (fl PI * 2 - 2 * PI) with (2 * (fl PI - PI)) by ring. rewrite Rabs_mult, (Rabs_right 2) by lra. lra.
    - lra. }
  set (tp := fl (fl PI * 2)) in *.
  assert (E3 : Rabs (fl (tp * INR j) - 2 * PI * INR j) <= 31 * u * INR n).
  { assert (T : 0 <= u * INR n) by (apply Rmult_le_pos; lra).
    assert (T2 : u <= u * INR n) by (rewrite <- (Rmult_1_r u) at 1; apply Rmult_le_compat_l; lra).
    eapply Rle_trans; [apply (fl_step _ _ (20 * u * INR n) (8 * INR n))|].
    - rewrite Rabs_right; [|apply Rle_ge; apply Rmult_le_pos; lra]. apply Rmult_le_compat; lra.
    - replace (tp * INR j - 2 * PI * INR j) with ((tp - 2 * PI) * INR j) by ring. rewrite Rabs_mult, (Rabs_right (INR j)) by lra.
      apply Rmult_le_compat; try lra. apply Rabs_pos.
    - assert (u * (20 * u * INR n) <= 20 * / 64 * (u * INR n)).
      { replace (u * (20 * u * INR n)) with (20 * ((u * u) * INR n)) by ring.
        assert ((u * u) * INR n <= / 64 * u * INR n) by (apply Rmult_le_compat_r; lra). lra. }
      lra. }
  set (x := fl (tp * INR j)) in *.
  assert (D : INR (2 * n * 2) = 4 * INR n) by (rewrite !mult_INR; simpl; ring). rewrite D.
  assert (Hi : 0 < / (4 * INR n)) by (apply Rinv_0_lt_compat; lra).
  eapply Rle_trans; [apply (fl_step _ _ (31 / 4 * u) 2)|].
  - unfold Rdiv. rewrite Rabs_mult, (Rabs_right (/ (4 * INR n))) by lra.
    rewrite Rabs_right by (apply Rle_ge, Rmult_le_pos; lra).
    apply (Rmult_le_reg_r (4 * INR n)); [lra|]. rewrite Rmult_assoc, Rinv_l, Rmult_1_r by lra.
    apply Rle_trans with (8 * INR n); [apply Rmult_le_compat; lra|lra].
  - replace (x / (4 * INR n) - 2 * PI * INR j / (4 * INR n)) with ((x - 2 * PI * INR j) * / (4 * INR n)) by (unfold Rdiv; ring).
    rewrite Rabs_mult, (Rabs_right (/ (4 * INR n))) by lra.
    apply (Rmult_le_reg_r (4 * INR n)); [lra|]. rewrite Rmult_assoc, Rinv_l, Rmult_1_r by lra. lra.
  - lra.
Qed.
End Angle.

(** Double precision arithmetic with correctly computed transforms. *)
Definition f64_ext : ext :=
  {| ef_fl := rnd64; ef_sin_cos := fun t => (sin t, cos t); ef_powm1 := Cinv; ef_fwd := dft (-1); ef_inv := dft 1 |}.

Lemma f64_accurate n : (0 < n)%nat -> accurate f64_ext n (powerRZ 2 (-53)) (powerRZ 2 (-1075)) (powerRZ 2 (-47)) 0.
Proof.
  intros Hn.
  assert (U : 0 < powerRZ 2 (-53) <= / 64). { split; [apply powerRZ_lt; lra|]. simpl. lra. }
  assert (E : 0 < powerRZ 2 (-1075) <= powerRZ 2 (-53)).
  { split; [apply powerRZ_lt; lra|]. rewrite !p2_bpow. apply bpow_le. lia. }
  assert (T : powerRZ 2 (-47) = 64 * powerRZ 2 (-53)).
  { change (-47)%Z with (6 + -53)%Z. rewrite powerRZ_add by lra. simpl (powerRZ 2 6). ring. }
  split.
  - split; [lra|]. split; [lra|]. split; [|lra]. rewrite T. lra.
  - intros x. apply rnd64_error.
  - intros t Ht j Hj. destruct (tables_nth rnd64 n t j Ht Hj) as [E1 E2]. rewrite E1, E2.
    assert (A : Rabs (rnd64 (rnd64 (rnd64 (rnd64 PI * 2) * INR j) / INR (2 * n * 2)) - 2 * PI * INR j / (4 * INR n))
                <= 20 * powerRZ 2 (-53)).
    { apply angle_err; [lra| |exact Hj]. intros x. pose proof (rnd64_error x). lra. }
    set (a := rnd64 (rnd64 _ / _)) in *. split; (eapply Rle_trans; [apply cexp_lip|]); [lra|].
    replace (- a - - (2 * PI * INR j / (4 * INR n))) with (- (a - 2 * PI * INR j / (4 * INR n))) by ring.
    rewrite Rabs_Ropp. lra.
  - apply dft_exact.
  - apply dft_exact.
Qed.
