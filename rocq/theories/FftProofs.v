(** The exact theory of the twisted FFT: roots of unity, orthogonality, and the ring homomorphism. *)
From Coq Require Import Reals ZArith List Lia Lra Bool.
From Coquelicot Require Import Complex.
From Verif Require Import Fft SpecFft.
Import ListNotations.
Open Scope R_scope.
Open Scope C_scope.

(** ** e^{it} *)
Lemma cexp_add a b : cexp (a + b) = cexp a * cexp b.
Proof. unfold cexp, Cmult; cbn [fst snd]. rewrite cos_plus, sin_plus. f_equal; ring. Qed.
Lemma cexp_0 : cexp 0 = 1.
Proof. unfold cexp. rewrite cos_0, sin_0. reflexivity. Qed.
Lemma cexp_2PI : cexp (2 * PI) = 1.
Proof. unfold cexp. rewrite cos_2PI, sin_2PI. reflexivity. Qed.
Lemma cexp_PI2 : cexp (PI / 2) = Ci.
Proof. unfold cexp. rewrite cos_PI2, sin_PI2. reflexivity. Qed.
Lemma cexp_PI : cexp PI = - (1).
Proof. unfold cexp. rewrite cos_PI, sin_PI. unfold Copp, RtoC; cbn [fst snd]. f_equal; ring. Qed.
Lemma cexp_inv t : cexp (- t) * cexp t = 1.
Proof. rewrite <- cexp_add. replace (- t + t)%R with 0%R by ring. apply cexp_0. Qed.
Lemma cexp_periods_nat n t : cexp (t + 2 * PI * INR n) = cexp t.
Proof.
  induction n as [|n IH]; [f_equal; simpl; ring|].
  replace (t + 2 * PI * INR (S n))%R with ((t + 2 * PI * INR n) + 2 * PI)%R by (rewrite S_INR; ring).
  rewrite cexp_add, IH, cexp_2PI. ring.
Qed.
Lemma cexp_periods_neg n t : cexp (t - 2 * PI * INR n) = cexp t.
Proof. rewrite <- (cexp_periods_nat n (t - 2 * PI * INR n)). f_equal. ring. Qed.
Lemma cexp_mod t : Cmod (cexp t) = 1%R.
Proof.
  unfold Cmod, cexp; cbn [fst snd]. rewrite <- sqrt_1. f_equal.
  generalize (sin2_cos2 t). unfold Rsqr. intros H. simpl. lra.
Qed.
Lemma cexp_cinv t : Cinv (cexp t) = cexp (- t).
Proof.
  unfold Cinv, cexp; cbn [fst snd]. rewrite cos_neg, sin_neg.
  assert (E : (cos t ^ 2 + sin t ^ 2 = 1)%R) by (generalize (sin2_cos2 t); unfold Rsqr; intros; simpl; lra).
  rewrite E. f_equal; field.
Qed.

Lemma cexp_1_range t : (0 < t < 2 * PI)%R -> cexp t <> 1.
Proof.
  intros Ht E. unfold cexp in E. injection E as Ec Es.
  destruct (sin_eq_O_2PI_0 t) as [H|[H|H]]; try lra.
  rewrite H, cos_PI in Ec. lra.
Qed.

(** ** Sums *)
Lemma csum_ext n (f g : nat -> C) : (forall i, (i < n)%nat -> f i = g i) -> csum n f = csum n g.
Proof.
  induction n as [|n IH]; intros H; cbn [csum]; [reflexivity|].
  rewrite IH, H by (try intros; auto with arith). reflexivity.
Qed.
Lemma csum_0 n (f : nat -> C) : (forall i, (i < n)%nat -> f i = 0) -> csum n f = 0.
Proof.
  induction n as [|n IH]; intros H; cbn [csum]; [reflexivity|].
  rewrite IH, H by (try intros; auto with arith). ring.
Qed.
Lemma csum_add n (f g : nat -> C) : csum n (fun i => f i + g i) = csum n f + csum n g.
Proof. induction n as [|n IH]; cbn [csum]; [ring|rewrite IH; ring]. Qed.
Lemma csum_mull n c f : csum n (fun i => c * f i) = c * csum n f.
Proof. induction n as [|n IH]; cbn [csum]; [ring|rewrite IH; ring]. Qed.
Lemma csum_mulr n c f : csum n (fun i => f i * c) = csum n f * c.
Proof. induction n as [|n IH]; cbn [csum]; [ring|rewrite IH; ring]. Qed.
Lemma csum_opp n f : csum n (fun i => - f i) = - csum n f.
Proof. induction n as [|n IH]; cbn [csum]; [ring|rewrite IH; ring]. Qed.
Lemma csum_const n c : csum n (fun _ => c) = RtoC (INR n) * c.
Proof.
  induction n as [|n IH]; cbn [csum]; [change (INR 0) with 0%R; ring|].
  rewrite IH, S_INR, RtoC_plus. ring.
Qed.
Lemma csum_swap n m (f : nat -> nat -> C) :
  csum n (fun i => csum m (fun j => f i j)) = csum m (fun j => csum n (fun i => f i j)).
Proof.
  induction n as [|n IH]; cbn [csum].
  - symmetry. apply csum_0. reflexivity.
  - rewrite IH, <- csum_add. reflexivity.
Qed.
Lemma csum_single n k (f : nat -> C) :
  (k < n)%nat -> (forall i, (i < n)%nat -> i <> k -> f i = 0) -> csum n f = f k.
Proof.
  induction n as [|n IH]; intros Hk H; [lia|].
  cbn [csum]. destruct (Nat.eq_dec k n) as [->|Hne].
  - rewrite csum_0; [ring|]. intros i Hi. apply H; lia.
  - rewrite IH, (H n); try lia; [ring|]. intros i Hi Hne'. apply H; lia.
Qed.
Lemma csum_app n m f : csum (n + m) f = csum n f + csum m (fun i => f (n + i)%nat).
Proof.
  induction m as [|m IH]; [rewrite Nat.add_0_r; cbn [csum]; ring|].
  rewrite Nat.add_succ_r. cbn [csum]. rewrite IH. ring.
Qed.

(** ** Orthogonality *)
Lemma geometric n t : cexp t <> 1 -> cexp (INR n * t) = 1 -> csum n (fun k => cexp (INR k * t)) = 0.
Proof.
  intros H1 Hn.
  assert (G : forall m, csum m (fun k => cexp (INR k * t)) * (cexp t - 1) = cexp (INR m * t) - 1).
  { induction m as [|m IH]; cbn [csum].
    - simpl INR. rewrite Rmult_0_l, cexp_0. ring.
    - rewrite Cmult_plus_distr_r, IH, S_INR. replace ((INR m + 1) * t)%R with (INR m * t + t)%R by ring.
      rewrite cexp_add. ring. }
  specialize (G n). rewrite Hn in G.
  assert (Hne : cexp t - 1 <> 0).
  { intros E. apply H1. replace (cexp t) with (cexp t - 1 + 1) by ring. rewrite E. ring. }
  set (s := csum n _) in *.
  replace s with (s * (cexp t - 1) * / (cexp t - 1)) by (field; exact Hne).
  rewrite G. ring.
Qed.

Lemma orth n j l : (j < n)%nat -> (l < n)%nat ->
  csum n (fun k => cexp (INR k * (2 * PI * (INR j - INR l) / INR n))) = if (j =? l)%nat then RtoC (INR n) else 0.
Proof.
  intros Hj Hl. assert (Hn : (0 < INR n)%R) by (apply lt_0_INR; lia).
  pose proof PI_RGT_0 as Hpi.
  destruct (Nat.eqb_spec j l) as [->|Hne].
  - rewrite (csum_ext n _ (fun _ => 1)); [rewrite csum_const; ring|].
    intros i Hi. replace (INR i * _)%R with 0%R by (field; lra). apply cexp_0.
  - destruct (Nat.lt_ge_cases l j) as [Hlt|Hge].
    + apply geometric.
      * apply cexp_1_range. assert (0 < INR j - INR l < INR n)%R.
        { apply lt_INR in Hlt, Hj. pose proof (pos_INR l). lra. }
        split.
        -- apply Rmult_lt_0_compat; [|apply Rinv_0_lt_compat; lra]. apply Rmult_lt_0_compat; lra.
        -- apply (Rmult_lt_reg_r (INR n)); [lra|]. unfold Rdiv. rewrite Rmult_assoc, Rinv_l, Rmult_1_r by lra.
           apply Rmult_lt_compat_l; lra.
      * replace (INR n * _)%R with (0 + 2 * PI * INR (j - l))%R by (rewrite minus_INR by lia; field; lra).
        rewrite cexp_periods_nat. apply cexp_0.
    + apply geometric.
      * intros E. apply (cexp_1_range (2 * PI * (INR l - INR j) / INR n)).
        { assert (Hlt : (j < l)%nat) by lia. assert (0 < INR l - INR j < INR n)%R.
          { apply lt_INR in Hlt, Hl. pose proof (pos_INR j). lra. }
          split.
          -- apply Rmult_lt_0_compat; [|apply Rinv_0_lt_compat; lra]. apply Rmult_lt_0_compat; lra.
          -- apply (Rmult_lt_reg_r (INR n)); [lra|]. unfold Rdiv. rewrite Rmult_assoc, Rinv_l, Rmult_1_r by lra.
             apply Rmult_lt_compat_l; lra. }
        replace (2 * PI * (INR l - INR j) / INR n)%R with (- (2 * PI * (INR j - INR l) / INR n))%R by (field; lra).
        set (t := (2 * PI * (INR j - INR l) / INR n)%R) in *. pose proof (cexp_inv t) as Hi. rewrite E in Hi. rewrite Cmult_1_r in Hi. exact Hi.
      * replace (INR n * _)%R with (0 - 2 * PI * INR (l - j))%R by (rewrite minus_INR by lia; field; lra).
        rewrite cexp_periods_neg. apply cexp_0.
Qed.

(** ** Evaluation points *)

(** The angle of the k-th evaluation point for degree N = 2n. *)
Definition phi (n k : nat) : R := (2 * PI / (4 * INR n) - 2 * PI * INR k / INR n)%R.
Definition ev (n k : nat) (a : nat -> Z) : C :=
  csum (2 * n) (fun j => RtoC (IZR (a j)) * cexp (INR j * phi n k)).

Lemma phi_n n k : (0 < n)%nat -> cexp (INR n * phi n k) = Ci.
Proof.
  intros Hn. assert ((0 < INR n)%R) by (apply lt_0_INR; lia). unfold phi.
  replace (INR n * _)%R with (PI / 2 - 2 * PI * INR k)%R by (field; lra).
  rewrite cexp_periods_neg. apply cexp_PI2.
Qed.
Lemma Ci_sq : Ci * Ci = - (1).
Proof. unfold Ci, Cmult, Copp, RtoC; cbn [fst snd]. f_equal; ring. Qed.
Lemma phi_N n k : (0 < n)%nat -> cexp (INR (2 * n) * phi n k) = - (1).
Proof.
  intros Hn. rewrite mult_INR. replace (INR 2 * INR n * phi n k)%R with (INR n * phi n k + INR n * phi n k)%R by (simpl; ring).
  rewrite cexp_add, phi_n by assumption. apply Ci_sq.
Qed.

(** Folding the upper half into the imaginary part. *)
Lemma ev_fold n k a : (0 < n)%nat ->
  ev n k a = csum n (fun j => (IZR (a j), IZR (a (n + j)%nat)) * cexp (INR j * phi n k)).
Proof.
  intros Hn. unfold ev. replace (2 * n)%nat with (n + n)%nat by lia. rewrite csum_app, <- csum_add.
  apply csum_ext. intros j Hj. rewrite plus_INR, Rmult_plus_distr_r, cexp_add, phi_n by assumption.
  unfold Cmult, Cplus, RtoC, Ci, cexp; cbn [fst snd]. f_equal; ring.
Qed.

Lemma sumz_C n f : RtoC (IZR (sumz n f)) = csum n (fun i => RtoC (IZR (f i))).
Proof. induction n as [|n IH]; cbn [sumz csum]; [reflexivity|]. rewrite plus_IZR, RtoC_plus, IH. reflexivity. Qed.

(** Evaluation is multiplicative on negacyclic products. *)
Lemma ev_mul n k a b : (0 < n)%nat -> ev n k (negacyclic (2 * n) a b) = ev n k a * ev n k b.
Proof.
  intros Hn. set (N := (2 * n)%nat).
  assert (HN : cexp (INR N * phi n k) = - (1)) by (apply phi_N; assumption).
  unfold ev, negacyclic. fold N.
  transitivity (csum N (fun i => csum N (fun j => RtoC (IZR (a i)) * RtoC (IZR (b j)) * cexp (INR (i + j) * phi n k)))).
  - transitivity (csum N (fun i => csum N (fun j => csum N (fun m =>
       RtoC (IZR (if (i + j =? m)%nat then (a i * b j)%Z else if (i + j =? m + N)%nat then (- (a i * b j))%Z else 0%Z))
       * cexp (INR m * phi n k))))).
    + transitivity (csum N (fun m => csum N (fun i => csum N (fun j =>
         RtoC (IZR (if (i + j =? m)%nat then (a i * b j)%Z else if (i + j =? m + N)%nat then (- (a i * b j))%Z else 0%Z))
         * cexp (INR m * phi n k))))).
      * apply csum_ext. intros m Hm. rewrite sumz_C, <- csum_mulr. apply csum_ext. intros i Hi.
        rewrite sumz_C, <- csum_mulr. reflexivity.
      * rewrite csum_swap. apply csum_ext. intros i Hi. apply csum_swap.
    + apply csum_ext. intros i Hi. apply csum_ext. intros j Hj.
      destruct (Nat.lt_ge_cases (i + j) N) as [Hlt|Hge].
      * match goal with |- csum N ?F = _ => etransitivity; [apply (csum_single N (i + j) F); [assumption|]|] end.
        -- intros m Hm Hne. destruct (Nat.eqb_spec (i + j) m); [congruence|].
           destruct (Nat.eqb_spec (i + j) (m + N)); [lia|]. ring.
        -- cbv beta. rewrite Nat.eqb_refl, mult_IZR, RtoC_mult. ring.
      * match goal with |- csum N ?F = _ => etransitivity; [apply (csum_single N (i + j - N) F); [lia|]|] end.
        -- intros m Hm Hne. destruct (Nat.eqb_spec (i + j) m); [lia|].
           destruct (Nat.eqb_spec (i + j) (m + N)); [lia|]. ring.
        -- cbv beta. destruct (Nat.eqb_spec (i + j) (i + j - N)); [lia|].
           destruct (Nat.eqb_spec (i + j) (i + j - N + N)); [|lia].
           replace (INR (i + j) * phi n k)%R with (INR (i + j - N) * phi n k + INR N * phi n k)%R
             by (rewrite minus_INR by lia; ring).
           rewrite cexp_add, HN, opp_IZR, RtoC_opp, mult_IZR, RtoC_mult. ring.
  - rewrite <- csum_mulr. apply csum_ext. intros i Hi. rewrite <- csum_mull. apply csum_ext. intros j Hj.
    rewrite plus_INR, Rmult_plus_distr_r, cexp_add. ring.
Qed.

Lemma ev_ext n k a b : (forall i, (i < 2 * n)%nat -> a i = b i) -> ev n k a = ev n k b.
Proof. intros H. apply csum_ext. intros i Hi. rewrite H by assumption. reflexivity. Qed.
Lemma ev_add n k a b : ev n k (fun i => a i + b i)%Z = ev n k a + ev n k b.
Proof.
  unfold ev. rewrite <- csum_add. apply csum_ext. intros i Hi. rewrite plus_IZR, RtoC_plus. ring.
Qed.
Lemma ev_0 n k : ev n k (fun _ => 0%Z) = 0.
Proof. apply csum_0. intros i Hi. ring. Qed.

(** The inverse: what the exact reverse transform makes of evaluations. *)
Definition unev (n : nat) (Y : nat -> C) (j : nat) : C :=
  RtoC (/ INR n) * cexp (- (2 * PI * INR j / (4 * INR n))) *
  csum n (fun k => Y k * cexp (2 * PI * INR j * INR k / INR n)).

Lemma unev_ev n a j : (j < n)%nat -> unev n (fun k => ev n k a) j = (IZR (a j), IZR (a (n + j)%nat)).
Proof.
  intros Hj. assert (Hn : (0 < INR n)%R) by (apply lt_0_INR; lia).
  unfold unev.
  rewrite (csum_ext n _ (fun k => csum n (fun l => (IZR (a l), IZR (a (n + l)%nat)) * cexp (2 * PI * INR l / (4 * INR n))
     * cexp (INR k * (2 * PI * (INR j - INR l) / INR n))))).
  2:{ intros k Hk. rewrite ev_fold by lia. rewrite <- csum_mulr. apply csum_ext. intros l Hl.
      unfold phi. rewrite <- !Cmult_assoc. f_equal. rewrite <- !cexp_add. f_equal. field. lra. }
  rewrite csum_swap.
  rewrite (csum_single n j); [|assumption|].
  - rewrite csum_mull, orth, Nat.eqb_refl by assumption.
    set (z := (IZR (a j), IZR (a (n + j)%nat))). set (t := (2 * PI * INR j / (4 * INR n))%R).
    transitivity (z * (RtoC (/ INR n) * RtoC (INR n)) * (cexp (- t) * cexp t)); [ring|].
    rewrite cexp_inv, <- RtoC_mult, Rinv_l by lra. ring.
  - intros l Hl Hne. rewrite csum_mull, orth by assumption.
    destruct (Nat.eqb_spec j l); [congruence|]. ring.
Qed.
