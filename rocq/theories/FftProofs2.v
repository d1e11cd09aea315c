(** Rounding errors of the kernels and of one forward transform. *)
From Coq Require Import Reals ZArith List Lia Lra Psatz Bool.
From Coquelicot Require Import Complex.
From Verif Require Import Fft SpecFft FftProofs.
Import ListNotations.
Open Scope R_scope.
Open Scope C_scope.

(** ** Complex modulus *)
Lemma fst_mod (z : C) : (Rabs (fst z) <= Cmod z)%R.
Proof. eapply Rle_trans; [apply Rmax_l|apply Rmax_Cmod]. Qed.
Lemma snd_mod (z : C) : (Rabs (snd z) <= Cmod z)%R.
Proof. eapply Rle_trans; [apply Rmax_r|apply Rmax_Cmod]. Qed.
Lemma mod_sum (z : C) : (Cmod z <= Rabs (fst z) + Rabs (snd z))%R.
Proof.
  destruct z as [x y]. cbn [fst snd].
  replace (x, y) with (RtoC x + (0, y)) by (unfold Cplus, RtoC; cbn [fst snd]; f_equal; ring).
  eapply Rle_trans; [apply Cmod_triangle|]. apply Rplus_le_compat; [rewrite Cmod_R; lra|].
  unfold Cmod; cbn [fst snd]. replace (0 ^ 2 + y ^ 2)%R with (Rsqr y) by (unfold Rsqr; ring).
  rewrite sqrt_Rsqr_abs. lra.
Qed.
Lemma mod_sub (a b : C) : (Cmod a <= Cmod (a - b)%C + Cmod b)%R.
Proof. replace a with ((a - b) + b) at 1 by ring. apply Cmod_triangle. Qed.
Lemma mod_split (a b c : C) : (Cmod (a - c)%C <= Cmod (a - b)%C + Cmod (b - c)%C)%R.
Proof. replace (a - c) with ((a - b) + (b - c)) by ring. apply Cmod_triangle. Qed.
Lemma mod_csum n (f : nat -> C) : (Cmod (csum n f)%C <= rsum n (fun i => Cmod (f i)%C))%R.
Proof.
  induction n as [|n IH]; cbn [csum rsum]; [rewrite Cmod_0; lra|].
  eapply Rle_trans; [apply Cmod_triangle|]. lra.
Qed.
Lemma rsum_le n f g : (forall i, (i < n)%nat -> (f i <= g i)%R) -> (rsum n f <= rsum n g)%R.
Proof.
  induction n as [|n IH]; intros H; cbn [rsum]; [lra|].
  specialize (IH (fun i Hi => H i (Nat.lt_lt_succ_r _ _ Hi))). specialize (H n (Nat.lt_succ_diag_r n)). lra.
Qed.
Lemma rsum_const n c : rsum n (fun _ => c) = (INR n * c)%R.
Proof. induction n as [|n IH]; cbn [rsum]; [simpl; ring|]. rewrite IH, S_INR. ring. Qed.
Lemma rsum_bound n f c : (forall i, (i < n)%nat -> (f i <= c)%R) -> (rsum n f <= INR n * c)%R.
Proof. intros H. rewrite <- rsum_const. apply rsum_le, H. Qed.

(** A product of perturbed factors. *)
Lemma mul_err (a a' b b' : C) ea eb :
  (Cmod (a' - a)%C <= ea)%R -> (Cmod (b' - b)%C <= eb)%R ->
  (Cmod (a' * b' - a * b)%C <= Cmod a' * eb + ea * Cmod b)%R.
Proof.
  intros Ha Hb. replace (a' * b' - a * b) with (a' * (b' - b) + (a' - a) * b) by ring.
  eapply Rle_trans; [apply Cmod_triangle|]. rewrite !Cmod_mult.
  apply Rplus_le_compat; [apply Rmult_le_compat_l|apply Rmult_le_compat_r]; auto using Cmod_ge_0.
Qed.

Section Err.
Context (fl : R -> R) (u eta : R).
Context (Hu : (0 <= u <= / 8)%R) (Heta : (0 <= eta)%R).
Context (Hfl : forall x, (Rabs (fl x - x) <= u * Rabs x + eta)%R).

Lemma fl_le x b : (Rabs x <= b)%R -> (Rabs (fl x - x) <= u * b + eta)%R.
Proof.
  intros H. eapply Rle_trans; [apply Hfl|]. apply Rplus_le_compat_r, Rmult_le_compat_l; lra.
Qed.
Lemma fl_near x b e y : (Rabs x <= b)%R -> (Rabs (x - y) <= e)%R -> (Rabs (fl x - y) <= u * b + eta + e)%R.
Proof.
  intros Hb He. replace (fl x - y)%R with ((fl x - x) + (x - y))%R by ring.
  eapply Rle_trans; [apply Rabs_triang|]. pose proof (fl_le x b Hb). lra.
Qed.

(** A rounded real product. *)
Lemma fl_mul x y P : (Rabs (x * y) <= P)%R -> (Rabs (fl (x * y) - x * y) <= u * P + eta)%R.
Proof. apply fl_le. Qed.

Lemma prod_le (a b : C) x y : (Rabs x <= Cmod a)%R -> (Rabs y <= Cmod b)%R -> (Rabs (x * y) <= Cmod a * Cmod b)%R.
Proof. intros. rewrite Rabs_mult. apply Rmult_le_compat; auto using Rabs_pos. Qed.

(** Sum of two approximations, rounded. *)
Lemma fl_add x y x' y' X Y ex ey :
  (Rabs x <= X)%R -> (Rabs y <= Y)%R -> (Rabs (x' - x) <= ex)%R -> (Rabs (y' - y) <= ey)%R ->
  (Rabs (fl (x' + y') - (x + y)) <= u * (X + ex + (Y + ey)) + eta + (ex + ey))%R.
Proof.
  intros Hx Hy Hex Hey. apply fl_near.
  - replace (x' + y')%R with ((x' - x) + (y' - y) + (x + y))%R by ring.
    pose proof (Rabs_triang ((x' - x) + (y' - y)) (x + y)). pose proof (Rabs_triang (x' - x) (y' - y)).
    pose proof (Rabs_triang x y). lra.
  - replace (x' + y' - (x + y))%R with ((x' - x) + (y' - y))%R by ring.
    pose proof (Rabs_triang (x' - x) (y' - y)). lra.
Qed.

Lemma usq x : (0 <= x)%R -> (u * (u * x) <= / 8 * (u * x))%R.
Proof. intros Hx. apply Rmult_le_compat_r; [apply Rmult_le_pos; lra|lra]. Qed.

Lemma ueta : (0 <= u * eta <= / 8 * eta)%R.
Proof. destruct Hu. split; [apply Rmult_le_pos; lra|apply Rmult_le_compat_r; lra]. Qed.
Lemma upos x : (0 <= x)%R -> (0 <= u * x)%R.
Proof. destruct Hu. intros. apply Rmult_le_pos; lra. Qed.

Lemma fcmul_err (a b : C) : (Cmod (fcmul fl a b - a * b)%C <= 9 * u * (Cmod a * Cmod b) + 7 * eta)%R.
Proof.
  set (P := (Cmod a * Cmod b)%R). assert (HP : (0 <= P)%R) by (apply Rmult_le_pos; apply Cmod_ge_0).
  assert (E : forall x y x' y', (Rabs (x * y) <= P)%R -> (Rabs (x' * y') <= P)%R ->
     (Rabs (fl (fl (x * y) + fl (x' * y')) - (x * y + x' * y')) <= 9 / 2 * (u * P) + 7 / 2 * eta)%R).
  { intros x y x' y' H1 H2. eapply Rle_trans.
    - apply (fl_add (x * y) (x' * y') _ _ P P (u * P + eta) (u * P + eta)); auto using fl_le.
    - pose proof (usq P HP). pose proof ueta. pose proof (upos P HP). lra. }
  assert (E' : forall x y x' y', (Rabs (x * y) <= P)%R -> (Rabs (x' * y') <= P)%R ->
     (Rabs (fl (fl (x * y) - fl (x' * y')) - (x * y - x' * y')) <= 9 / 2 * (u * P) + 7 / 2 * eta)%R).
  { intros x y x' y' H1 H2.
    replace (fl (x * y) - fl (x' * y'))%R with (fl (x * y) + - fl (x' * y'))%R by ring.
    replace (x * y - x' * y')%R with (x * y + - (x' * y'))%R by ring. eapply Rle_trans.
    - apply (fl_add (x * y) (- (x' * y')) _ _ P P (u * P + eta) (u * P + eta)); rewrite ?Rabs_Ropp; auto using fl_le.
      replace (- fl (x' * y') - - (x' * y'))%R with (- (fl (x' * y') - x' * y'))%R by ring.
      rewrite Rabs_Ropp. auto using fl_le.
    - pose proof (usq P HP). pose proof ueta. pose proof (upos P HP). lra. }
  eapply Rle_trans; [apply mod_sum|].
  unfold fcmul, Cminus, Cplus, Copp, Cmult; cbn [fst snd].
  pose proof (E' (fst a) (fst b) (snd a) (snd b) ltac:(apply prod_le; apply fst_mod) ltac:(apply prod_le; apply snd_mod)).
  pose proof (E (fst a) (snd b) (snd a) (fst b) ltac:(apply prod_le; [apply fst_mod|apply snd_mod])
                ltac:(apply prod_le; [apply snd_mod|apply fst_mod])).
  unfold Rminus in *. lra.
Qed.

Lemma fcscale_err (a : C) t : (Cmod (fcscale fl a t - a * RtoC t)%C <= 2 * u * (Cmod a * Rabs t) + 2 * eta)%R.
Proof.
  eapply Rle_trans; [apply mod_sum|].
  unfold fcscale, Cminus, Cplus, Copp, Cmult, RtoC; cbn [fst snd].
  assert (E : forall x, (Rabs x <= Cmod a)%R -> (Rabs (fl (x * t) - x * t) <= u * (Cmod a * Rabs t) + eta)%R).
  { intros x Hx. apply fl_le. rewrite Rabs_mult. apply Rmult_le_compat_r; auto using Rabs_pos. }
  pose proof (E _ (fst_mod a)). pose proof (E _ (snd_mod a)).
  replace (fl (fst a * t) + - (fst a * t - snd a * 0))%R with (fl (fst a * t) - fst a * t)%R by ring.
  replace (fl (snd a * t) + - (fst a * 0 + snd a * t))%R with (fl (snd a * t) - snd a * t)%R by ring.
  lra.
Qed.

Lemma mad_scalar_err (c a b : C) :
  (Cmod (mad_elem_scalar fl c a b - (c + a * b))%C <= 14 * u * (Cmod c + Cmod a * Cmod b) + 11 * eta)%R.
Proof.
  set (P := (Cmod a * Cmod b)%R). assert (HP : (0 <= P)%R) by (apply Rmult_le_pos; apply Cmod_ge_0).
  pose proof (Cmod_ge_0 c) as Hc.
  unfold mad_elem_scalar, fcadd.
  set (m := fcmul fl a b). pose proof (fcmul_err a b) as Em. fold m P in Em.
  assert (Hm : (Cmod m <= P + (9 * u * P + 7 * eta))%R).
  { eapply Rle_trans; [apply (mod_sub m (a * b))|]. rewrite Cmod_mult. fold P. lra. }
  assert (E : forall x y, (Rabs x <= Cmod c)%R -> (Rabs y <= Cmod m)%R ->
     (Rabs (fl (x + y) - (x + y)) <= u * (Cmod c + (P + (9 * u * P + 7 * eta))) + eta)%R).
  { intros x y Hx Hy. apply fl_le. pose proof (Rabs_triang x y). lra. }
  match goal with |- (Cmod (?z - _)%C <= _)%R => set (r := z) end.
  assert (Er : (Cmod (r - (c + m))%C <= 2 * (u * (Cmod c + (P + (9 * u * P + 7 * eta))) + eta))%R).
  { eapply Rle_trans; [apply mod_sum|]. unfold r, Cminus, Cplus, Copp; cbn [fst snd].
    pose proof (E _ _ (fst_mod c) (fst_mod m)). pose proof (E _ _ (snd_mod c) (snd_mod m)).
    unfold Rminus in *. lra. }
  eapply Rle_trans; [apply (mod_split r (c + m))|].
  replace (c + m - (c + a * b)) with (m - a * b) by ring.
  pose proof (usq P HP). pose proof ueta.
  pose proof (upos P HP). pose proof (upos (Cmod c) Hc). nra.
Qed.

Lemma mad_fma_err (c a b : C) :
  (Cmod (mad_elem_fma fl c a b - (c + a * b))%C <= 14 * u * (Cmod c + Cmod a * Cmod b) + 11 * eta)%R.
Proof.
  set (P := (Cmod a * Cmod b)%R). assert (HP : (0 <= P)%R) by (apply Rmult_le_pos; apply Cmod_ge_0).
  pose proof (Cmod_ge_0 c) as Hc.
  assert (E : forall x y z, (Rabs x <= P)%R -> (Rabs y <= P)%R -> (Rabs z <= Cmod c)%R ->
     (Rabs (fl (x + fl (y + z)) - (x + (y + z))) <= 4 * (u * P) + 3 * (u * Cmod c) + 3 * eta)%R).
  { intros x y z Hx Hy Hz.
    assert (E1 : (Rabs (y + z) <= P + Cmod c)%R) by (pose proof (Rabs_triang y z); lra).
    eapply Rle_trans.
    - apply (fl_add x (y + z) x _ P (P + Cmod c) 0 (u * (P + Cmod c) + eta)); auto using fl_le.
      replace (x - x)%R with 0%R by ring. rewrite Rabs_R0. lra.
    - pose proof (usq (P + Cmod c) ltac:(lra)). pose proof ueta.
      pose proof (upos P HP). pose proof (upos (Cmod c) Hc). nra. }
  eapply Rle_trans; [apply mod_sum|].
  unfold mad_elem_fma, Cminus, Cplus, Copp, Cmult; cbn [fst snd].
  pose proof (E (- snd a * snd b) (fst a * fst b) (fst c))%R as E1.
  pose proof (E (snd a * fst b) (fst a * snd b) (snd c))%R as E2.
  specialize (E1 ltac:(replace (- snd a * snd b)%R with (- (snd a * snd b))%R by ring; rewrite Rabs_Ropp; apply prod_le; apply snd_mod)
                 ltac:(apply prod_le; apply fst_mod) (fst_mod c)).
  specialize (E2 ltac:(apply prod_le; [apply snd_mod|apply fst_mod])
                 ltac:(apply prod_le; [apply fst_mod|apply snd_mod]) (snd_mod c)).
  replace (fl (- snd a * snd b + fl (fst a * fst b + fst c)) + - (fst c + (fst a * fst b - snd a * snd b)))%R
    with (fl (- snd a * snd b + fl (fst a * fst b + fst c)) - (- snd a * snd b + (fst a * fst b + fst c)))%R by ring.
  replace (fl (snd a * fst b + fl (fst a * snd b + snd c)) + - (snd c + (fst a * snd b + snd a * fst b)))%R
    with (fl (snd a * fst b + fl (fst a * snd b + snd c)) - (snd a * fst b + (fst a * snd b + snd c)))%R by ring.
  pose proof (upos P HP). pose proof (upos (Cmod c) Hc). nra.
Qed.

Lemma mad_err m (c a b : C) :
  (Cmod (mad_elem m fl c a b - (c + a * b))%C <= 14 * u * (Cmod c + Cmod a * Cmod b) + 11 * eta)%R.
Proof. destruct m; [apply mad_scalar_err|apply mad_fma_err]. Qed.
End Err.
