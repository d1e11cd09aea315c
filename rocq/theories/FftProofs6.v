(** The whole FFT product: exact arithmetic and IEEE-754 arithmetic. *)
From Coq Require Import Reals ZArith List Lia Lra Psatz Bool.
From Coquelicot Require Import Complex.
From Verif Require Import Fft SpecFft FftProofs FftProofs2 FftProofs3 FftProofs4 FftProofs5.
Import ListNotations.
Open Scope R_scope.

Lemma is_pow2_pow log : is_pow2 (2 ^ log) = true.
Proof.
  unfold is_pow2. rewrite Nat.log2_pow2 by lia. rewrite Nat.eqb_refl, andb_true_r.
  destruct (Nat.eqb_spec (2 ^ log) 0); [|reflexivity]. pose proof (Nat.pow_nonzero 2 log). lia.
Qed.
Lemma is_pow2_half n : (0 < n)%nat -> is_pow2 (2 * n) = is_pow2 n.
Proof.
  intros Hn. unfold is_pow2. rewrite Nat.log2_double by lia. cbn [Nat.pow].
  destruct (Nat.eqb_spec (2 * n) 0); [lia|]. destruct (Nat.eqb_spec n 0); [lia|]. cbn [negb andb].
  destruct (Nat.eqb_spec (2 ^ Nat.log2 n) n) as [->|H].
  - apply Nat.eqb_eq. lia.
  - apply Nat.eqb_neq. lia.
Qed.

(** ** Exact arithmetic *)
Lemma dft_length sgn x : length (dft sgn x) = length x.
Proof. unfold dft. rewrite map_length, seq_length. reflexivity. Qed.
Lemma dft_nth sgn x k : (k < length x)%nat -> nth k (dft sgn x) (RtoC 0) = dft_at sgn x k.
Proof.
  intros Hk. unfold dft. rewrite (nth_indep _ (RtoC 0) (dft_at sgn x 0)) by (rewrite map_length, seq_length; exact Hk).
  rewrite (map_nth (dft_at sgn x)), seq_nth by exact Hk. reflexivity.
Qed.
Lemma cminus_diag a : Cminus a a = RtoC 0.
Proof. unfold Cminus. apply Cplus_opp_r. Qed.
Lemma dft_exact sgn n (x : list C) : length x = n -> length (dft sgn x) = n /\ forall k, (k < n)%nat ->
  Cmod (Cminus (nth k (dft sgn x) (RtoC 0)) (dft_at sgn x k)) <= 0 * rsum n (fun j => Cmod (nth j x (RtoC 0))).
Proof.
  intros L. split; [rewrite dft_length; exact L|]. intros k Hk. rewrite dft_nth by lia.
  rewrite cminus_diag, Cmod_0, Rmult_0_l. lra.
Qed.

(** The tables when [sin_cos] and [powf(-1)] are exact. *)
Lemma tables_nth fl n t j :
  twisted_new {| ef_fl := fl; ef_sin_cos := fun t => (sin t, cos t); ef_powm1 := Cinv; ef_fwd := dft (-1); ef_inv := dft 1 |}
    (2 * n) = Ok t -> (j < n)%nat ->
  let a := fl (fl (fl (fl PI * 2) * INR j) / INR (2 * n * 2)) in
  nth j (tf_twist t) (RtoC 0) = cexp a /\ nth j (tf_twist_inv t) (RtoC 0) = cexp (- a).
Proof.
  unfold twisted_new. assert (E : (2 * n / 2)%nat = n) by (rewrite Nat.mul_comm, Nat.div_mul; lia). rewrite E.
  destruct (is_pow2 (2 * n)); [|discriminate]. intros H Hj. injection H as <-. cbn [tf_twist tf_twist_inv ef_sin_cos ef_powm1 ef_fl].
  set (f := fun x : nat => _ : C).
  assert (Nf : nth j (map f (seq 0 n)) (RtoC 0) = f j).
  { rewrite (nth_indep _ (RtoC 0) (f 0%nat)) by (rewrite map_length, seq_length; exact Hj).
    rewrite (map_nth f), seq_nth by exact Hj. reflexivity. }
  split; [exact Nf|].
  rewrite (nth_indep _ (RtoC 0) (Cinv (f 0%nat))) by (rewrite !map_length, seq_length; exact Hj).
  rewrite map_map, (map_nth (fun x => Cinv (f x))), seq_nth by exact Hj. unfold f at 1. cbn [Nat.add].
  apply cexp_cinv.
Qed.

Lemma exact_accurate n : (0 < n)%nat -> accurate exact_ext n 0 0 0 0.
Proof.
  intros Hn. assert (0 < INR n) by (apply lt_0_INR; lia). split.
  - lra.
  - intros x. cbn [ef_fl exact_ext]. replace (x - x) with 0 by ring. rewrite Rabs_R0. lra.
  - intros t Ht j Hj. destruct (tables_nth (fun x => x) n t j Ht Hj) as [E1 E2]. rewrite E1, E2.
    replace (PI * 2 * INR j / INR (2 * n * 2)) with (2 * PI * INR j / (4 * INR n)).
    + rewrite !cminus_diag, Cmod_0. lra.
    + rewrite !mult_INR. simpl (INR 2). field. lra.
  - apply dft_exact.
  - apply dft_exact.
Qed.

Lemma fft_err_0 n A B L : fft_err n 0 0 0 0 A B L = 0.
Proof.
  assert (F : forall D, fwd_err n 0 0 0 0 D = 0) by (intros; unfold fwd_err, twist_err; ring).
  assert (Z : forall L e s, e = 0 -> acc_err n 0 0 0 0 A B L e s = 0).
  { clear L. induction L as [|L IH]; intros e s ->; cbn [acc_err]; [reflexivity|]. apply IH.
    unfold step_err, prod_err. rewrite !F. ring. }
  unfold fft_err. rewrite (Z _ _ _ eq_refl). unfold untwist_err, scale_err, inv_err, Rdiv. ring.
Qed.

(** ** Any arithmetic *)
Section Any.
Context (X : ext) (n : nat) (u eta tau delta : R) (Hac : accurate X n u eta tau delta) (Hn : (0 < n)%nat).
Context (w : Z) (A B : R) (HA : 0 <= A) (HB : 0 <= B).
Context (Hp2 : is_pow2 n = true) (Hlog : (2 * n <= 4096)%nat).
Context (x86 : bool) (m : mad_kernel) (Hx86 : x86 = true -> (n mod 8 = 0)%nat).

Lemma log_lt : (Nat.log2 (2 * n) < 13)%nat.
Proof.
  clear - Hn Hlog.
  apply (Nat.le_lt_trans _ (Nat.log2 4096)); [apply Nat.log2_le_mono; exact Hlog|].
  change 4096%nat with (2 ^ 12)%nat. rewrite Nat.log2_pow2; lia.
Qed.

Lemma sum_of_products_err ps :
  Forall (pair_len (2 * n)) ps -> Forall (pair_bound n w A B) ps ->
  exists V : nat -> Z, exists out,
    fft_sum_of_products X x86 m w n ps = Ok out /\ length out = (2 * n)%nat /\
    forall i, (i < 2 * n)%nat -> exists y0, V i = rround (ef_fl X y0) /\
      Rabs (ef_fl X y0 - IZR (sum_of_products (2 * n) w ps i)) <= fft_err n u eta tau delta A B (length ps) /\
      nth i out 0%Z = mod_pow2_elem (ef_fl X) w (IZR (V i)).
Proof.
  intros HL HBd.
  assert (Hp2' : is_pow2 (2 * n) = true) by (rewrite is_pow2_half; assumption).
  destruct (products_err X n u eta tau delta Hac Hn w A B HA HB Hp2' log_lt x86 m Hx86 ps HL HBd)
    as (acc & t & out & E1 & L1 & E2 & E3 & L2 & H).
  exists (fun i => rround (nth i out 0)), (map (mod_pow2_elem (ef_fl X) w) out).
  split; [|split].
  - unfold fft_sum_of_products. rewrite E1. cbn [bind]. unfold poly_ifft. rewrite L1, Hp2, Nat.eqb_refl. cbn [andb].
    rewrite (Nat.mul_comm n 2), E2. cbn [bind]. rewrite E3. reflexivity.
  - rewrite map_length. exact L2.
  - intros i Hi. destruct (H i Hi) as (y0 & Hy & He). exists y0.
    rewrite Hy, rround_IZR. split; [reflexivity|]. split; [exact He|].
    rewrite (nth_indep _ 0%Z (mod_pow2_elem (ef_fl X) w 0)) by (rewrite map_length; lia).
    rewrite (map_nth (mod_pow2_elem (ef_fl X) w)), Hy. reflexivity.
Qed.

Context (Hw : (1 <= w <= 1000)%Z) (Hr : f64_rounding (ef_fl X)).

Lemma float_err ps :
  Forall (pair_len (2 * n)) ps -> Forall (pair_bound n w A B) ps ->
  exists out, fft_sum_of_products X x86 m w n ps = Ok out /\ length out = (2 * n)%nat /\
    forall i, (i < 2 * n)%nat -> exists d : Z,
      Rabs (IZR d) <= fft_err n u eta tau delta A B (length ps) + 3 / 2 /\
      nth i out 0%Z = ((sum_of_products (2 * n) w ps i + d) mod 2 ^ w)%Z.
Proof.
  intros HL HBd. destruct (sum_of_products_err ps HL HBd) as (V & out & E & L & H).
  exists out. split; [exact E|]. split; [exact L|]. intros i Hi. destruct (H i Hi) as (y0 & HV & He & Ho).
  rewrite (mod_pow2_elem_f64 _ _ _ Hr Hw) in Ho.
  2:{ rewrite HV. apply f64_round, fr_f64, Hr. }
  destruct (reduced_near w (V i) ltac:(lia)) as (d & Hd & Ed).
  exists (V i + d - sum_of_products (2 * n) w ps i)%Z. split.
  - rewrite minus_IZR, plus_IZR. pose proof (rround_near (ef_fl X y0)) as Hrn. rewrite <- HV in Hrn.
    assert (Hdb : Rabs (IZR d) <= 1).
    { destruct Hd as [-> | ->]; [rewrite Rabs_R0; lra|]. rewrite Rabs_left; lra. }
    replace (IZR (V i) + IZR d - IZR (sum_of_products (2 * n) w ps i))
      with ((IZR (V i) - ef_fl X y0) + (ef_fl X y0 - IZR (sum_of_products (2 * n) w ps i)) + IZR d) by ring.
    eapply Rle_trans; [apply Rabs_triang|].
    pose proof (Rabs_triang (IZR (V i) - ef_fl X y0) (ef_fl X y0 - IZR (sum_of_products (2 * n) w ps i))). lra.
  - rewrite Ho, Ed. f_equal. ring.
Qed.

Lemma float_exact ps :
  Forall (pair_len (2 * n)) ps -> Forall (pair_bound n w A B) ps -> fft_err n u eta tau delta A B (length ps) < / 2 ->
  exists out, fft_sum_of_products X x86 m w n ps = Ok out /\ length out = (2 * n)%nat /\
    forall i, (i < 2 * n)%nat -> nth i out 0%Z = reduced w (sum_of_products (2 * n) w ps i).
Proof.
  intros HL HBd Hs. destruct (sum_of_products_err ps HL HBd) as (V & out & E & L & H).
  exists out. split; [exact E|]. split; [exact L|]. intros i Hi. destruct (H i Hi) as (y0 & HV & He & Ho).
  rewrite Ho, (mod_pow2_elem_f64 _ _ _ Hr Hw).
  2:{ rewrite HV. apply f64_round, fr_f64, Hr. }
  f_equal. rewrite HV. apply rround_unique. lra.
Qed.
End Any.

(** A bound on the coefficients of any list of polynomials. *)
Lemma bounded_nth (f : list Z -> nat -> Z) N (ps : list (list Z)) :
  exists D, 0 <= D /\ Forall (fun p => forall i, (i < N)%nat -> Rabs (IZR (f p i)) <= D) ps.
Proof.
  assert (One : forall p, exists D, 0 <= D /\ forall i, (i < N)%nat -> Rabs (IZR (f p i)) <= D).
  { intros p. induction N as [|N IH]; [exists 0; split; [lra|]; intros; lia|].
    destruct IH as (D & HD & H). exists (D + Rabs (IZR (f p N))). pose proof (Rabs_pos (IZR (f p N))). split; [lra|].
    intros i Hi. destruct (Nat.eq_dec i N) as [->|Hne]; [lra|]. specialize (H i ltac:(lia)). lra. }
  induction ps as [|p ps (D & HD & IH)]; [exists 0; split; [lra|constructor]|].
  destruct (One p) as (D' & HD' & H). exists (D + D'). split; [lra|]. constructor.
  - intros i Hi. specialize (H i Hi). lra.
  - eapply Forall_impl; [|exact IH]. intros q Hq i Hi. specialize (Hq i Hi). lra.
Qed.

Lemma exact_sum n w x86 m ps : (0 < n)%nat -> is_pow2 n = true -> (2 * n <= 4096)%nat ->
  (x86 = true -> (n mod 8 = 0)%nat) -> (1 <= w)%Z -> Forall (pair_len (2 * n)) ps ->
  exists out, fft_sum_of_products exact_ext x86 m w n ps = Ok out /\ length out = (2 * n)%nat /\
    forall i, (i < 2 * n)%nat -> nth i out 0%Z = reduced w (sum_of_products (2 * n) w ps i).
Proof.
  intros Hn Hp Hl Hx Hw HL.
  destruct (bounded_nth (scoef w) (2 * n) (map fst ps)) as (A & HA & BA).
  destruct (bounded_nth (scoef w) (2 * n) (map snd ps)) as (B & HB & BB).
  rewrite Forall_map in BA, BB.
  assert (HBd : Forall (pair_bound n w A B) ps).
  { rewrite Forall_forall in *. intros p Hp'. split; [apply BA|apply BB]; exact Hp'. }
  destruct (sum_of_products_err exact_ext n 0 0 0 0 (exact_accurate n Hn) Hn w A B HA HB Hp Hl x86 m Hx ps HL HBd)
    as (V & out & E & L & H).
  exists out. split; [exact E|]. split; [exact L|]. intros i Hi. destruct (H i Hi) as (y0 & HV & He & Ho).
  rewrite Ho. cbn [ef_fl exact_ext] in *. rewrite mod_pow2_elem_exact by exact Hw. f_equal. rewrite HV.
  apply rround_unique. rewrite fft_err_0 in He. lra.
Qed.
