(** Theorems about running statistics (sunscreen_math/src/stats.rs) and the domains of the security estimates. *)
From Coq Require Import Reals ZArith List Lia Lra Psatz Bool.
From Flocq Require Import Core.
From Verif Require Import Base Fft SpecFft FftProofs5 FftFloat Props_Torus Stats.
Import ListNotations.
Ltac Zify.zify_post_hook ::= idtac.
Open Scope R_scope.

(** * C118: running mean and variance *)

(** The textbook definitions. *)
Definition total (xs : list R) : R := fold_right Rplus 0 xs.
Definition average (xs : list R) : R := total xs / INR (length xs).
Definition population_variance (xs : list R) : R := total (map (fun x => (x - average xs) * (x - average xs)) xs) / INR (length xs).

Lemma total_app a b : total (a ++ b) = total a + total b.
Proof. induction a as [|x a IH]; cbn [app total fold_right]; [unfold total; cbn; ring|]. fold (total (a ++ b)). fold (total a). rewrite IH. ring. Qed.
Lemma total_sq c xs : total (map (fun x => (x - c) * (x - c)) xs) = total (map (fun x => x * x) xs) - 2 * c * total xs + INR (length xs) * (c * c).
Proof.
  induction xs as [|x xs IH]; [unfold total; cbn; ring|]. change (length (x :: xs)) with (S (length xs)). rewrite S_INR. unfold total in *. cbn [map fold_right]. rewrite IH. ring.
Qed.
Lemma run_snoc fl xs x : rm_run fl (xs ++ [x]) = add_sample fl (rm_run fl xs) x.
Proof. unfold rm_run. rewrite fold_left_app. reflexivity. Qed.
Lemma run_k fl xs : rm_k (rm_run fl xs) = length xs.
Proof.
  induction xs as [|x xs IH] using rev_ind; [reflexivity|]. rewrite run_snoc, app_length, Nat.add_1_r. unfold add_sample. rewrite IH. destruct (length xs); reflexivity.
Qed.

Lemma exact_inv xs : xs <> [] -> let s := rm_run (fun x => x) xs in
  rm_mean s * INR (length xs) = total xs /\ rm_var s = total (map (fun x => x * x) xs) - INR (length xs) * (rm_mean s * rm_mean s).
Proof.
  induction xs as [|x xs IH] using rev_ind; [congruence|]. intros _. cbv zeta. rewrite run_snoc, app_length, map_app, !total_app. cbn [length map]. rewrite plus_INR.
  unfold total at 2 4. cbn [fold_right INR]. unfold add_sample. rewrite run_k. destruct xs as [|y xs].
  - cbn [length rm_mean rm_var]. unfold total. cbn. split; ring.
  - specialize (IH ltac:(discriminate)). cbv zeta in IH. set (s := rm_run _ (y :: xs)) in *. set (n := length (y :: xs)) in *. destruct IH as [H1 H2].
    assert (En : exists n', n = S n') by (exists (length xs); reflexivity). destruct En as [n' En]. clearbody n. destruct n as [|n0]; [discriminate|]. cbn [rm_mean rm_var]. clear En n'. set (n := S n0) in *.
    assert (Hn : 0 < INR n) by (unfold n; apply lt_0_INR; lia). rewrite (S_INR n). fold (total (y :: xs)). rewrite <- H1. set (m := rm_mean s) in *. rewrite H2.
    fold (total (map (fun x => x * x) (y :: xs))). split; field; lra.
Qed.
(** In exact arithmetic the calculator returns the average and the population variance of all samples it has seen, whatever their
    number and order. *)
Theorem running_statistics_exact xs : xs <> [] ->
  rm_mean (rm_run (fun x => x) xs) = average xs /\ rm_variance (fun x => x) (rm_run (fun x => x) xs) = Some (population_variance xs) /\
  rm_std (fun x => x) (rm_run (fun x => x) xs) = Some (sqrt (population_variance xs)).
Proof.
  intros H. destruct (exact_inv xs H) as [H1 H2]. assert (Hn : 0 < INR (length xs)) by (destruct xs; [congruence|apply lt_0_INR; cbn; lia]).
  assert (Hm : rm_mean (rm_run (fun x => x) xs) = average xs) by (unfold average; rewrite <- H1; field; lra).
  assert (Hv : rm_variance (fun x => x) (rm_run (fun x => x) xs) = Some (population_variance xs)).
  { unfold rm_variance. rewrite run_k. destruct (length xs) as [|n] eqn:En; [cbn in Hn; lra|]. f_equal. unfold population_variance. rewrite total_sq, En, H2, Hm.
    replace (total xs) with (average xs * INR (S n)) by (unfold average; rewrite En; field; lra). field. lra. }
  split; [exact Hm|]. split; [exact Hv|]. unfold rm_std. rewrite Hv. destruct (Rlt_dec _ _) as [L|L]; [exfalso|reflexivity].
  revert L. apply Rle_not_lt. unfold population_variance. apply Rmult_le_pos; [|apply Rlt_le, Rinv_0_lt_compat, Hn].
  generalize (average xs). intros c. clear. induction xs as [|x xs IH]; unfold total in *; cbn [map fold_right]; [lra|]. pose proof (Rle_0_sqr (x - c)) as Q. unfold Rsqr in Q. lra.
Qed.
Print Assumptions running_statistics_exact.

(** ** In double precision *)

Definition mean_step (m x : R) (k : nat) : R := rnd64 (m + rnd64 (rnd64 (x - m) / rnd64 (INR k))).
Lemma mean_step_opp m x k : mean_step (- m) (- x) k = - mean_step m x k.
Proof.
  unfold mean_step. replace (- x - - m) with (- (x - m)) by ring. rewrite rnd64_opp. replace (- rnd64 (x - m) / rnd64 (INR k)) with (- (rnd64 (x - m) / rnd64 (INR k))) by (unfold Rdiv; ring).
  rewrite rnd64_opp. replace (- m + - rnd64 (rnd64 (x - m) / rnd64 (INR k))) with (- (m + rnd64 (rnd64 (x - m) / rnd64 (INR k)))) by ring. apply rnd64_opp.
Qed.
Lemma rnd64_0 : rnd64 0 = 0.
Proof. apply (rnd64_small 0). cbn. lia. Qed.
Lemma rnd64_id x : f64 x -> rnd64 x = x.
Proof. apply (fr_exact _ rnd64_rounding). Qed.
Lemma rnd64_f64 x : f64 (rnd64 x).
Proof. apply (fr_f64 _ rnd64_rounding). Qed.
Lemma rnd64_count k : (2 <= k)%nat -> 2 <= rnd64 (INR k).
Proof. intros H. rewrite <- (rnd64_small 2) by (cbn; lia). apply rnd64_mono. replace 2 with (INR 2) by (cbn; lra). apply le_INR. exact H. Qed.
Lemma f64_grid x : f64 x -> exists M, x = IZR M * powerRZ 2 (-1074).
Proof.
  intros (m & e & -> & _ & He). exists (m * 2 ^ (e + 1074))%Z. rewrite mult_IZR, <- powerRZ_IZR by lia. rewrite Rmult_assoc, <- powerRZ_add by lra. f_equal. f_equal. lia.
Qed.
Lemma half_diff m x : f64 m -> f64 x -> m <= x -> rnd64 (rnd64 (x - m) / 2) <= x - m.
Proof.
  intros Fm Fx H. set (d := rnd64 (x - m)). assert (Hd : 0 <= d) by (rewrite <- rnd64_0; apply rnd64_mono; lra).
  destruct (f64_grid m Fm) as [Mm Em], (f64_grid x Fx) as [Mx Ex]. pose proof (powerRZ_pos (-1074)) as Hp.
  assert (E : x - m = IZR (Mx - Mm) * powerRZ 2 (-1074)) by (rewrite minus_IZR, Ex, Em; ring).
  destruct (Z.lt_ge_cases (Z.abs (Mx - Mm)) (2 ^ 53)) as [L|L].
  - assert (F : f64 (x - m)) by (exists (Mx - Mm)%Z, (-1074)%Z; split; [exact E|lia]).
    assert (D : d = x - m) by (apply rnd64_id, F). rewrite D. rewrite <- (rnd64_id _ F) at 2. apply rnd64_mono. lra.
  - assert (Hbig : powerRZ 2 (-1021) <= x - m).
    { rewrite E. change (-1021)%Z with (53 + -1074)%Z. rewrite powerRZ_add by lra. apply Rmult_le_compat_r; [lra|]. rewrite powerRZ_IZR by lia. apply IZR_le.
      assert (0 <= Mx - Mm)%Z by (apply le_IZR, (Rmult_le_reg_r (powerRZ 2 (-1074))); [lra|]; rewrite <- E; lra). lia. }
    assert (Dbig : powerRZ 2 (-1021) <= d).
    { rewrite <- (rnd64_id (powerRZ 2 (-1021))); [apply rnd64_mono, Hbig|]. exists 1%Z, (-1021)%Z. split; [ring|lia]. }
    assert (Fh : f64 (d / 2)).
    { destruct (rnd64_f64 (x - m)) as (a & e & Ed & Ha & He). fold d in Ed. destruct (Z.eq_dec e (-1074)) as [-> |Ne].
      - exfalso. apply (Rle_not_lt _ _ Dbig). rewrite Ed. change (-1021)%Z with (53 + -1074)%Z. rewrite powerRZ_add by lra. apply Rmult_lt_compat_r; [lra|]. rewrite powerRZ_IZR by lia. apply IZR_lt. lia.
      - exists a, (e - 1)%Z. split; [|lia]. rewrite Ed. unfold Z.sub. rewrite powerRZ_add by lra. change (-1)%Z with (- (1))%Z. rewrite (powerRZ_neg' 2 1), powerRZ_1. unfold Rdiv. ring. }
    rewrite (rnd64_id _ Fh). pose proof (rnd64_error (x - m)) as Er. fold d in Er. rewrite (Rabs_right (x - m)) in Er by lra. pose proof (Rle_abs (d - (x - m))).
    assert (U : powerRZ 2 (-53) <= / 2). { rewrite p2_bpow. replace (/ 2) with (bpow radix2 (-1)) by reflexivity. apply bpow_le. lia. }
    assert (V : powerRZ 2 (-1075) <= / 2 * powerRZ 2 (-1021)). { rewrite !p2_bpow. replace (/ 2) with (bpow radix2 (-1)) by reflexivity. rewrite <- bpow_plus. apply bpow_le. lia. }
    nra.
Qed.
Lemma mean_step_up m x k : f64 m -> f64 x -> m <= x -> (2 <= k)%nat -> m <= mean_step m x k <= x.
Proof.
  intros Fm Fx H Hk. pose proof (rnd64_count k Hk) as K. assert (Hd : 0 <= rnd64 (x - m)) by (rewrite <- rnd64_0 at 1; apply rnd64_mono; lra).
  assert (Hi : 0 < / rnd64 (INR k) <= / 2) by (split; [apply Rinv_0_lt_compat; lra|apply Rinv_le_contravar; lra]).
  assert (Q : 0 <= rnd64 (rnd64 (x - m) / rnd64 (INR k)) <= x - m).
  { split; [rewrite <- rnd64_0 at 1; apply rnd64_mono; unfold Rdiv; nra|]. eapply Rle_trans; [|apply half_diff; assumption]. apply rnd64_mono. unfold Rdiv. nra. }
  unfold mean_step. split.
  - rewrite <- (rnd64_id m Fm) at 1. apply rnd64_mono. lra.
  - rewrite <- (rnd64_id x Fx) at 2. apply rnd64_mono. lra.
Qed.
Lemma f64_opp x : f64 x -> f64 (- x).
Proof. intros (m & e & -> & Hm & He). exists (- m)%Z, e. split; [rewrite opp_IZR; ring|lia]. Qed.
Lemma mean_step_down m x k : f64 m -> f64 x -> x <= m -> (2 <= k)%nat -> x <= mean_step m x k <= m.
Proof.
  intros Fm Fx H Hk. pose proof (mean_step_up (- m) (- x) k (f64_opp m Fm) (f64_opp x Fx) ltac:(lra) Hk) as G. rewrite mean_step_opp in G. lra.
Qed.
Lemma mean_step_prod m x k : f64 m -> f64 x -> (2 <= k)%nat -> 0 <= rnd64 (x - m) * rnd64 (x - mean_step m x k).
Proof.
  intros Fm Fx Hk. destruct (Rle_dec m x) as [L|L].
  - pose proof (mean_step_up m x k Fm Fx L Hk). assert (0 <= rnd64 (x - m)) by (rewrite <- rnd64_0 at 1; apply rnd64_mono; lra). assert (0 <= rnd64 (x - mean_step m x k)) by (rewrite <- rnd64_0 at 1; apply rnd64_mono; lra). nra.
  - pose proof (mean_step_down m x k Fm Fx ltac:(lra) Hk). assert (rnd64 (x - m) <= 0) by (rewrite <- rnd64_0 at 1; apply rnd64_mono; lra). assert (rnd64 (x - mean_step m x k) <= 0) by (rewrite <- rnd64_0 at 1; apply rnd64_mono; lra). nra.
Qed.
Lemma double_inv lo hi xs : xs <> [] -> Forall (fun x => f64 x /\ lo <= x <= hi) xs ->
  let s := rm_run rnd64 xs in f64 (rm_mean s) /\ lo <= rm_mean s <= hi /\ 0 <= rm_var s.
Proof.
  induction xs as [|x xs IH] using rev_ind; [congruence|]. intros _ F. cbv zeta. rewrite run_snoc. apply Forall_app in F as [F Fx]. inversion Fx as [|? ? [F64 B] _]; subst.
  unfold add_sample. rewrite run_k. destruct xs as [|y xs]; [cbn [length rm_mean rm_var]; repeat split; (assumption || lra)|].
  specialize (IH ltac:(discriminate) F). cbv zeta in IH. set (s := rm_run _ (y :: xs)) in *. destruct IH as (Fm & Bm & Hv). change (length (y :: xs)) with (S (length xs)). cbv zeta. cbn [rm_mean rm_var].
  fold (mean_step (rm_mean s) x (S (S (length xs)))). split; [apply rnd64_f64|]. split.
  - destruct (Rle_dec (rm_mean s) x) as [L|L]; [pose proof (mean_step_up (rm_mean s) x (S (S (length xs))) Fm F64 L ltac:(lia))|pose proof (mean_step_down (rm_mean s) x (S (S (length xs))) Fm F64 ltac:(lra) ltac:(lia))]; lra.
  - pose proof (mean_step_prod (rm_mean s) x (S (S (length xs))) Fm F64 ltac:(lia)) as P.
    assert (0 <= rnd64 (rnd64 (x - rm_mean s) * rnd64 (x - mean_step (rm_mean s) x (S (S (length xs)))))) by (rewrite <- rnd64_0 at 1; apply rnd64_mono, P).
    rewrite <- rnd64_0 at 1. apply rnd64_mono. lra.
Qed.
(** With double-precision rounding of every operation the mean still lies between the smallest and the largest sample, and the variance
    is never negative, so the standard deviation is never NaN once there is a sample. *)
Theorem running_statistics_double lo hi xs : xs <> [] -> Forall (fun x => f64 x /\ lo <= x <= hi) xs ->
  let s := rm_run rnd64 xs in
  lo <= rm_mean s <= hi /\ (exists v, rm_variance rnd64 s = Some v /\ 0 <= v) /\ (exists d, rm_std rnd64 s = Some d /\ 0 <= d).
Proof.
  intros H F. cbv zeta. destruct (double_inv lo hi xs H F) as (_ & B & V). split; [exact B|].
  assert (K : exists n, length xs = S n) by (destruct xs as [|? xs]; [congruence|exists (length xs); reflexivity]). destruct K as [n K].
  assert (C : 0 < rnd64 (INR (S n))). { apply Rlt_le_trans with 1; [lra|]. rewrite <- (rnd64_small 1) by (cbn; lia). apply rnd64_mono. rewrite S_INR. pose proof (pos_INR n). lra. }
  assert (E : rm_variance rnd64 (rm_run rnd64 xs) = Some (rnd64 (rm_var (rm_run rnd64 xs) / rnd64 (INR (S n))))) by (unfold rm_variance; rewrite run_k, K; reflexivity).
  assert (P : 0 <= rnd64 (rm_var (rm_run rnd64 xs) / rnd64 (INR (S n)))).
  { rewrite <- rnd64_0 at 1. apply rnd64_mono. apply Rmult_le_pos; [exact V|apply Rlt_le, Rinv_0_lt_compat, C]. }
  split; [eexists; split; [exact E|exact P]|]. unfold rm_std. rewrite E. destruct (Rlt_dec _ _); [lra|]. eexists. split; [reflexivity|]. rewrite <- rnd64_0 at 1. apply rnd64_mono, sqrt_pos.
Qed.
Print Assumptions running_statistics_double.
(** Without samples there is no variance (NaN). *)
Theorem running_statistics_empty fl : rm_mean (rm_run fl []) = 0 /\ rm_variance fl (rm_run fl []) = None /\ rm_std fl (rm_run fl []) = None.
Proof. repeat split. Qed.
Example running_ex : rm_mean (rm_run (fun x => x) [1; 2; 6]) = 3 /\ rm_variance (fun x => x) (rm_run (fun x => x) [1; 2; 6]) = Some (14 / 3).
Proof. destruct (running_statistics_exact [1; 2; 6] ltac:(discriminate)) as (-> & -> & _). unfold population_variance, average, total. cbn. split; [|f_equal]; field. Qed.

(** * C119: where the security estimates answer *)

Lemma poly_all fl hs p : poly_inside fl hs p = true <-> Forall (fun h => fl (fl (fst (hs_a h) * fst p) + fl (snd (hs_a h) * snd p)) <= hs_b h) hs.
Proof.
  unfold poly_inside. rewrite forallb_forall, Forall_forall. unfold hs_inside. split; intros H h Hh; specialize (H h Hh).
  - destruct (Rle_dec _ _); [assumption|discriminate].
  - destruct (Rle_dec _ _); [reflexivity|contradiction].
Qed.
(** Exactly the half-spaces that the point is not in are reported, and none exactly when the point is inside. *)
Theorem violations_complete fl hs p : (poly_inside fl hs p = true <-> violations fl hs p = []) /\ forall h, In h (violations fl hs p) <-> In h hs /\ hs_inside fl h p = false.
Proof.
  split.
  - unfold poly_inside, violations. induction hs as [|h hs IH]; [split; reflexivity|]. cbn [forallb filter]. destruct (hs_inside fl h p); cbn [andb negb]; [exact IH|split; discriminate].
  - intros h. unfold violations. rewrite filter_In, negb_true_iff. reflexivity.
Qed.
Print Assumptions violations_complete.
(** With exact arithmetic the region is convex. *)
Theorem polytope_convex hs x1 y1 x2 y2 t : 0 <= t <= 1 -> poly_inside (fun x => x) hs (x1, y1) = true -> poly_inside (fun x => x) hs (x2, y2) = true ->
  poly_inside (fun x => x) hs (t * x1 + (1 - t) * x2, t * y1 + (1 - t) * y2) = true.
Proof.
  rewrite !poly_all, !Forall_forall. intros Ht H1 H2 h Hh. specialize (H1 h Hh). specialize (H2 h Hh). cbn [fst snd] in *. nra.
Qed.
Print Assumptions polytope_convex.

Lemma dim_f64 d : (0 <= d < 2 ^ 53)%Z -> rnd64 (IZR d) = IZR d.
Proof. intros H. apply rnd64_small. lia. Qed.
Lemma lin_x s d l : s = 1 \/ s = -1 -> f64 d -> rnd64 (rnd64 (s * d) + rnd64 (0 * l)) = s * d.
Proof.
  intros Hs Fd. rewrite Rmult_0_l, rnd64_0, Rplus_0_r. assert (F : f64 (s * d)). { destruct Hs as [-> | ->]; [now rewrite Rmult_1_l|]. replace (-1 * d) with (- d) by ring. now apply f64_opp. }
  rewrite (rnd64_id (s * d) F). apply rnd64_id, F.
Qed.
Lemma lin_y s d l : s = 1 \/ s = -1 -> f64 l -> rnd64 (rnd64 (0 * d) + rnd64 (s * l)) = s * l.
Proof. intros Hs F. rewrite Rplus_comm. now apply lin_x. Qed.
Lemma f64_dim d : (0 <= d < 2 ^ 53)%Z -> f64 (IZR d).
Proof. intros H. exists d, 0%Z. split; [cbn; ring|lia]. Qed.

(** The estimate of the standard deviation answers only for documented arguments: dimensions 368 to 2048 and levels 78 to 130. *)
Theorem level_to_std_domain d level : (0 <= d < 2 ^ 53)%Z -> f64 level -> level_to_std_accepts rnd64 d level = true -> (368 <= d <= 2048)%Z /\ 78 <= level <= 130.
Proof.
  intros Hd Fl H. apply poly_all in H. rewrite (dim_f64 d Hd) in H. repeat (apply Forall_cons_iff in H as [? H]). cbn [hs_a hs_b fst snd] in *.
  rewrite lin_x in H0, H1 by (auto using f64_dim). rewrite lin_y in H2, H3 by auto.
  assert (368 <= IZR d) by lra. assert (IZR d <= 2048) by lra. split; [|lra]. split; apply le_IZR; lra.
Qed.
Print Assumptions level_to_std_domain.
Lemma rnd64_near x e : Rabs x <= 4096 -> e = / 1000000 -> Rabs (rnd64 x - x) <= e.
Proof.
  intros H ->. pose proof (rnd64_error x) as E. assert (U : powerRZ 2 (-53) <= / 8589934592). { rewrite p2_bpow. replace (/ 8589934592) with (bpow radix2 (-33)) by reflexivity. apply bpow_le. lia. }
  assert (V : powerRZ 2 (-1075) <= / 8589934592). { rewrite p2_bpow. replace (/ 8589934592) with (bpow radix2 (-33)) by reflexivity. apply bpow_le. lia. }
  pose proof (Rabs_pos x). nra.
Qed.
(** The documentation announces further constraints only above 1472 dimensions, but from 1436 dimensions on level 78 is refused. *)
Theorem level_to_std_documented_domain_refuted d : (1436 <= d <= 1472)%Z -> level_to_std_accepts rnd64 d 78 = false.
Proof.
  intros Hd. destruct (level_to_std_accepts rnd64 d 78) eqn:H; [exfalso|reflexivity]. apply poly_all in H. rewrite (dim_f64 d) in H by lia.
  do 4 (apply Forall_cons_iff in H as [_ H]). apply Forall_cons_iff in H as [H _]. cbn [hs_a hs_b fst snd] in H.
  assert (D : 1436 <= IZR d <= 1472) by (split; apply IZR_le; lia).
  set (a := rnd64 (5678074392712544 / 100000000000000000)) in *. set (b := rnd64 (35151045883938177 / 10000000000000000)) in *.
  assert (A : Rabs (a - 5678074392712544 / 100000000000000000) <= / 1000000) by (apply rnd64_near; [rewrite Rabs_right by lra; lra|reflexivity]).
  assert (B : Rabs (b - 35151045883938177 / 10000000000000000) <= / 1000000) by (apply rnd64_near; [rewrite Rabs_right by lra; lra|reflexivity]).
  apply Rabs_le_inv in A. apply Rabs_le_inv in B.
  assert (C1 : Rabs (rnd64 (a * IZR d) - a * IZR d) <= / 1000000) by (apply rnd64_near; [rewrite Rabs_right by nra; nra|reflexivity]). apply Rabs_le_inv in C1.
  replace (-1 * 78) with (IZR (-78)) in H by (cbn; lra). rewrite (rnd64_small (-78)) in H by (cbn; lia).
  assert (C2 : Rabs (rnd64 (rnd64 (a * IZR d) + -78) - (rnd64 (a * IZR d) + -78)) <= / 1000000) by (apply rnd64_near; [apply Rabs_le; nra|reflexivity]). apply Rabs_le_inv in C2.
  nra.
Qed.
Print Assumptions level_to_std_documented_domain_refuted.

(** The estimate of the security level answers only for dimensions 386 to 2048 ... *)
Theorem std_to_level_domain d log_std : (0 <= d < 2 ^ 53)%Z -> std_to_level_accepts rnd64 d log_std = true -> (386 <= d <= 2048)%Z.
Proof.
  intros Hd H. apply poly_all in H. rewrite (dim_f64 d Hd) in H. do 2 (apply Forall_cons_iff in H as [? H]). cbn [hs_a hs_b fst snd] in *.
  rewrite lin_x in H0, H1 by (auto using f64_dim). split; apply le_IZR; lra.
Qed.
Print Assumptions std_to_level_domain.
(** ... although it is documented, like its inverse, from dimension 368 on: below 386 every standard deviation is refused. *)
Theorem std_to_level_documented_dimension_refuted d log_std : (368 <= d < 386)%Z -> std_to_level_accepts rnd64 d log_std = false.
Proof. intros Hd. destruct (std_to_level_accepts rnd64 d log_std) eqn:H; [exfalso|reflexivity]. apply std_to_level_domain in H; lia. Qed.
Print Assumptions std_to_level_documented_dimension_refuted.

(** Dimension 637 at level 128 is accepted. *)
Example level_to_std_ex : level_to_std_accepts rnd64 637 128 = true.
Proof.
  apply poly_all. rewrite (dim_f64 637) by (cbn; lia). assert (F : f64 637) by (exists 637%Z, 0%Z; split; [cbn; ring|cbn; lia]). assert (F2 : f64 128) by (exists 128%Z, 0%Z; split; [cbn; ring|cbn; lia]).
  repeat apply Forall_cons; [..|constructor]; cbn [hs_a hs_b fst snd]; [rewrite lin_x by auto; lra..|rewrite lin_y by auto; lra|rewrite lin_y by auto; lra|].
  set (a := rnd64 (5678074392712544 / 100000000000000000)) in *. set (b := rnd64 (35151045883938177 / 10000000000000000)) in *.
  assert (A : Rabs (a - 5678074392712544 / 100000000000000000) <= / 1000000) by (apply rnd64_near; [rewrite Rabs_right by lra; lra|reflexivity]).
  assert (B : Rabs (b - 35151045883938177 / 10000000000000000) <= / 1000000) by (apply rnd64_near; [rewrite Rabs_right by lra; lra|reflexivity]).
  apply Rabs_le_inv in A. apply Rabs_le_inv in B.
  assert (C1 : Rabs (rnd64 (a * 637) - a * 637) <= / 1000000) by (apply rnd64_near; [rewrite Rabs_right by lra; lra|reflexivity]). apply Rabs_le_inv in C1.
  replace (-1 * 128) with (- (128)) by ring. rewrite rnd64_opp, (rnd64_id 128 F2).
  assert (C2 : Rabs (rnd64 (rnd64 (a * 637) + - (128)) - (rnd64 (a * 637) + - (128))) <= / 1000000) by (apply rnd64_near; [apply Rabs_le; lra|reflexivity]). apply Rabs_le_inv in C2.
  lra.
Qed.
