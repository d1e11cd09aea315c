(** Rounding error of the transforms and of a whole sum of products. *)
From Coq Require Import Reals ZArith List Lia Lra Psatz Bool.
From Coquelicot Require Import Complex.
From Verif Require Import Fft SpecFft FftProofs FftProofs2.
Import ListNotations.
Open Scope R_scope.
Open Scope C_scope.

Lemma complex_twist_spec fl re im tw : length re = length tw -> length im = length tw ->
  length (complex_twist fl re im tw) = length tw /\
  forall j, (j < length tw)%nat -> nth j (complex_twist fl re im tw) (RtoC 0) =
    fcmul fl (nth j re 0%R, nth j im 0%R) (nth j tw (RtoC 0)).
Proof.
  revert re im. induction tw as [|t tw IH]; intros [|x re] [|y im] H1 H2; cbn [length] in *; try lia.
  - split; [reflexivity|]. intros j Hj. lia.
  - destruct (IH re im) as [L N]; try lia. cbn [complex_twist length]. split; [lia|].
    intros [|j] Hj; [reflexivity|]. cbn [nth]. apply N. lia.
Qed.

Lemma twisted_new_ok X n t : twisted_new X (2 * n) = Ok t ->
  tf_len t = n /\ length (tf_twist t) = n /\ length (tf_twist_inv t) = n.
Proof.
  unfold twisted_new. assert (E : (2 * n / 2)%nat = n) by (rewrite Nat.mul_comm, Nat.div_mul; lia). rewrite E.
  destruct (is_pow2 (2 * n)); [|discriminate]. intros H. injection H as <-. cbn [tf_len tf_twist tf_twist_inv].
  rewrite !map_length, !seq_length. repeat split.
Qed.

Lemma dft_at_near sgn (x y : list C) k e : length x = length y ->
  (forall j, (j < length x)%nat -> (Cmod (nth j x (RtoC 0) - nth j y (RtoC 0))%C <= e)%R) ->
  (Cmod (dft_at sgn x k - dft_at sgn y k)%C <= INR (length x) * e)%R.
Proof.
  intros L H. unfold dft_at. rewrite <- L.
  match goal with |- (Cmod (csum ?n ?f - csum ?n ?g)%C <= _)%R =>
    replace (csum n f - csum n g) with (csum n (fun j => f j + - g j)) by (rewrite csum_add, csum_opp; ring)
  end.
  eapply Rle_trans; [apply mod_csum|]. apply rsum_bound. intros j Hj.
  match goal with |- (Cmod (?a * ?c + - (?b * ?c))%C <= _)%R => replace (a * c + - (b * c)) with ((a - b) * c) by ring end.
  rewrite Cmod_mult, cexp_mod, Rmult_1_r. apply H, Hj.
Qed.

Lemma ev_bound n k a A : (forall i, (i < 2 * n)%nat -> (Rabs (IZR (a i)) <= A)%R) -> (Cmod (ev n k a) <= freq n A)%R.
Proof.
  intros H. eapply Rle_trans; [apply mod_csum|]. unfold freq.
  replace (2 * INR n * A)%R with (INR (2 * n) * A)%R by (rewrite mult_INR; simpl; ring).
  apply rsum_bound. intros j Hj. rewrite Cmod_mult, cexp_mod, Rmult_1_r, Cmod_R. apply H, Hj.
Qed.

Section Acc.
Context (X : ext) (n : nat) (u eta tau delta : R) (Hac : accurate X n u eta tau delta) (Hn : (0 < n)%nat).

Lemma Hu : (0 <= u <= / 8)%R. Proof. apply (ac_range _ _ _ _ _ _ Hac). Qed.
Lemma Heta : (0 <= eta)%R. Proof. apply (ac_range _ _ _ _ _ _ Hac). Qed.
Lemma Htau : (0 <= tau)%R. Proof. apply (ac_range _ _ _ _ _ _ Hac). Qed.
Lemma Hdelta : (0 <= delta)%R. Proof. apply (ac_range _ _ _ _ _ _ Hac). Qed.

(** One twisted element. *)
Lemma twist_elem A (x y : R) (t t0 : C) :
  (0 <= A)%R -> (Rabs x <= A)%R -> (Rabs y <= A)%R -> (Cmod (t - t0)%C <= tau)%R -> Cmod t0 = 1%R ->
  (Cmod (fcmul (ef_fl X) (ef_fl X x, ef_fl X y) t - (x, y) * t0)%C <= twist_err u eta tau A)%R.
Proof.
  intros HA Hx Hy Ht Ht0. pose proof Hu. pose proof Heta. pose proof Htau.
  set (fl := ef_fl X). assert (Hfl := ac_fl _ _ _ _ _ _ Hac). fold fl in Hfl.
  set (z' := (fl x, fl y) : C). set (z := (x, y) : C).
  assert (Ez : (Cmod (z' - z)%C <= 2 * (u * A + eta))%R).
  { eapply Rle_trans; [apply mod_sum|]. unfold z', z, Cminus, Cplus, Copp; cbn [fst snd].
    pose proof (fl_le fl u eta Hu Hfl x A Hx). pose proof (fl_le fl u eta Hu Hfl y A Hy). unfold Rminus in *. lra. }
  assert (Bz : (Cmod z <= 2 * A)%R).
  { eapply Rle_trans; [apply mod_sum|]. unfold z; cbn [fst snd]. lra. }
  assert (Bz' : (Cmod z' <= 9 / 4 * A + 2 * eta)%R).
  { eapply Rle_trans; [apply (mod_sub z' z)|]. assert (u * A <= / 8 * A)%R by (apply Rmult_le_compat_r; lra). lra. }
  assert (Bt : (Cmod t <= 1 + tau)%R).
  { eapply Rle_trans; [apply (mod_sub t t0)|]. lra. }
  pose proof (Cmod_ge_0 z') as Pz'. pose proof (Cmod_ge_0 t) as Pt.
  eapply Rle_trans; [apply (mod_split _ (z' * t))|].
  pose proof (fcmul_err fl u eta Hu Heta Hfl z' t) as E1.
  pose proof (mul_err z z' t0 t _ _ Ez Ht) as E2. rewrite Ht0, Rmult_1_r in E2.
  assert (Cmod z' * Cmod t <= (9 / 4 * A + 2 * eta) * (1 + tau))%R by (apply Rmult_le_compat; lra).
  assert (Cmod z' * tau <= (9 / 4 * A + 2 * eta) * tau)%R by (apply Rmult_le_compat_r; lra).
  assert (9 * u * (Cmod z' * Cmod t) <= 9 * u * ((9 / 4 * A + 2 * eta) * (1 + tau)))%R by (apply Rmult_le_compat_l; lra).
  unfold twist_err. lra.
Qed.

Lemma twist_err_pos A : (0 <= A)%R -> (0 <= twist_err u eta tau A)%R.
Proof.
  intros HA. pose proof Hu. pose proof Heta. pose proof Htau. unfold twist_err.
  repeat (apply Rplus_le_le_0_compat || apply Rmult_le_pos || lra).
Qed.
Lemma fwd_err_pos A : (0 <= A)%R -> (0 <= fwd_err n u eta tau delta A)%R.
Proof.
  intros HA. pose proof (twist_err_pos A HA). pose proof Hdelta. unfold fwd_err.
  apply Rmult_le_pos; [apply pos_INR|]. apply Rplus_le_le_0_compat; [|assumption]. apply Rmult_le_pos; lra.
Qed.
Lemma freq_pos A : (0 <= A)%R -> (0 <= freq n A)%R.
Proof. intros HA. unfold freq. pose proof (pos_INR n). repeat apply Rmult_le_pos; lra. Qed.

Lemma forward_err t w p A :
  twisted_new X (2 * n) = Ok t -> length p = (2 * n)%nat -> (0 <= A)%R ->
  (forall i, (i < 2 * n)%nat -> (Rabs (IZR (scoef w p i)) <= A)%R) ->
  exists F, forward X t (map (fun x => ef_fl X (IZR (sint w x))) p) = Ok F /\ length F = n /\
    forall k, (k < n)%nat -> (Cmod (nth k F (RtoC 0) - ev n k (scoef w p))%C <= fwd_err n u eta tau delta A)%R.
Proof.
  intros Ht Lp HA Hp. destruct (twisted_new_ok X n t Ht) as (Hl & L1 & L2).
  unfold forward. rewrite map_length, Lp, Hl. replace (2 * n =? n * 2)%nat with true by (symmetry; apply Nat.eqb_eq; lia).
  replace (2 * n / 2)%nat with n by (rewrite Nat.mul_comm, Nat.div_mul; lia).
  eexists. split; [reflexivity|].
  set (xs := map _ p). assert (Lx : length xs = (2 * n)%nat) by (unfold xs; rewrite map_length; exact Lp).
  assert (Nx : forall i, (i < 2 * n)%nat -> nth i xs 0%R = ef_fl X (IZR (scoef w p i))).
  { intros i Hi. unfold xs, scoef. rewrite (nth_indep _ 0%R ((fun x => ef_fl X (IZR (sint w x))) 0%Z))
      by (rewrite map_length; lia). apply (map_nth (fun x => ef_fl X (IZR (sint w x)))). }
  destruct (complex_twist_spec (ef_fl X) (firstn n xs) (skipn n xs) (tf_twist t)) as [Lc Nc].
  { rewrite firstn_length. lia. } { rewrite skipn_length. lia. }
  rewrite L1 in *. set (c := complex_twist _ _ _ _) in *.
  destruct (ac_fwd _ _ _ _ _ _ Hac c Lc) as [LF EF]. split; [exact LF|]. intros k Hk.
  set (d := map (fun j => (IZR (scoef w p j), IZR (scoef w p (n + j)%nat)) * cexp (2 * PI * INR j / (4 * INR n))) (seq 0 n) : list C).
  assert (Ld : length d = n) by (unfold d; rewrite map_length, seq_length; reflexivity).
  assert (Nd : forall j, (j < n)%nat -> nth j d (RtoC 0) = (IZR (scoef w p j), IZR (scoef w p (n + j)%nat)) * cexp (2 * PI * INR j / (4 * INR n))).
  { intros j Hj. unfold d. set (f := fun j => _).
    rewrite (nth_indep _ (RtoC 0) (f 0%nat)) by (rewrite map_length, seq_length; exact Hj).
    rewrite (map_nth f), seq_nth by exact Hj. reflexivity. }
  assert (Ecd : forall j, (j < n)%nat -> (Cmod (nth j c (RtoC 0) - nth j d (RtoC 0))%C <= twist_err u eta tau A)%R).
  { intros j Hj. rewrite Nc, Nd by exact Hj.
    assert (E1 : nth j (firstn n xs) 0%R = nth j xs 0%R).
    { rewrite <- (firstn_skipn n xs) at 2. rewrite app_nth1; [reflexivity|]. rewrite firstn_length. lia. }
    assert (E2 : nth j (skipn n xs) 0%R = nth (n + j) xs 0%R).
    { rewrite <- (firstn_skipn n xs) at 2. rewrite app_nth2; rewrite firstn_length; [|lia]. f_equal. lia. }
    rewrite E1, E2, !Nx by lia. apply twist_elem; auto; try (apply Hp; lia); [|apply cexp_mod].
    apply (ac_twist _ _ _ _ _ _ Hac t Ht j Hj). }
  assert (Edev : dft_at (-1) d k = ev n k (scoef w p)).
  { rewrite ev_fold by exact Hn. unfold dft_at. rewrite Ld. apply csum_ext. intros j Hj. rewrite Nd by exact Hj.
    rewrite <- Cmult_assoc, <- cexp_add. f_equal. f_equal. unfold phi.
    assert (0 < INR n)%R by (apply lt_0_INR; lia). field. lra. }
  eapply Rle_trans; [apply (mod_split _ (dft_at (-1) c k))|].
  pose proof (EF k Hk) as E1.
  pose proof (dft_at_near (-1) c d k (twist_err u eta tau A)) as E2. rewrite Lc, Ld in E2. specialize (E2 eq_refl Ecd).
  rewrite Edev in E2.
  assert (E3 : (rsum n (fun j => Cmod (nth j c (RtoC 0))) <= INR n * (2 * A + twist_err u eta tau A))%R).
  { apply rsum_bound. intros j Hj. eapply Rle_trans; [apply (mod_sub _ (nth j d (RtoC 0)))|].
    pose proof (Ecd j Hj). rewrite (Nd j Hj), Cmod_mult, cexp_mod, Rmult_1_r in *.
    pose proof (mod_sum (IZR (scoef w p j), IZR (scoef w p (n + j)%nat))) as B. cbn [fst snd] in B.
    pose proof (Hp j ltac:(lia)). pose proof (Hp (n + j)%nat ltac:(lia)). lra. }
  pose proof (Rmult_le_compat_l delta _ _ Hdelta E3). unfold fwd_err.
  replace (INR n * (delta * (2 * A + twist_err u eta tau A) + twist_err u eta tau A))%R
    with (delta * (INR n * (2 * A + twist_err u eta tau A)) + INR n * twist_err u eta tau A)%R by ring.
  lra.
Qed.
End Acc.
