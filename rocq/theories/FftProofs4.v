(** Accumulation and the reverse transform, with rounding errors. *)
From Coq Require Import Reals ZArith List Lia Lra Psatz Bool.
From Coquelicot Require Import Complex.
From Verif Require Import Fft SpecFft FftProofs FftProofs2 FftProofs3.
Import ListNotations.
Open Scope R_scope.
Open Scope C_scope.

Lemma mad_loop_spec f c a b n : length c = n -> length a = n -> length b = n ->
  length (mad_loop f c a b) = n /\
  forall k, (k < n)%nat -> nth k (mad_loop f c a b) (RtoC 0) = f (nth k c (RtoC 0)) (nth k a (RtoC 0)) (nth k b (RtoC 0)).
Proof.
  revert a b n. induction c as [|x c IH]; intros [|y a] [|z b] n H1 H2 H3; cbn [length] in *; try lia.
  - split; [exact H1|]. intros k Hk. lia.
  - destruct n as [|n]; [lia|]. destruct (IH a b n) as [L N]; try lia. cbn [mad_loop length]. split; [lia|].
    intros [|k] Hk; [reflexivity|]. cbn [nth]. apply N. lia.
Qed.

Lemma untwist_loop_spec fl ninv ys ts n : length ys = n -> length ts = n ->
  exists ps, untwist_loop fl ninv ys ts = Ok ps /\ length ps = n /\
  forall j, (j < n)%nat -> nth j ps (0%Z, 0%Z) =
    (rround (fst (fcmul fl (fcscale fl (nth j ys (RtoC 0)) ninv) (nth j ts (RtoC 0)))),
     rround (snd (fcmul fl (fcscale fl (nth j ys (RtoC 0)) ninv) (nth j ts (RtoC 0))))).
Proof.
  revert ts n. induction ys as [|y ys IH]; intros [|t ts] n H1 H2; cbn [length] in *; try lia.
  - exists []. repeat split; [exact H1|]. intros j Hj. lia.
  - destruct n as [|n]; [lia|]. destruct (IH ts n) as (ps & E & L & N); try lia.
    cbn [untwist_loop]. rewrite E. cbn [bind]. eexists. split; [reflexivity|]. cbn [length]. split; [lia|].
    intros [|j] Hj; [reflexivity|]. cbn [nth]. apply N. lia.
Qed.

Section Acc.
Context (X : ext) (n : nat) (u eta tau delta : R) (Hac : accurate X n u eta tau delta) (Hn : (0 < n)%nat).
Let Hu := Hu X n u eta tau delta Hac.
Let Heta := Heta X n u eta tau delta Hac.
Let Htau := Htau X n u eta tau delta Hac.
Let Hdelta := Hdelta X n u eta tau delta Hac.
Let Hfl := ac_fl _ _ _ _ _ _ Hac.
Notation fe := (fwd_err n u eta tau delta).
Notation fq := (freq n).

(** One multiply-add in the frequency domain. *)
Lemma mad_step m (c a b ec ea eb : C) e s A B :
  (Cmod (c - ec)%C <= e)%R -> (Cmod ec <= s)%R -> (Cmod (a - ea)%C <= fe A)%R -> (Cmod ea <= fq A)%R ->
  (Cmod (b - eb)%C <= fe B)%R -> (Cmod eb <= fq B)%R ->
  (Cmod (mad_elem m (ef_fl X) c a b - (ec + ea * eb))%C <= step_err n u eta tau delta A B e s)%R.
Proof.
  intros Hc Bc Ha Ba Hb Bb.
  eapply Rle_trans; [apply (mod_split _ (c + a * b))|].
  pose proof (mad_err (ef_fl X) u eta Hu Heta Hfl m c a b) as E1.
  replace (c + a * b - (ec + ea * eb)) with ((c - ec) + (a * b - ea * eb)) by ring.
  pose proof (Cmod_triangle (c - ec) (a * b - ea * eb)) as E2.
  pose proof (mul_err ea a eb b _ _ Ha Hb) as E3.
  assert (Ma : (Cmod a <= fq A + fe A)%R) by (pose proof (mod_sub a ea); lra).
  assert (Mb : (Cmod b <= fq B + fe B)%R) by (pose proof (mod_sub b eb); lra).
  assert (Mc : (Cmod c <= s + e)%R) by (pose proof (mod_sub c ec); lra).
  pose proof (Cmod_ge_0 (a - ea)). pose proof (Cmod_ge_0 (b - eb)). pose proof (Cmod_ge_0 a). pose proof (Cmod_ge_0 b).
  pose proof (Cmod_ge_0 eb).
  assert (T1 : (Cmod a * fe B <= (fq A + fe A) * fe B)%R) by (apply Rmult_le_compat_r; lra).
  assert (T2 : (fe A * Cmod eb <= fe A * fq B)%R) by (apply Rmult_le_compat_l; lra).
  assert (T3 : (Cmod a * Cmod b <= (fq A + fe A) * (fq B + fe B))%R) by (apply Rmult_le_compat; lra).
  assert (T4 : (14 * u * (Cmod c + Cmod a * Cmod b) <= 14 * u * (s + e + (fq A + fe A) * (fq B + fe B)))%R).
  { apply Rmult_le_compat_l; [pose proof Hu; lra|lra]. }
  unfold step_err, prod_err. lra.
Qed.

Context (w : Z) (A B : R) (HA : (0 <= A)%R) (HB : (0 <= B)%R).
Context (Hp2 : is_pow2 (2 * n) = true) (Hlog : (Nat.log2 (2 * n) < 13)%nat).

Definition pair_bound (p : list Z * list Z) : Prop :=
  (forall i, (i < 2 * n)%nat -> (Rabs (IZR (scoef w (fst p) i)) <= A)%R) /\
  (forall i, (i < 2 * n)%nat -> (Rabs (IZR (scoef w (snd p) i)) <= B)%R).

Lemma get_fft_new : exists t, get_fft X (Nat.log2 (2 * n)) = Ok t /\ twisted_new X (2 * n) = Ok t.
Proof.
  unfold get_fft. replace (Nat.log2 (2 * n) <? 13)%nat with true by (symmetry; apply Nat.ltb_lt; exact Hlog).
  assert (E : (2 ^ Nat.log2 (2 * n))%nat = (2 * n)%nat).
  { unfold is_pow2 in Hp2. apply andb_prop in Hp2. destruct Hp2 as [_ H]. apply Nat.eqb_eq in H. exact H. }
  rewrite E. unfold twisted_new at 1 2. rewrite Hp2. eexists. split; reflexivity.
Qed.

Lemma poly_fft_err p D : length p = (2 * n)%nat -> (0 <= D)%R ->
  (forall i, (i < 2 * n)%nat -> (Rabs (IZR (scoef w p i)) <= D)%R) ->
  exists F, poly_fft X w p n = Ok F /\ length F = n /\
    forall k, (k < n)%nat -> (Cmod (nth k F (RtoC 0) - ev n k (scoef w p))%C <= fe D)%R.
Proof.
  intros Lp HD Hb. destruct get_fft_new as (t & G & T).
  destruct (forward_err X n u eta tau delta Hac Hn t w p D T Lp HD Hb) as (F & EF & LF & Herr).
  exists F. split; [|split; assumption]. unfold poly_fft. rewrite Lp, Hp2.
  replace (2 * n =? n * 2)%nat with true by (symmetry; apply Nat.eqb_eq; lia). cbn [andb]. rewrite G. exact EF.
Qed.

Context (x86 : bool) (m : mad_kernel) (Hx86 : x86 = true -> (n mod 8 = 0)%nat).

Lemma multiply_add_ok c a b : length c = n -> length a = n -> length b = n ->
  multiply_add X x86 m c a b = Ok (mad_loop (mad_elem m (ef_fl X)) c a b).
Proof.
  intros L1 L2 L3. unfold multiply_add. rewrite L1, L2, L3, Nat.eqb_refl. cbn [andb].
  destruct x86; [|reflexivity]. rewrite Hx86 by reflexivity. reflexivity.
Qed.

Lemma mad_products_err ps : forall acc g e s,
  Forall (pair_len (2 * n)) ps -> Forall pair_bound ps -> length acc = n ->
  (forall k, (k < n)%nat -> (Cmod (nth k acc (RtoC 0) - ev n k g)%C <= e)%R /\ (Cmod (ev n k g) <= s)%R) ->
  exists acc', mad_products X x86 m w n acc ps = Ok acc' /\ length acc' = n /\
  forall k, (k < n)%nat ->
    (Cmod (nth k acc' (RtoC 0) - ev n k (fun i => g i + sum_of_products (2 * n) w ps i)%Z)%C
      <= acc_err n u eta tau delta A B (length ps) e s)%R /\
    (Cmod (ev n k (fun i => g i + sum_of_products (2 * n) w ps i)%Z) <= s + INR (length ps) * (fq A * fq B))%R.
Proof.
  induction ps as [|[a b] ps IH]; intros acc g e s HL HB' La Hacc.
  - exists acc. split; [reflexivity|]. split; [exact La|]. intros k Hk. cbn [sum_of_products length acc_err INR].
    rewrite (ev_ext n k _ g) by (intros; lia). destruct (Hacc k Hk). split; [assumption|lra].
  - inversion HL as [|? ? [L1 L2] HL']; subst. inversion HB' as [|? ? [B1 B2] HB'']; subst. cbn [fst snd] in *.
    destruct (poly_fft_err a A L1 HA B1) as (FA & EA & LFA & HFA).
    destruct (poly_fft_err b B L2 HB B2) as (FB & EB & LFB & HFB).
    cbn [mad_products]. rewrite EA, EB. cbn [bind]. rewrite multiply_add_ok by assumption. cbn [bind].
    destruct (mad_loop_spec (mad_elem m (ef_fl X)) acc FA FB n La LFA LFB) as [Lm Nm].
    destruct (IH (mad_loop (mad_elem m (ef_fl X)) acc FA FB)
      (fun i => g i + negacyclic (2 * n) (scoef w a) (scoef w b) i)%Z
      (step_err n u eta tau delta A B e s) (s + fq A * fq B)%R HL' HB'' Lm) as (acc' & E & L & H).
    { intros k Hk. rewrite Nm by exact Hk. rewrite ev_add, ev_mul by exact Hn. destruct (Hacc k Hk).
      pose proof (ev_bound n k (scoef w a) A B1). pose proof (ev_bound n k (scoef w b) B B2). split.
      - apply mad_step; auto.
      - eapply Rle_trans; [apply Cmod_triangle|]. rewrite Cmod_mult.
        apply Rplus_le_compat; [assumption|]. apply Rmult_le_compat; auto using Cmod_ge_0. }
    exists acc'. split; [exact E|]. split; [exact L|]. intros k Hk. destruct (H k Hk) as [H1 H2].
    assert (Ee : ev n k (fun i => g i + sum_of_products (2 * n) w ((a, b) :: ps) i)%Z =
                 ev n k (fun i => g i + negacyclic (2 * n) (scoef w a) (scoef w b) i + sum_of_products (2 * n) w ps i)%Z).
    { apply ev_ext. intros i Hi. cbn [sum_of_products]. lia. }
    rewrite Ee. cbn [length acc_err]. split; [exact H1|]. rewrite S_INR. lra.
Qed.

(** The reverse transform of points [data] close to the values of [v]. *)
Lemma reverse_err t data (v : nat -> Z) e s :
  twisted_new X (2 * n) = Ok t -> length data = n -> (0 <= e)%R -> (0 <= s)%R ->
  (forall k, (k < n)%nat -> (Cmod (nth k data (RtoC 0) - ev n k v)%C <= e)%R /\ (Cmod (ev n k v) <= s)%R) ->
  exists out, reverse X t data = Ok out /\ length out = (2 * n)%nat /\
  forall i, (i < 2 * n)%nat -> exists y0, nth i out 0%R = IZR (rround (ef_fl X y0)) /\
    (Rabs (ef_fl X y0 - IZR (v i)) <= untwist_err n u eta tau delta e s)%R.
Proof.
  intros Ht Ld He Hs Hd. destruct (twisted_new_ok X n t Ht) as (Hl & L1 & L2).
  unfold reverse. rewrite Ld, Hl, Nat.eqb_refl.
  destruct (ac_inv _ _ _ _ _ _ Hac data Ld) as [Li Ei]. set (ys := ef_inv X data) in *.
  unfold complex_untwist. rewrite Li. set (fl := ef_fl X) in *. set (ninv := fl (1 / INR n)%R).
  destruct (untwist_loop_spec fl ninv ys (tf_twist_inv t) n Li L2) as (ps & E & Lps & N).
  rewrite E. cbn [bind]. eexists. split; [reflexivity|]. split; [rewrite app_length, !map_length; lia|].
  assert (HN : (0 < INR n)%R) by (apply lt_0_INR; lia).
  pose proof Hu as Hu'. pose proof Heta as Heta'. pose proof Htau as Htau'. pose proof Hdelta as Hdelta'.
  set (ie := inv_err n delta e s). set (se := scale_err n u eta delta e s).
  assert (Pie : (0 <= ie)%R).
  { unfold ie, inv_err. apply Rmult_le_pos; [lra|]. apply Rplus_le_le_0_compat; [|lra]. apply Rmult_le_pos; lra. }
  (* per element *)
  assert (Elem : forall j, (j < n)%nat ->
    (Cmod (fcmul fl (fcscale fl (nth j ys (RtoC 0)) ninv) (nth j (tf_twist_inv t) (RtoC 0))
           - (IZR (v j), IZR (v (n + j)%nat)))%C <= untwist_err n u eta tau delta e s)%R).
  { intros j Hj. rewrite <- (unev_ev n v j Hj).
    set (I0 := csum n (fun k => ev n k v * cexp (2 * PI * INR j * INR k / INR n))).
    set (I' := nth j ys (RtoC 0)).
    assert (BI0 : (Cmod I0 <= INR n * s)%R).
    { eapply Rle_trans; [apply mod_csum|]. apply rsum_bound. intros k Hk. rewrite Cmod_mult, cexp_mod, Rmult_1_r.
      apply Hd, Hk. }
    assert (EI : (Cmod (I' - I0)%C <= ie)%R).
    { eapply Rle_trans; [apply (mod_split _ (dft_at 1 data j))|].
      pose proof (Ei j Hj) as E1. fold I' in E1.
      assert (E2 : (rsum n (fun k => Cmod (nth k data (RtoC 0))) <= INR n * (s + e))%R).
      { apply rsum_bound. intros k Hk. destruct (Hd k Hk). pose proof (mod_sub (nth k data (RtoC 0)) (ev n k v)). lra. }
      assert (E3 : (Cmod (dft_at 1 data j - I0)%C <= INR n * e)%R).
      { unfold dft_at, I0. rewrite Ld.
        match goal with |- (Cmod (csum ?n ?f - csum ?n ?g)%C <= _)%R =>
          replace (csum n f - csum n g) with (csum n (fun j => f j + - g j)) by (rewrite csum_add, csum_opp; ring)
        end.
        eapply Rle_trans; [apply mod_csum|]. apply rsum_bound. intros k Hk.
        replace (1 * (2 * PI) * INR k * INR j / INR n)%R with (2 * PI * INR j * INR k / INR n)%R by (field; lra).
        match goal with |- (Cmod (?a * ?c + - (?b * ?c))%C <= _)%R => replace (a * c + - (b * c)) with ((a - b) * c) by ring end.
        rewrite Cmod_mult, cexp_mod, Rmult_1_r. apply Hd, Hk. }
      pose proof (Rmult_le_compat_l delta _ _ Hdelta' E2). unfold ie, inv_err.
      replace (INR n * (delta * (s + e) + e))%R with (delta * (INR n * (s + e)) + INR n * e)%R by ring. lra. }
    set (M := (INR n * s + ie)%R).
    assert (BI' : (Cmod I' <= M)%R) by (pose proof (mod_sub I' I0); unfold M; lra).
    assert (PM : (0 <= M)%R) by (pose proof (Cmod_ge_0 I'); lra).
    assert (En : (Rabs (ninv - 1 / INR n) <= u / INR n + eta)%R).
    { unfold ninv. pose proof (Hfl (1 / INR n)%R) as H. fold fl in H.
      rewrite (Rabs_right (1 / INR n)) in H; [unfold Rdiv in *; lra|]. apply Rle_ge. unfold Rdiv. rewrite Rmult_1_l.
      left. apply Rinv_0_lt_compat. lra. }
    assert (PI_n : (0 < / INR n)%R) by (apply Rinv_0_lt_compat; lra).
    assert (Bn : (Rabs ninv <= 9 / 8 / INR n + eta)%R).
    { replace ninv with ((ninv - 1 / INR n) + 1 / INR n)%R by ring. eapply Rle_trans; [apply Rabs_triang|].
      rewrite (Rabs_right (1 / INR n)) by (unfold Rdiv; lra).
      assert (u / INR n <= / 8 / INR n)%R by (apply Rmult_le_compat_r; lra). unfold Rdiv in *. lra. }
    set (sc := fcscale fl I' ninv).
    assert (Esc : (Cmod (sc - RtoC (/ INR n) * I0)%C <= se)%R).
    { eapply Rle_trans; [apply (mod_split _ (I' * RtoC ninv))|].
      pose proof (fcscale_err fl u eta Hu Hfl I' ninv) as E1. fold sc in E1.
      assert (E2 : (Cmod (I' * RtoC ninv - RtoC (/ INR n) * I0)%C <= M * (u / INR n + eta) + ie / INR n)%R).
      { replace (I' * RtoC ninv - RtoC (/ INR n) * I0) with (I' * RtoC (ninv - 1 / INR n) + (I' - I0) * RtoC (/ INR n)).
        2:{ replace (1 / INR n)%R with (/ INR n)%R by (unfold Rdiv; ring). rewrite RtoC_minus. ring. }
        eapply Rle_trans; [apply Cmod_triangle|]. rewrite !Cmod_mult, !Cmod_R.
        rewrite (Rabs_right (/ INR n)) by lra.
        apply Rplus_le_compat; [apply Rmult_le_compat; auto using Cmod_ge_0, Rabs_pos|].
        unfold Rdiv. apply Rmult_le_compat_r; lra. }
      assert (E3 : (Cmod I' * Rabs ninv <= M * (9 / 8 / INR n + eta))%R)
        by (apply Rmult_le_compat; auto using Cmod_ge_0, Rabs_pos).
      assert (E4 : (2 * u * (Cmod I' * Rabs ninv) <= 2 * u * (M * (9 / 8 / INR n + eta)))%R)
        by (apply Rmult_le_compat_l; lra).
      unfold se, scale_err. fold ie M. lra. }
    assert (Bs0 : (Cmod (RtoC (/ INR n) * I0)%C <= s)%R).
    { rewrite Cmod_mult, Cmod_R, (Rabs_right (/ INR n)) by lra.
      apply (Rmult_le_reg_l (INR n)); [lra|]. rewrite <- Rmult_assoc, Rinv_r, Rmult_1_l by lra. exact BI0. }
    assert (Bsc : (Cmod sc <= s + se)%R) by (pose proof (mod_sub sc (RtoC (/ INR n) * I0)); lra).
    set (ti := nth j (tf_twist_inv t) (RtoC 0)).
    set (ti0 := cexp (- (2 * PI * INR j / (4 * INR n)))).
    assert (Et : (Cmod (ti - ti0)%C <= tau)%R) by (apply (ac_twist _ _ _ _ _ _ Hac t Ht j Hj)).
    assert (Bt : (Cmod ti <= 1 + tau)%R).
    { pose proof (mod_sub ti ti0) as H. unfold ti0 in H at 2. rewrite cexp_mod in H. lra. }
    unfold unev. fold I0 ti0.
    replace (RtoC (/ INR n) * ti0 * I0) with ((RtoC (/ INR n) * I0) * ti0) by ring.
    eapply Rle_trans; [apply (mod_split _ (sc * ti))|].
    pose proof (fcmul_err fl u eta Hu Heta Hfl sc ti) as F1.
    pose proof (mul_err _ _ _ _ _ _ Esc Et) as F2. unfold ti0 in F2 at 2. rewrite cexp_mod, Rmult_1_r in F2.
    pose proof (Cmod_ge_0 sc). pose proof (Cmod_ge_0 ti).
    assert (F3 : (Cmod sc * Cmod ti <= (s + se) * (1 + tau))%R) by (apply Rmult_le_compat; lra).
    assert (F4 : (Cmod sc * tau <= (s + se) * tau)%R) by (apply Rmult_le_compat_r; lra).
    assert (F5 : (9 * u * (Cmod sc * Cmod ti) <= 9 * u * ((s + se) * (1 + tau)))%R) by (apply Rmult_le_compat_l; lra).
    unfold untwist_err. fold se. lra. }
  assert (Fst : forall j, nth j (map (fun p : Z * Z => IZR (fst p)) ps) 0%R = IZR (fst (nth j ps (0%Z, 0%Z)))).
  { intros j. change 0%R with ((fun p : Z * Z => IZR (fst p)) (0%Z, 0%Z)) at 1. apply map_nth. }
  assert (Snd : forall j, nth j (map (fun p : Z * Z => IZR (snd p)) ps) 0%R = IZR (snd (nth j ps (0%Z, 0%Z)))).
  { intros j. change 0%R with ((fun p : Z * Z => IZR (snd p)) (0%Z, 0%Z)) at 1. apply map_nth. }
  intros i Hi. destruct (Nat.lt_ge_cases i n) as [Hlt|Hge].
  - rewrite app_nth1 by (rewrite map_length; lia). rewrite Fst, N by exact Hlt. cbn [fst].
    eexists. split; [reflexivity|]. pose proof (Elem i Hlt) as H. eapply Rle_trans; [|exact H].
    match goal with |- (_ <= Cmod ?z)%R => pose proof (fst_mod z) as G end. exact G.
  - rewrite app_nth2 by (rewrite map_length; lia). rewrite map_length, Lps, Snd, N by lia. cbn [snd].
    eexists. split; [reflexivity|]. pose proof (Elem (i - n)%nat ltac:(lia)) as H. eapply Rle_trans; [|exact H].
    replace (n + (i - n))%nat with i by lia.
    match goal with |- (_ <= Cmod ?z)%R => pose proof (snd_mod z) as G end. exact G.
Qed.

(** The whole computation, up to the reduction modulo 2^w. *)
Lemma acc_err_pos L : forall e s, (0 <= e)%R -> (0 <= s)%R -> (0 <= acc_err n u eta tau delta A B L e s)%R.
Proof.
  induction L as [|L IH]; intros e s He Hs; cbn [acc_err]; [exact He|].
  pose proof (freq_pos n A HA). pose proof (freq_pos n B HB).
  pose proof (fwd_err_pos X n u eta tau delta Hac A HA). pose proof (fwd_err_pos X n u eta tau delta Hac B HB).
  pose proof Hu as H3. pose proof Heta as H4.
  apply IH.
  - unfold step_err, prod_err. generalize dependent (fq A). generalize dependent (fq B).
    generalize dependent (fe A). generalize dependent (fe B). clear - He Hs H3 H4. intros y Hy x Hx q Hq p Hp.
    assert (0 <= (p + x) * y)%R by (apply Rmult_le_pos; lra).
    assert (0 <= x * q)%R by (apply Rmult_le_pos; lra).
    assert (0 <= (p + x) * (q + y))%R by (apply Rmult_le_pos; lra).
    assert (0 <= 14 * u * (s + e + (p + x) * (q + y)))%R by (apply Rmult_le_pos; lra). lra.
  - apply Rplus_le_le_0_compat; [exact Hs|]. apply Rmult_le_pos; assumption.
Qed.

Lemma products_err ps :
  Forall (pair_len (2 * n)) ps -> Forall pair_bound ps ->
  exists acc t out,
    mad_products X x86 m w n (repeat (RtoC 0) n) ps = Ok acc /\ length acc = n /\
    get_fft X (Nat.log2 (2 * n)) = Ok t /\ reverse X t acc = Ok out /\ length out = (2 * n)%nat /\
    forall i, (i < 2 * n)%nat -> exists y0, nth i out 0%R = IZR (rround (ef_fl X y0)) /\
      (Rabs (ef_fl X y0 - IZR (sum_of_products (2 * n) w ps i)) <= fft_err n u eta tau delta A B (length ps))%R.
Proof.
  intros HL HBd.
  destruct (mad_products_err ps (repeat (RtoC 0) n) (fun _ => 0%Z) 0 0 HL HBd) as (acc & E & L & H).
  { apply repeat_length. }
  { intros k Hk. rewrite nth_repeat, ev_0. unfold Cminus. rewrite Cplus_opp_r, Cmod_0. lra. }
  destruct get_fft_new as (t & G & T).
  pose proof (acc_err_pos (length ps) 0 0 (Rle_refl 0) (Rle_refl 0)) as P1.
  pose proof (freq_pos n A HA) as Q1. pose proof (freq_pos n B HB) as Q2.
  assert (P2 : (0 <= INR (length ps) * (fq A * fq B))%R).
  { apply Rmult_le_pos; [apply pos_INR|]. apply Rmult_le_pos; assumption. }
  destruct (reverse_err t acc (sum_of_products (2 * n) w ps) _ _ T L P1 P2) as (out & R1 & R2 & R3).
  { intros k Hk. destruct (H k Hk) as [H1 H2].
    rewrite (ev_ext n k _ (sum_of_products (2 * n) w ps)) in H1, H2 by (intros; lia). split; [exact H1|lra]. }
  exists acc, t, out. repeat (split; [assumption|]). exact R3.
Qed.
End Acc.
