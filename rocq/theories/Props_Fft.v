(** C103, C104: multiplication of polynomials through the floating-point FFT. *)
From Coq Require Import Reals ZArith List Lia Lra Bool.
From Coquelicot Require Import Complex.
From Verif Require Import Fft SpecFft FftProofs5 FftProofs6 FftFloat.
Import ListNotations.
Open Scope Z_scope.

Lemma half_pow log : (1 <= log)%nat -> (2 * 2 ^ (log - 1) = 2 ^ log)%nat.
Proof. intros H. rewrite <- Nat.pow_succ_r by lia. f_equal. lia. Qed.
Lemma small_pow log : (1 <= log <= 12)%nat -> (0 < 2 ^ (log - 1) /\ 2 ^ log <= 4096)%nat.
Proof.
  intros H. split; [pose proof (Nat.pow_nonzero 2 (log - 1)); lia|].
  change 4096%nat with (2 ^ 12)%nat. apply Nat.pow_le_mono_r; lia.
Qed.
Lemma mod8_pow log : (4 <= log)%nat -> (2 ^ (log - 1) mod 8 = 0)%nat.
Proof.
  intros H. replace (log - 1)%nat with ((log - 4) + 3)%nat by lia. rewrite Nat.pow_add_r. change (2 ^ 3)%nat with 8%nat.
  apply Nat.mod_mul. lia.
Qed.

(** C103. With exact arithmetic, for every degree 2^log up to 4096 (from 16 on x86, where shorter buffers panic), every word size,
    both multiply-add kernels and every list of pairs of polynomials: clearing an accumulator, adding the product of each
    pair in the Fourier domain and transforming back gives the sum of the negacyclic products of the signed coefficients modulo
    2^w - except that a coefficient whose remainder (with the sign of the dividend) is exactly -2^(w-1) comes out as
    2^(w-1) - 1, one too small. *)
Theorem C103_fft_product_partial : forall log w x86 m ps,
  (1 <= log <= 12)%nat -> (x86 = true -> (4 <= log)%nat) -> 1 <= w ->
  Forall (pair_len (2 ^ log)) ps ->
  exists out, fft_sum_of_products exact_ext x86 m w (2 ^ (log - 1)) ps = Ok out /\ length out = (2 ^ log)%nat /\
    forall k, (k < 2 ^ log)%nat ->
      let v := sum_of_products (2 ^ log) w ps k in
      nth k out 0 = if Z.rem v (2 ^ w) =? - 2 ^ (w - 1) then 2 ^ (w - 1) - 1 else v mod 2 ^ w.
Proof.
  intros log w x86 m ps Hl Hx Hw HL. destruct (small_pow log Hl) as [P1 P2].
  rewrite <- (half_pow log) in * by lia.
  apply exact_sum; auto using is_pow2_pow. intros E. apply mod8_pow. auto.
Qed.
Print Assumptions C103_fft_product_partial.

(** A concrete case: degree 16, X * X^15 = -1. *)
Example C103_meets : let a := 0 :: 1 :: repeat 0 14 in let b := repeat 0 15 ++ [1] in
  Forall (pair_len (2 ^ 4)) [(a, b)] /\ sum_of_products (2 ^ 4) 64 [(a, b)] 0 = -1 /\
  sum_of_products (2 ^ 4) 64 [(a, b)] 1 = 0.
Proof. split; [repeat constructor|]. split; vm_compute; reflexivity. Qed.

(** The product is not always right modulo 2^w, even in exact arithmetic: (-2^63) * 1 comes out as 2^63 - 1. *)
Theorem C103_fft_product_refuted :
  exists out, fft_sum_of_products exact_ext true MadScalar 64 8 [(2 ^ 63 :: repeat 0 15, 1 :: repeat 0 15)] = Ok out /\
    sum_of_products 16 64 [(2 ^ 63 :: repeat 0 15, 1 :: repeat 0 15)] 0 = - 2 ^ 63 /\
    nth 0 out 0 = 2 ^ 63 - 1 /\ nth 0 out 0 mod 2 ^ 64 <> (- 2 ^ 63) mod 2 ^ 64.
Proof.
  destruct (C103_fft_product_partial 4 64 true MadScalar [(2 ^ 63 :: repeat 0 15, 1 :: repeat 0 15)]) as (out & E & L & H).
  - lia.
  - lia.
  - lia.
  - repeat constructor.
  - exists out. split; [exact E|]. specialize (H 0%nat ltac:(change (2 ^ 4)%nat with 16%nat; lia)).
    assert (V : sum_of_products (2 ^ 4) 64 [(2 ^ 63 :: repeat 0 15, 1 :: repeat 0 15)] 0 = - 2 ^ 63) by (vm_compute; reflexivity).
    rewrite V in H. change (nth 0 out 0 = 2 ^ 63 - 1) in H. rewrite H. split; [exact V|]. split; [reflexivity|].
    vm_compute. discriminate.
Qed.
Print Assumptions C103_fft_product_refuted.

(** What transforms accept: exactly the lengths 2^log, 1 <= log <= 12, into a buffer of half the length; and back. Everything else
    panics, whatever the arithmetic. *)
Theorem C103_fft_domain : forall X w p out,
  (exists f, poly_fft X w p out = Ok f) <->
  (exists log, (log <= 12)%nat /\ length p = (2 ^ log)%nat /\ (2 * out = 2 ^ log)%nat).
Proof.
  intros X w p out. unfold poly_fft. split.
  - intros (f & H). destruct (is_pow2 (length p)) eqn:E1; [|discriminate].
    destruct (Nat.eqb_spec (length p) (out * 2)) as [E2|E2]; [|discriminate]. cbn [andb] in H.
    unfold is_pow2 in E1. apply andb_true_iff in E1. destruct E1 as [_ E1]. apply Nat.eqb_eq in E1.
    exists (Nat.log2 (length p)). unfold get_fft in H.
    destruct (Nat.ltb_spec (Nat.log2 (length p)) 13); [|discriminate]. split; [lia|]. split; [lia|]. lia.
  - intros (log & Hl & HL & HO). rewrite HL, is_pow2_pow. replace (2 ^ log =? out * 2)%nat with true by (symmetry; apply Nat.eqb_eq; lia).
    cbn [andb]. rewrite Nat.log2_pow2 by lia. unfold get_fft. rewrite (proj2 (Nat.ltb_lt _ _)) by lia.
    unfold twisted_new. rewrite is_pow2_pow. cbn [bind]. unfold forward. cbn [tf_len]. rewrite map_length, HL.
    replace (2 ^ log / 2 * 2)%nat with (2 ^ log)%nat by (rewrite <- HO, (Nat.mul_comm 2 out), Nat.div_mul; lia).
    rewrite Nat.eqb_refl. eauto.
Qed.
Print Assumptions C103_fft_domain.

(** On x86 a product of polynomials with fewer than 16 coefficients panics, whatever the arithmetic (elsewhere it does not:
    [C103_fft_product_partial]). *)
Theorem C103_short_products : forall X m w log a b, (1 <= log <= 3)%nat ->
  length a = (2 ^ log)%nat -> length b = (2 ^ log)%nat ->
  fft_sum_of_products X true m w (2 ^ (log - 1)) [(a, b)] = Panic.
Proof.
  intros X m w log a b Hl Ha Hb. unfold fft_sum_of_products. cbn [mad_products].
  destruct (proj2 (C103_fft_domain X w a (2 ^ (log - 1)))) as (fa & Ea).
  { exists log. split; [lia|]. split; [exact Ha|]. apply half_pow. lia. }
  destruct (proj2 (C103_fft_domain X w b (2 ^ (log - 1)))) as (fb & Eb).
  { exists log. split; [lia|]. split; [exact Hb|]. apply half_pow. lia. }
  rewrite Ea. cbn [bind]. rewrite Eb. cbn [bind]. unfold multiply_add. cbn [andb].
  rewrite repeat_length.
  destruct (Nat.eqb_spec (2 ^ (log - 1)) (length fa)) as [E|E]; [|reflexivity].
  destruct (Nat.eqb_spec (length fb) (length fa)); [|reflexivity]. cbn [andb].
  destruct (Nat.eqb_spec (length fa mod 8) 0) as [E8|]; [|reflexivity]. exfalso. rewrite <- E in E8.
  destruct log as [|[|[|[|?]]]]; try lia; cbn in E8; discriminate.
Qed.
Print Assumptions C103_short_products.

(** C104. With rounded arithmetic. Let every f64 operation be correctly rounded, let the tables and the transforms of length n =
    2^(log-1) have the accuracy (u, eta, tau, delta), and let the coefficients of the left and right polynomials be bounded by A
    and B. Then the sum of products never panics, and every coefficient is the true one plus an integer error of at most
    [fft_err n u eta tau delta A B (number of products)] + 3/2, modulo 2^w. *)
Theorem C104_fft_error : forall X log w x86 m u eta tau delta A B ps,
  (1 <= log <= 12)%nat -> (x86 = true -> (4 <= log)%nat) -> 1 <= w <= 1000 ->
  f64_rounding (ef_fl X) -> accurate X (2 ^ (log - 1)) u eta tau delta -> (0 <= A)%R -> (0 <= B)%R ->
  Forall (pair_len (2 ^ log)) ps ->
  Forall (fun p => forall i, (i < 2 ^ log)%nat ->
    (Rabs (IZR (scoef w (fst p) i)) <= A)%R /\ (Rabs (IZR (scoef w (snd p) i)) <= B)%R) ps ->
  exists out, fft_sum_of_products X x86 m w (2 ^ (log - 1)) ps = Ok out /\ length out = (2 ^ log)%nat /\
    forall k, (k < 2 ^ log)%nat -> exists d : Z,
      (Rabs (IZR d) <= fft_err (2 ^ (log - 1)) u eta tau delta A B (length ps) + 3 / 2)%R /\
      nth k out 0 = (sum_of_products (2 ^ log) w ps k + d) mod 2 ^ w.
Proof.
  intros X log w x86 m u eta tau delta A B ps Hl Hx Hw Hr Hac HA HB HL HBd. destruct (small_pow log Hl) as [P1 P2].
  rewrite <- (half_pow log) in * by lia.
  apply float_err; auto using is_pow2_pow.
  - intros E. apply mod8_pow. auto.
  - eapply Forall_impl; [|exact HBd]. intros p H. split; intros i Hi; apply H; exact Hi.
Qed.
Print Assumptions C104_fft_error.

(** When the error bound is below 1/2 the FFT computes the same as exact arithmetic. *)
Theorem C104_fft_exact_when_small : forall X log w x86 m u eta tau delta A B ps,
  (1 <= log <= 12)%nat -> (x86 = true -> (4 <= log)%nat) -> 1 <= w <= 1000 ->
  f64_rounding (ef_fl X) -> accurate X (2 ^ (log - 1)) u eta tau delta -> (0 <= A)%R -> (0 <= B)%R ->
  Forall (pair_len (2 ^ log)) ps ->
  Forall (fun p => forall i, (i < 2 ^ log)%nat ->
    (Rabs (IZR (scoef w (fst p) i)) <= A)%R /\ (Rabs (IZR (scoef w (snd p) i)) <= B)%R) ps ->
  (fft_err (2 ^ (log - 1)) u eta tau delta A B (length ps) < / 2)%R ->
  exists out, fft_sum_of_products X x86 m w (2 ^ (log - 1)) ps = Ok out /\ length out = (2 ^ log)%nat /\
    forall k, (k < 2 ^ log)%nat ->
      let v := sum_of_products (2 ^ log) w ps k in
      nth k out 0 = if Z.rem v (2 ^ w) =? - 2 ^ (w - 1) then 2 ^ (w - 1) - 1 else v mod 2 ^ w.
Proof.
  intros X log w x86 m u eta tau delta A B ps Hl Hx Hw Hr Hac HA HB HL HBd Hs. destruct (small_pow log Hl) as [P1 P2].
  rewrite <- (half_pow log) in * by lia.
  eapply float_exact with (A := A) (B := B); eauto using is_pow2_pow.
  - intros E. apply mod8_pow. auto.
  - eapply Forall_impl; [|exact HBd]. intros p H. split; intros i Hi; apply H; exact Hi.
Qed.
Print Assumptions C104_fft_exact_when_small.

(** IEEE-754 double precision, with the tables computed as in the program, meets the hypotheses. *)
Theorem C104_double_precision : forall log, (1 <= log)%nat ->
  f64_rounding (ef_fl f64_ext) /\
  accurate f64_ext (2 ^ (log - 1)) (powerRZ 2 (-53)) (powerRZ 2 (-1075)) (powerRZ 2 (-47)) 0.
Proof.
  intros log Hl. split; [apply rnd64_rounding|]. apply f64_accurate. pose proof (Nat.pow_nonzero 2 (log - 1)). lia.
Qed.
Print Assumptions C104_double_precision.

(** The bound at degree 16 with coefficients up to 256. *)
Example C104_small_bound :
  (fft_err (2 ^ (4 - 1)) (powerRZ 2 (-53)) (powerRZ 2 (-1075)) (powerRZ 2 (-47)) 0 256 256 1 < / 2)%R.
Proof.
  assert (P : (0 < powerRZ 2 (-1075) <= powerRZ 2 (-53))%R).
  { split; [apply powerRZ_lt; lra|]. unfold powerRZ. apply Rinv_le_contravar; [apply pow_lt; lra|]. apply Rle_pow; [lra|lia]. }
  change (2 ^ (4 - 1))%nat with 8%nat.
  assert (E8 : INR 8 = 8%R) by (simpl; lra). assert (E1: INR 1 = 1%R) by reflexivity.
  unfold fft_err, acc_err, step_err, prod_err, untwist_err, scale_err, inv_err, fwd_err, freq, twist_err.
  rewrite E8, E1.
  assert (U : powerRZ 2 (-53) = (/ 9007199254740992)%R) by (simpl; lra).
  assert (T : powerRZ 2 (-47) = (/ 140737488355328)%R) by (simpl; lra).
  rewrite U, T in *. set (e := powerRZ 2 (-1075)) in *. clearbody e. nra.
Qed.
