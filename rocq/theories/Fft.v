(** Model of the negacyclic FFT of sunscreen_tfhe: math/fft/negacyclic/mod.rs, entities/polynomial_fft.rs,
    [Polynomial::fft] and the scalar kernels of math/simd/scalar.rs it runs.

    f64 arithmetic. A double is the real number it denotes, and every f64 operation is the exact real operation
    followed by the rounding function [ef_fl]. The theorems say what they need of [ef_fl]; IEEE-754 binary64 round-to-nearest
    is one instance, and [fun x => x] is exact arithmetic. Infinities and NaN are outside the model: with words of at
    most 64 bits and degree at most 4096 no intermediate value comes near 2^1023.

    External code (recorded in the trusted base): the crate rustfft ([ef_fwd], [ef_inv]), libm's [sin_cos] and
    num-complex's [powf(-1)]. They are the fields of [ext], an argument of every function that calls them. *)
From Coq Require Import Reals ZArith List Lia Bool.
From Coquelicot Require Import Complex.
From Verif Require Export Base Tfhe.
From Verif Require Import Alu.
Import ListNotations.
Open Scope Z_scope.

(** The operations that are not in /repo: rounding of f64 arithmetic, [f64::sin_cos] (sine first), [Complex::powf(-1)], and
    rustfft's forward and inverse transforms (of the length of their argument, unnormalised). *)
Record ext := {
  ef_fl : R -> R;
  ef_sin_cos : R -> R * R;
  ef_powm1 : C -> C;
  ef_fwd : list C -> list C;
  ef_inv : list C -> list C;
}.

(** num-complex 0.4 [Mul for Complex<T>]: re = a.re*b.re - a.im*b.im, im = a.re*b.im + a.im*b.re. *)
Definition fcmul (fl : R -> R) (a b : C) : C :=
  (fl (fl (fst a * fst b) - fl (snd a * snd b)), fl (fl (fst a * snd b) + fl (snd a * fst b)))%R.
(** num-complex 0.4 [Mul<T> for Complex<T>]. *)
Definition fcscale (fl : R -> R) (a : C) (t : R) : C := (fl (fst a * t), fl (snd a * t))%R.
(** num-complex 0.4 [AddAssign for Complex<T>]. *)
Definition fcadd (fl : R -> R) (a b : C) : C := (fl (fst a + fst b), fl (snd a + snd b))%R.

(** [f64::floor], as an integer. *)
Definition rfloor (x : R) : Z := up x - 1.
(** [f64::round]: to the nearest integer, halves away from zero. *)
Definition rround (x : R) : Z := if Rle_dec 0 x then rfloor (x + / 2) else - rfloor (- x + / 2).
(** [f64::trunc]. *)
Definition rtrunc (x : R) : Z := if Rle_dec 0 x then rfloor x else - rfloor (- x).

(** sunscreen_tfhe/src/math/simd/scalar.rs:19-23 [complex_twist] (and simd/x86_64/avx2.rs:20-24, the same loop).
    [output] has the length of the plan at every call. *)
Fixpoint complex_twist (fl : R -> R) (re im : list R) (twist : list C) : list C :=
  match re, im, twist with
  | x :: re, y :: im, t :: twist => fcmul fl (x, y) t :: complex_twist fl re im twist
  | _, _, _ => []
  end.

(** sunscreen_tfhe/src/math/simd/scalar.rs:26-36 [complex_untwist] (and avx2.rs:28-37, the same loop). [untwist_loop] gives
    the pairs (output[i], output[i + len]); indexing [twist_inv[i]] out of range panics. *)
Fixpoint untwist_loop (fl : R -> R) (n_inv : R) (ifft twist_inv : list C) : res (list (Z * Z)) :=
  match ifft, twist_inv with
  | [], _ => Ok []
  | x :: ifft, t :: twist_inv =>
      let tmp := fcmul fl (fcscale fl x n_inv) t in
      rest <- untwist_loop fl n_inv ifft twist_inv ;;
      Ok ((rround (fst tmp), rround (snd tmp)) :: rest)
  | _ :: _, [] => Panic
  end.
Definition complex_untwist (fl : R -> R) (ifft twist_inv : list C) : res (list R) :=
  let n_inv := fl (1 / INR (length ifft))%R in
  ps <- untwist_loop fl n_inv ifft twist_inv ;;
  Ok (map (fun p => IZR (fst p)) ps ++ map (fun p => IZR (snd p)) ps).

(** sunscreen_tfhe/src/math/fft/negacyclic/mod.rs:28-37 [TwistedFft]: the plans are their common length. *)
Record twisted := { tf_len : nat; tf_twist : list C; tf_twist_inv : list C }.

(** sunscreen_tfhe/src/math/fft/negacyclic/mod.rs:45-83 [TwistedFft::new]. The debug assertion at 73-78 is not modelled (it
    checks the tables to 1e-15). *)
Definition twisted_new (X : ext) (n : nat) : res twisted :=
  if is_pow2 n then
    let fl := ef_fl X in
    let k := (n / 2)%nat in
    let n_2 := INR (n * 2) in
    let two_pi := fl (fl PI * 2)%R in
    let twist := map (fun x => let '(s, c) := ef_sin_cos X (fl (fl (two_pi * INR x) / n_2))%R in (c, s) : C) (seq 0 k) in
    Ok {| tf_len := k; tf_twist := twist; tf_twist_inv := map (ef_powm1 X) twist |}
  else Panic.

(** sunscreen_tfhe/src/math/fft/negacyclic/mod.rs:15-22 [get_fft]. *)
Definition get_fft (X : ext) (log_n : nat) : res twisted :=
  if (log_n <? 13)%nat then twisted_new X (2 ^ log_n) else Panic.

(** sunscreen_tfhe/src/math/fft/negacyclic/mod.rs:93-105 [TwistedFft::forward]. *)
Definition forward (X : ext) (t : twisted) (x : list R) : res (list C) :=
  if (length x =? tf_len t * 2)%nat then
    let n_div_2 := (length x / 2)%nat in
    Ok (ef_fwd X (complex_twist (ef_fl X) (firstn n_div_2 x) (skipn n_div_2 x) (tf_twist t)))
  else Panic.

(** sunscreen_tfhe/src/math/fft/negacyclic/mod.rs:107-120 [TwistedFft::reverse]. *)
Definition reverse (X : ext) (t : twisted) (data : list C) : res (list R) :=
  if (length data =? tf_len t)%nat then complex_untwist (ef_fl X) (ef_inv X data) (tf_twist_inv t) else Panic.

(** sunscreen_tfhe/src/entities/polynomial.rs:257-276 [PolynomialRef::fft] on words of [w] bits into a buffer of length
    [out]: [reinterpret_as_signed] then [as f64]. *)
Definition poly_fft (X : ext) (w : Z) (p : list Z) (out : nat) : res (list C) :=
  if is_pow2 (length p) && (length p =? out * 2)%nat then
    t <- get_fft X (Nat.log2 (length p)) ;;
    forward X t (map (fun x => ef_fl X (IZR (sint w x))) p)
  else Panic.

(** sunscreen_tfhe/src/math/torus.rs:177-193 [from_f64]: [x as iN] truncates and saturates. *)
Definition from_f64 (w : Z) (x : R) : Z := uwrap w (Z.max (- 2 ^ (w - 1)) (Z.min (2 ^ (w - 1) - 1) (rtrunc x))).

(** sunscreen_tfhe/src/math/simd/scalar.rs:100-102 [mod_q]: one rounding for the division, one for the fused
    multiply-add. *)
Definition mod_q (fl : R -> R) (val q : R) : R := fl (- IZR (rtrunc (fl (val / q))) * q + val)%R.

(** sunscreen_tfhe/src/math/simd/scalar.rs:74-118 [vector_mod_pow2_q_f64], one element (and simd/x86_64/avx2.rs:81-125, the
    same loop). [f64::from_bits((1023 + w) << 52)] is 2^w. *)
Definition mod_pow2_elem (fl : R -> R) (w : Z) (a : R) : Z :=
  let q := IZR (2 ^ w) in
  let q2 := IZR (2 ^ (w - 1)) in
  let v := mod_q fl a q in
  let v := if Rle_dec q2 v then fl (v - q)%R else if Rle_dec v (- q2) then fl (v + q)%R else v in
  from_f64 w v.

(** sunscreen_tfhe/src/entities/polynomial_fft.rs:82-101 [PolynomialFftRef::ifft] into a polynomial of length [n]. *)
Definition poly_ifft (X : ext) (w : Z) (p : list C) (n : nat) : res (list Z) :=
  if is_pow2 (length p) && (length p * 2 =? n)%nat then
    t <- get_fft X (Nat.log2 n) ;;
    ifft <- reverse X t p ;;
    Ok (map (mod_pow2_elem (ef_fl X) w) ifft)
  else Panic.

(** How [complex_mad] is computed: by the scalar loop or by the AVX-512 one. *)
Inductive mad_kernel := MadScalar | MadAvx512.

(** sunscreen_tfhe/src/math/simd/scalar.rs:12-16 [complex_mad], one element (also avx2.rs:12-16). *)
Definition mad_elem_scalar (fl : R -> R) (c a b : C) : C := fcadd fl c (fcmul fl a b).
(** sunscreen_tfhe/src/math/simd/x86_64/avx512.rs:56-59: the four fused multiply-adds, on the lanes of one element (the
    lanes themselves are in Avx512.v). *)
Definition mad_elem_fma (fl : R -> R) (c a b : C) : C :=
  (fl (- snd a * snd b + fl (fst a * fst b + fst c)), fl (snd a * fst b + fl (fst a * snd b + snd c)))%R.
Definition mad_elem (m : mad_kernel) : (R -> R) -> C -> C -> C -> C :=
  match m with MadScalar => mad_elem_scalar | MadAvx512 => mad_elem_fma end.

(** [c.iter_mut().zip(a.iter()).zip(b.iter())]. *)
Fixpoint mad_loop (f : C -> C -> C -> C) (c a b : list C) : list C :=
  match c, a, b with
  | x :: c, y :: a, z :: b => f x y z :: mad_loop f c a b
  | c, _, _ => c
  end.

(** sunscreen_tfhe/src/entities/polynomial_fft.rs:107-113 [multiply_add] and simd/x86_64/mod.rs:59-75,
    simd/generic/mod.rs:110-112 [complex_mad]. The alignment assertions (61-63) are not modelled: every buffer comes
    from an aligned allocation (Scratch.v, Dst.v). *)
Definition multiply_add (X : ext) (x86 : bool) (m : mad_kernel) (c a b : list C) : res (list C) :=
  if x86 && negb ((length c =? length a)%nat && (length b =? length a)%nat && (length a mod 8 =? 0)%nat) then Panic
  else Ok (mad_loop (mad_elem m (ef_fl X)) c a b).

(** The shape of every use in sunscreen_tfhe/src/ops/fft_ops.rs (decomposed_polynomial_glev_mad 67-97,
    glwe_polynomial_mad 107-127, cmux 171-178): clear the accumulator, then for each pair transform both polynomials,
    multiply-add, and transform back once. *)
Fixpoint mad_products (X : ext) (x86 : bool) (m : mad_kernel) (w : Z) (n2 : nat) (acc : list C)
    (ps : list (list Z * list Z)) : res (list C) :=
  match ps with
  | [] => Ok acc
  | (a, b) :: ps =>
      fa <- poly_fft X w a n2 ;;
      fb <- poly_fft X w b n2 ;;
      acc' <- multiply_add X x86 m acc fa fb ;;
      mad_products X x86 m w n2 acc' ps
  end.
Definition fft_sum_of_products (X : ext) (x86 : bool) (m : mad_kernel) (w : Z) (n2 : nat)
    (ps : list (list Z * list Z)) : res (list Z) :=
  acc <- mad_products X x86 m w n2 (repeat (RtoC 0) n2) ps ;;
  poly_ifft X w acc (n2 * 2).
