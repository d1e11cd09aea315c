(** Vocabulary for the properties of the FFT: the discrete Fourier transform, the negacyclic product and IEEE-754 double
    precision, as mathematics. Nothing here refers to the model's FFT. *)
From Coq Require Import Reals ZArith List Lia.
From Coquelicot Require Import Complex.
From Verif Require Import Fft.
Import ListNotations.

(** e^{it}. *)
Definition cexp (t : R) : C := (cos t, sin t).
Fixpoint csum (n : nat) (f : nat -> C) : C :=
  match n with O => RtoC 0 | S n => Cplus (csum n f) (f n) end.
Fixpoint rsum (n : nat) (f : nat -> R) : R :=
  match n with O => 0%R | S n => (rsum n f + f n)%R end.

(** The discrete Fourier transform of length [length x]: X_k = sum_j x_j e^{sgn 2 pi i j k / n}. The forward transform has
    sgn = -1; neither direction divides by n. *)
Definition dft_at (sgn : R) (x : list C) (k : nat) : C :=
  csum (length x) (fun j => Cmult (nth j x (RtoC 0)) (cexp (sgn * (2 * PI) * INR j * INR k / INR (length x)))).
Definition dft (sgn : R) (x : list C) : list C := map (dft_at sgn x) (seq 0 (length x)).

(** Exact arithmetic: no rounding, exact trigonometry, and rustfft computing the transform it documents. *)
Definition exact_ext : ext :=
  {| ef_fl := fun x => x; ef_sin_cos := fun t => (sin t, cos t); ef_powm1 := Cinv;
     ef_fwd := dft (-1); ef_inv := dft 1 |}.

(** Coefficient [k] of the product of [a] and [b] in Z[X]/(X^N + 1), by the schoolbook rule X^(k+N) = - X^k. *)
Fixpoint sumz (n : nat) (f : nat -> Z) : Z := match n with O => 0%Z | S n => (sumz n f + f n)%Z end.
Definition negacyclic (N : nat) (a b : nat -> Z) (k : nat) : Z :=
  sumz N (fun i => sumz N (fun j =>
    if (i + j =? k)%nat then (a i * b j)%Z else if (i + j =? k + N)%nat then (- (a i * b j))%Z else 0%Z)).

(** The signed coefficients of a polynomial of [w]-bit words. *)
Definition scoef (w : Z) (p : list Z) (i : nat) : Z := sint w (nth i p 0%Z).
(** The sum of the products of the pairs, coefficient [k], over the integers. *)
Fixpoint sum_of_products (N : nat) (w : Z) (ps : list (list Z * list Z)) (k : nat) : Z :=
  match ps with
  | [] => 0%Z
  | (a, b) :: ps => (negacyclic N (scoef w a) (scoef w b) k + sum_of_products N w ps k)%Z
  end.
Definition pair_len (N : nat) (p : list Z * list Z) : Prop := length (fst p) = N /\ length (snd p) = N.

(** IEEE-754 binary64 (without the upper end of the exponent range): the doubles, and rounding to nearest. *)
Definition f64 (x : R) : Prop :=
  exists m e : Z, x = (IZR m * powerRZ 2 e)%R /\ (Z.abs m < 2 ^ 53)%Z /\ (-1074 <= e)%Z.
Record f64_rounding (fl : R -> R) : Prop := {
  fr_exact : forall x, f64 x -> fl x = x;
  fr_f64 : forall x, f64 (fl x);
  fr_error : forall x, (Rabs (fl x - x) <= powerRZ 2 (-53) * Rabs x + powerRZ 2 (-1075))%R;
}.

(** ** Rounding error

    How accurate the external parts are, for transforms of length [n] (polynomial degree 2n): [u], [eta] relative and absolute
    error of one f64 operation, [tau] error of the twiddle tables the program builds, [delta] error of a transform relative to the sum of
    the absolute values of its input. *)
Record accurate (X : ext) (n : nat) (u eta tau delta : R) : Prop := {
  ac_range : (0 <= u <= / 8 /\ 0 <= eta /\ 0 <= tau /\ 0 <= delta)%R;
  ac_fl : forall x, (Rabs (ef_fl X x - x) <= u * Rabs x + eta)%R;
  ac_twist : forall t, twisted_new X (2 * n) = Ok t -> forall j, (j < n)%nat ->
    (Cmod (Cminus (nth j (tf_twist t) (RtoC 0)) (cexp (2 * PI * INR j / (4 * INR n)))) <= tau)%R /\
    (Cmod (Cminus (nth j (tf_twist_inv t) (RtoC 0)) (cexp (- (2 * PI * INR j / (4 * INR n))))) <= tau)%R;
  ac_fwd : forall x, length x = n -> length (ef_fwd X x) = n /\ forall k, (k < n)%nat ->
    (Cmod (Cminus (nth k (ef_fwd X x) (RtoC 0)) (dft_at (-1) x k)) <= delta * rsum n (fun j => Cmod (nth j x (RtoC 0))))%R;
  ac_inv : forall x, length x = n -> length (ef_inv X x) = n /\ forall k, (k < n)%nat ->
    (Cmod (Cminus (nth k (ef_inv X x) (RtoC 0)) (dft_at 1 x k)) <= delta * rsum n (fun j => Cmod (nth j x (RtoC 0))))%R;
}.

(** The accumulated error of a sum of [L] products of polynomials of degree 2n with coefficients bounded by [A] and [B]. *)
Section ErrorBound.
Context (n : nat) (u eta tau delta : R).
Open Scope R_scope.
(** One twisted input. *)
Definition twist_err (A : R) : R :=
  9 * u * ((9 / 4 * A + 2 * eta) * (1 + tau)) + 7 * eta + (9 / 4 * A + 2 * eta) * tau + 2 * (u * A + eta).
(** One point of a forward transform, and its size. *)
Definition fwd_err (A : R) : R := INR n * (delta * (2 * A + twist_err A) + twist_err A).
Definition freq (A : R) : R := 2 * INR n * A.
(** The accumulator after [L] more products, from error [e] and size [s]. *)
Definition prod_err (A B : R) : R := (freq A + fwd_err A) * fwd_err B + fwd_err A * freq B.
Definition step_err (A B e s : R) : R :=
  e + prod_err A B + (14 * u * (s + e + (freq A + fwd_err A) * (freq B + fwd_err B)) + 11 * eta).
Fixpoint acc_err (A B : R) (L : nat) (e s : R) : R :=
  match L with O => e | S L => acc_err A B L (step_err A B e s) (s + freq A * freq B) end.
(** The inverse transform, the division by n and the untwisting, of points of size [s] known up to [e]. *)
Definition inv_err (e s : R) : R := INR n * (delta * (s + e) + e).
Definition scale_err (e s : R) : R :=
  let M := INR n * s + inv_err e s in
  2 * u * (M * (9 / 8 / INR n + eta)) + 2 * eta + M * (u / INR n + eta) + inv_err e s / INR n.
Definition untwist_err (e s : R) : R :=
  9 * u * ((s + scale_err e s) * (1 + tau)) + 7 * eta + (s + scale_err e s) * tau + scale_err e s.
(** Everything, before the final rounding to an integer. *)
Definition fft_err (A B : R) (L : nat) : R := untwist_err (acc_err A B L 0 0) (INR L * (freq A * freq B)).
End ErrorBound.
