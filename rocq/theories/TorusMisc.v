(** Model of sunscreen_tfhe/src/rand.rs and of the conversions between torus elements and f64 in sunscreen_tfhe/src/math/torus.rs.

    [w] is the word size (32 or 64). A double is a real number and [fl] the rounding of one operation (SpecFft.v, [f64_rounding]);
    infinities and NaN do not occur (the operands are bounded). The random generator is an argument: [v] is what
    [thread_rng().next_u64()] returned and [e0] what sampling the normal distribution returned. *)
From Coq Require Import Reals ZArith List.
From Verif Require Import Base Tfhe Fft.
Import ListNotations.
Open Scope Z_scope.

(** torus.rs:127-137 [FromU64::from_u64]: u32 keeps [val & 0xFFFFFFFF], u64 keeps [val]. *)
Definition from_u64 (w v : Z) : Z := if w =? 32 then Z.land v 4294967295 else v.
(** torus.rs:139-149 [ToF64::to_f64]: [self as f64]. *)
Definition to_f64 (fl : R -> R) (x : Z) : R := fl (IZR x).

(** torus.rs:263-270 [Torus::normalized_torus]. [2_f64.powi(BITS)] is a power of two, exactly represented. *)
Definition normalized_torus (fl : R -> R) (w x : Z) : R := fl (to_f64 fl x / IZR (2 ^ w))%R.
(** torus.rs:235-249 [normalized_torus_distance]. Torus subtraction wraps; the comparison is that of the words. *)
Definition normalized_torus_distance (fl : R -> R) (w a b : Z) : R :=
  let a_minus_b := tsub w a b in
  let b_minus_a := tsub w b a in
  let difference := if a_minus_b <? b_minus_a then (- to_f64 fl a_minus_b)%R else to_f64 fl b_minus_a in
  fl (difference / IZR (2 ^ w))%R.

(** torus.rs:302-315 [Torus::switch_modulus_smaller] from words of [s] bits to words of [t] bits. [S::BITS - T::BITS] is a u32
    subtraction (it wraps in release builds), the shift is checked in debug builds and masked in release builds, and [try_from]
    fails when the value does not fit. *)
Definition switch_modulus_smaller (pr : profile) (s t x : Z) : res Z :=
  bind (usub pr 32 s t) (fun shift =>
  bind (ushr pr s x shift) (fun y =>
  if y <? 2 ^ t then Ok y else Panic)).

(** rand.rs:18-29 [normal_torus]: [f64::round(e_0 * q) as i64] rounds half away from zero and saturates; [cast_unsigned]
    reinterprets. [Normal::new(0., std)] fails only for standard deviations that are not finite. *)
Definition normal_torus (fl : R -> R) (w : Z) (e0 : R) : Z :=
  let e := rround (fl (e0 * IZR (2 ^ w))%R) in
  let e := Z.max (- 2 ^ 63) (Z.min (2 ^ 63 - 1) e) in
  from_u64 w (uwrap 64 e).
(** rand.rs:32-34 [uniform_torus]. *)
Definition uniform_torus (w v : Z) : Z := from_u64 w v.
(** rand.rs:37-39 [binary]. *)
Definition binary_sample (w v : Z) : Z := from_u64 w (v mod 2).
(** rand.rs:42-46 [binary_torus_polynomial]: one draw per coefficient. *)
Definition binary_polynomial (w : Z) (vs : list Z) : list Z := map (binary_sample w) vs.
(** rand.rs:50-54 [normal_torus_polynomial]: one draw per coefficient. *)
Definition normal_polynomial (fl : R -> R) (w : Z) (es : list R) : list Z := map (normal_torus fl w) es.
