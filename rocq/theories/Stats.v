(** Model of sunscreen_math/src/stats.rs, sunscreen_math/src/geometry.rs and the domain checks of sunscreen_math/src/security.rs.

    A double is a real number and [fl] the rounding of one operation (SpecFft.v, [f64_rounding]). Infinities are not modelled:
    the statements are about samples whose squared differences stay below the largest double. *)
From Coq Require Import Reals ZArith List Bool.
From Verif Require Import Base Fft.
Import ListNotations.
Open Scope R_scope.

(** ** stats.rs *)

(** stats.rs:5-9 [RunningMeanVariance]. *)
Record running := { rm_mean : R; rm_var : R; rm_k : nat }.
(** stats.rs:15-21 [new]. *)
Definition rm_new : running := {| rm_mean := 0; rm_var := 0; rm_k := 0 |}.
(** stats.rs:26-44 [add_sample]. [self.k as f64] is exact below 2^53 samples; it is rounded here for every count. *)
Definition add_sample (fl : R -> R) (s : running) (x : R) : running :=
  match rm_k s with
  | O => {| rm_mean := x; rm_var := 0; rm_k := 1 |}
  | S _ =>
      let k := S (rm_k s) in
      let new_mean := fl (rm_mean s + fl (fl (x - rm_mean s) / fl (INR k))) in
      let new_variance := fl (rm_var s + fl (fl (x - rm_mean s) * fl (x - new_mean))) in
      {| rm_mean := new_mean; rm_var := new_variance; rm_k := k |}
  end.
(** A calculator after the samples [xs], in order. *)
Definition rm_run (fl : R -> R) (xs : list R) : running := fold_left (add_sample fl) xs rm_new.
(** stats.rs:56-58 [variance]; [None] is the NaN of 0/0 when there is no sample. *)
Definition rm_variance (fl : R -> R) (s : running) : option R :=
  match rm_k s with O => None | S _ => Some (fl (rm_var s / fl (INR (rm_k s)))) end.
(** stats.rs:63-65 [std]; [None] is NaN, also for the square root of a negative number. *)
Definition rm_std (fl : R -> R) (s : running) : option R :=
  match rm_variance fl s with
  | Some v => if Rlt_dec v 0 then None else Some (fl (sqrt v))
  | None => None
  end.

(** ** geometry.rs *)

(** geometry.rs:28-31 [HalfSpace2D]. *)
Record half_space := { hs_a : R * R; hs_b : R }.
(** geometry.rs:40-42 [HalfSpace2D::inside] on the point (x, y). *)
Definition hs_inside (fl : R -> R) (h : half_space) (p : R * R) : bool :=
  if Rle_dec (fl (fl (fst (hs_a h) * fst p) + fl (snd (hs_a h) * snd p))) (hs_b h) then true else false.
(** geometry.rs:61-65 [ConvexPolytope2D::inside]. *)
Definition poly_inside (fl : R -> R) (hs : list half_space) (p : R * R) : bool := forallb (fun h => hs_inside fl h p) hs.
(** geometry.rs:68-80 [ConvexPolytope2D::violations]. *)
Definition violations (fl : R -> R) (hs : list half_space) (p : R * R) : list half_space := filter (fun h => negb (hs_inside fl h p)) hs.

(** ** security.rs *)

(** security.rs:166-176 the region of [lwe_security_level_to_std]. Decimal literals are rounded to doubles. *)
Definition level_polytope (fl : R -> R) : list half_space :=
  [ {| hs_a := (-1, 0); hs_b := -368 |}; {| hs_a := (1, 0); hs_b := 2048 |}; {| hs_a := (0, -1); hs_b := -78 |}; {| hs_a := (0, 1); hs_b := 130 |};
    {| hs_a := (fl (5678074392712544 / 100000000000000000), -1); hs_b := fl (35151045883938177 / 10000000000000000) |} ].
(** security.rs:165-184 [lwe_security_level_to_std] up to the domain check: true when the fitted polynomial is evaluated. *)
Definition level_to_std_accepts (fl : R -> R) (dimension : Z) (level : R) : bool :=
  poly_inside fl (level_polytope fl) (fl (IZR dimension), level).
(** security.rs:247-257 the region of [lwe_std_to_security_level]. *)
Definition std_polytope (fl : R -> R) : list half_space :=
  [ {| hs_a := (-1, 0); hs_b := -386 |}; {| hs_a := (1, 0); hs_b := 2048 |};
    {| hs_a := (fl (- 12501482876757172 / 1000000000000000000), -1); hs_b := fl (- 5040411014606384 / 10000000000000000) |};
    {| hs_a := (fl (77927720025765665 / 10000000000000000000), 1); hs_b := fl (7390928205510939 / 10000000000000000) |};
    {| hs_a := (0, -1); hs_b := fl (1767 / 100) |} ].
(** security.rs:244-265 [lwe_std_to_security_level] up to the domain check; [log_std] is the double [std.log10()] returned. *)
Definition std_to_level_accepts (fl : R -> R) (dimension : Z) (log_std : R) : bool :=
  poly_inside fl (std_polytope fl) (fl (IZR dimension), log_std).
