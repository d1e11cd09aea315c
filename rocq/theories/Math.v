(** Model of the number theory helpers: sunscreen_math/src/ring/{mod.rs, barrett.rs}, sunscreen_math_macros/src/lib.rs,
    sunscreen_math/src/poly/mod.rs, sunscreen_tfhe/src/math/basic.rs, sunscreen_tfhe/src/iteration/triangular_pairs.rs. *)
From Verif Require Import Base.

(** * Barrett reduction *)

(** Values of Uint<N> are integers below 2^(64 N). crypto_bigint's mul_wide, wrapping_*, ct_lt, add_mod, sub_mod and rem are taken to
    compute what their documentation says. *)
Definition uint_lim (n : nat) : Z := 2 ^ (64 * Z.of_nat n).

(** barrett.rs:18-33 BarrettConfig. *)
Record barrett := { limbs : nat; modulus : Z; cR : Z; cS : Z; cT : Z }.

(** sunscreen_math_macros/src/lib.rs:32-46 emit_limbs: the magnitude, which must fit. *)
Definition emit_limbs (n : nat) (x : Z) : res Z := if Z.abs x <? uint_lim n then Ok (Z.abs x) else Panic.

(** sunscreen_math_macros/src/lib.rs:67-137 derive_barrett_config, for the integer the modulus literal denotes. `num_limbs - 1`
    underflows for 0 limbs; BigInt division truncates and panics on 0; a compile error is [Err]. *)
Definition derive_barrett (n : nat) (m : Z) : res barrett :=
  match n with
  | O => Panic
  | _ =>
      if 2 ^ (64 * Z.of_nat n - 1) <? m then Err EOther
      else if m =? 0 then Panic
      else
        let W := uint_lim n in
        let r := Z.quot W m in
        let s := Z.quot (W * W) m - W * r in
        let t := W - r * m in
        q' <- emit_limbs n m ;; r' <- emit_limbs n r ;; s' <- emit_limbs n s ;; t' <- emit_limbs n t ;;
        Ok {| limbs := n; modulus := q'; cR := r'; cS := s'; cT := t' |}
  end.

(** barrett.rs:59-63 reduce. *)
Definition reduce (c : barrett) (v : Z) : Z := if v <? modulus c then v else (v - modulus c) mod uint_lim (limbs c).
(** barrett.rs:56-86 barrett_reduce of lo + 2^(64 N) hi. *)
Definition barrett_reduce (c : barrett) (lo hi : Z) : Z :=
  let W := uint_lim (limbs c) in
  let asp := ((hi * cS c / W) * modulus c) mod W in
  let mod_hi := (hi * cT c) mod W in
  let mod_hi := (mod_hi - asp) mod W in
  let mod_hi := reduce c mod_hi in
  let q_hi := lo * cR c / W in
  let mod_lo := (lo - (q_hi * modulus c) mod W) mod W in
  let mod_lo := reduce c mod_lo in
  reduce c ((mod_lo + mod_hi) mod W).
(** barrett.rs:100-102 mul_mod. *)
Definition mul_mod (c : barrett) (a b : Z) : Z := barrett_reduce c (a * b mod uint_lim (limbs c)) (a * b / uint_lim (limbs c)).

(** * Zq *)

(** ring/mod.rs:555-567 TryFrom<Uint>. *)
Definition zq_try_from (c : barrett) (x : Z) : res Z := if modulus c <=? x then Err EOutOfRange else Ok x.
(** ring/mod.rs:575-586 From<u64>. *)
Definition zq_from_u64 (c : barrett) (x : Z) : Z := x mod modulus c.
(** ring/mod.rs:594-616 From<i64>. *)
Definition zq_from_i64 (c : barrett) (x : Z) : Z :=
  let a := Z.abs x in
  let neg_val := (modulus c - a) mod uint_lim (limbs c) in
  (if x <? 0 then neg_val else a) mod modulus c.
(** ring/mod.rs:395-403 add_mod, sub_mod (crypto_bigint; operands below the modulus); ring/mod.rs:530-544 neg. *)
Definition zq_add (c : barrett) (a b : Z) : Z := (a + b) mod modulus c.
Definition zq_sub (c : barrett) (a b : Z) : Z := (a - b) mod modulus c.
Definition zq_neg (c : barrett) (a : Z) : Z := zq_sub c 0 a.

(** * Rounded division *)

(** math/basic.rs:11-20 div_rounded, on unsigned operands (machine division truncates; `q + 1` cannot overflow for them unless the
    divisor is 1). *)
Definition div_rounded (bits : Z) (p : profile) (a b : Z) : res Z :=
  if b =? 0 then Panic
  else let q := a / b in let r := a mod b in if b / 2 <=? r then uadd p bits q 1 else Ok q.

(** * Triangular pairs *)

(** iteration/triangular_pairs.rs:19-40 next; the state is (outer_idx, inner_idx). Outer None: exhausted; inner None: index panic. *)
Definition tri_next {A} (items : list A) (st : nat * nat) : option (option (A * A) * (nat * nat)) :=
  let '(o, i) := st in
  if (length items <=? o)%nat then None
  else
    let r := match nth_error items o, nth_error items i with Some a, Some b => Some (a, b) | _, _ => None end in
    Some (r, if (length items <=? S i)%nat then (S o, S o) else (o, S i)).
(** collect() with at most [fuel] items. *)
Fixpoint tri_collect {A} (fuel : nat) (items : list A) (st : nat * nat) : option (list (A * A)) :=
  match fuel with
  | O => None
  | S fuel =>
      match tri_next items st with
      | None => Some []
      | Some (None, _) => None
      | Some (Some x, st) => match tri_collect fuel items st with Some l => Some (x :: l) | None => None end
      end
  end.

(** * Polynomials over a ring *)

Section Poly.
Context {R : Type} (rO rI : R) (radd rmul rsub : R -> R -> R) (ropp : R -> R) (req : R -> R -> bool).
Local Open Scope nat_scope.

(** poly/mod.rs:16-20: coefficients, constant term first. *)
Definition poly := list R.
Definition is_zero (r : R) : bool := req r rO.
(** poly/mod.rs:268-270. *)
Definition poly_is_zero (a : poly) : bool := forallb is_zero a.
(** poly/mod.rs:84-92 vartime_degree; the panic on zero polynomials is None. *)
Definition poly_degree (a : poly) : option nat :=
  if poly_is_zero a then None
  else Some (length a - 1 - (fix go l := match l with [] => 0 | c :: l => if is_zero c then S (go l) else 0 end) (rev a)).
(** poly/mod.rs:68-78 evaluate. *)
Definition poly_eval (a : poly) (x : R) : R :=
  fst (fold_left (fun '(e, pw) c => (radd e (rmul c pw), rmul pw x)) a (rO, rI)).
(** poly/mod.rs:170-188, 192-210. *)
Definition poly_zip (f : R -> R -> R) (a b : poly) : poly :=
  map (fun i => f (nth i a rO) (nth i b rO)) (seq 0 (Nat.max (length a) (length b))).
Definition poly_add := poly_zip radd.
Definition poly_sub := poly_zip rsub.
(** out[i + j] = a*b + out[i+j]. *)
Fixpoint upd_nth (i : nat) (f : R -> R) (l : poly) : poly :=
  match l, i with [], _ => [] | x :: l, O => f x :: l | x :: l, S i => x :: upd_nth i f l end.
(** poly/mod.rs:214-238. *)
Definition poly_mul (a b : poly) : poly :=
  match a, b with
  | [], _ | _, [] => []
  | _, _ =>
      fold_left (fun out i => fold_left (fun out j => upd_nth (i + j) (radd (rmul (nth i a rO) (nth j b rO))) out) (seq 0 (length b)) out)
        (seq 0 (length a)) (repeat rO ((length a - 1) + (length b - 1) + 1))
  end.
(** poly/mod.rs:242-258. *)
Definition poly_scale (a : poly) (c : R) : poly := map (fun x => rmul x c) a.
(** poly/mod.rs:284-293. *)
Definition poly_neg (a : poly) : poly := map ropp a.
(** poly/mod.rs:28-52 PartialEq. *)
Definition poly_eq (a b : poly) : bool :=
  match poly_degree a, poly_degree b with
  | None, None => true
  | None, Some _ | Some _, None => false
  | Some d, Some e => (d =? e) && forallb (fun i => req (nth i a rO) (nth i b rO)) (seq 0 d)
  end.
(** poly/mod.rs:113-152 vartime_div_rem_restricted_rhs; None is the panic for a zero divisor. *)
Definition poly_div_rem (a b : poly) : option (poly * poly) :=
  if poly_is_zero a then Some ([], [])
  else
    match poly_degree a, poly_degree b with
    | Some l, Some r =>
        if l <? r then Some ([], a)
        else
          let n := l - r + 1 in
          let step '(q, rem) i :=
            let scale := nth (l - i) rem rO in
            let rem := fold_left (fun rem j => upd_nth (l - i - j) (fun x => rsub x (rmul (nth (r - j) b rO) scale)) rem) (seq 0 (S r)) rem in
            (upd_nth (n - i - 1) (fun _ => scale) q, rem) in
          Some (fold_left step (seq 0 n) (repeat rO n, a))
    | _, _ => None
    end.
End Poly.
