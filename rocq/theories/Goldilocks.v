(** Model of sunscreen_tfhe/src/math/goldilocks_field.rs (the field F_p, p = 2^64 - 2^32 + 1), of the generic [Pow] of
    sunscreen_tfhe/src/math/mod.rs at 64-bit exponents, and of the tables of the naive NTT (math/fft/cyclic/mod.rs). An [Fg] is its
    u64 word, a [Z] in [0, 2^64). *)
From Coq Require Import ZArith List Bool.
From Verif Require Import Base Alu MuxGraph.
Import ListNotations.
Open Scope Z_scope.

(** goldilocks_field.rs:9 *)
Definition gp : Z := 0xFFFFFFFF00000001.

(** goldilocks_field.rs:39-45 [new] (also From<u64>, 82-86). *)
Definition fg_new (pr : profile) (x : Z) : res Z := if gp <? x then usub pr 64 x gp else Ok x.

(** goldilocks_field.rs:195-199, 222-227 [Fg96] and [reduce] *)
Record fg96 := { f96_lo : Z; f96_hi : Z }.
Definition fg96_reduce (pr : profile) (v : fg96) : res Z :=
  h <- ushl pr 64 (f96_hi v) 32 ;; prod <- usub pr 64 h (f96_hi v) ;;
  let r := uwrap 64 (prod + f96_lo v) in
  Ok (if (r <? prod) || (gp <=? r) then uwrap 64 (r - gp) else r).

(** goldilocks_field.rs:227-273 [Fg159], its conversion from u128 and [reduce] *)
Record fg159 := { f159_lo : Z; f159_mid : Z; f159_hi : Z }.
Definition fg159_of (pr : profile) (x : Z) : res fg159 :=
  m <- ushr pr 128 x 64 ;; h <- ushr pr 128 x 96 ;; Ok {| f159_lo := uwrap 64 x; f159_mid := uwrap 32 m; f159_hi := uwrap 64 h |}.
Definition fg159_reduce (pr : profile) (v : fg159) : res Z :=
  let l := uwrap 64 (f159_lo v - f159_hi v) in
  let l2 := if f159_lo v <? f159_hi v then uwrap 64 (l + gp) else l in
  m <- ushl pr 64 (f159_mid v) 32 ;; prod <- usub pr 64 m (f159_mid v) ;;
  let r := uwrap 64 (l2 + prod) in
  Ok (if (r <? prod) || (gp <=? r) then uwrap 64 (r - gp) else r).

(** goldilocks_field.rs:48-55 [unreduced_add], 58-60 [unreduced_sub] *)
Definition fg_unreduced_add (a b : Z) : fg96 := {| f96_lo := uwrap 64 (a + b); f96_hi := if 2 ^ 64 <=? a + b then 1 else 0 |}.
Definition fg_unreduced_sub (pr : profile) (a b : Z) : res fg96 := nb <- usub pr 64 gp b ;; Ok (fg_unreduced_add a nb).
(** goldilocks_field.rs:63-67 [unreduced_mul], 71-75 [unreduced_mad], 79-81 [mad], 110-118 [Mul] *)
Definition fg_unreduced_mul (pr : profile) (a b : Z) : res fg159 := x <- umul pr 128 a b ;; fg159_of pr x.
Definition fg_unreduced_mad (pr : profile) (a b c : Z) : res fg159 := x <- umul pr 128 a b ;; y <- uadd pr 128 x c ;; fg159_of pr y.
Definition fg_mul (pr : profile) (a b : Z) : res Z := v <- fg_unreduced_mul pr a b ;; fg159_reduce pr v.
Definition fg_mad (pr : profile) (a b c : Z) : res Z := v <- fg_unreduced_mad pr a b c ;; fg159_reduce pr v.

(** goldilocks_field.rs:88-108 [Add] *)
Definition fg_add (a b : Z) : Z :=
  let r := uwrap 64 (a + b) in
  if (2 ^ 64 <=? a + b) || (gp <=? r) then uwrap 64 (r + 0xFFFFFFFF) else r.
(** goldilocks_field.rs:120-135 [Sub]: the offset is 2^32 - 1 if the subtraction borrowed, 0 otherwise. *)
Definition fg_sub (a b : Z) : Z :=
  let r := uwrap 64 (a - b) in
  uwrap 64 (r - uwrap 32 (0 - (if a <? b then 1 else 0))).
(** goldilocks_field.rs:137-143 [Neg] *)
Definition fg_neg (pr : profile) (a : Z) : res Z := usub pr 64 gp a.
(** goldilocks_field.rs:173-183 [Zero] *)
Definition fg_is_zero (a : Z) : bool := a =? 0.

(** math/mod.rs:68-81 [pow]: 64 rounds of square and multiply, whatever the exponent. *)
Fixpoint fg_pow_loop (pr : profile) (exp : Z) (fuel : nat) (i result power : Z) : res Z :=
  match fuel with
  | O => Ok result
  | S f => s <- ushr pr 64 exp i ;;
      result <- (if Z.land s 1 =? 1 then fg_mul pr result power else Ok result) ;;
      power <- fg_mul pr power power ;; fg_pow_loop pr exp f (i + 1) result power
  end.
Definition fg_pow (pr : profile) (x exp : Z) : res Z := fg_pow_loop pr exp 64 0 1 x.
(** goldilocks_field.rs:185-189 [inverse] *)
Definition fg_inverse (pr : profile) (x : Z) : res Z := e <- usub pr 64 gp 2 ;; fg_pow pr x e.
(** goldilocks_field.rs:19-35 [nth_root_of_unity]; is_power_of_two: exactly one bit set. *)
Definition gC : Z := 12037493425763644479.
Definition is_pow2 (n : Z) : bool := (0 <? n) && (n =? 2 ^ Z.log2 n).
Definition fg_root (pr : profile) (n : Z) : res Z := if is_pow2 n then fg_pow pr gC (0x100000000 / n) else Panic.

(** math/fft/cyclic/mod.rs:62-100 [NaiveNtt::new] over this field, for a size that fits u64. *)
Record ntt := { ntt_twiddle : list Z; ntt_inv_twiddle : list Z; ntt_n_inv : Z }.
Definition ntt_new (pr : profile) (n : nat) : res ntt :=
  root <- fg_root pr (Z.of_nat n) ;; inv_root <- fg_inverse pr root ;;
  tw <- mapM (fun i => fg_pow pr root (Z.of_nat i)) (seq 0 n) ;;
  itw <- mapM (fun i => fg_pow pr inv_root (Z.of_nat i)) (seq 0 n) ;;
  m <- fg_new pr (Z.of_nat n) ;; ni <- fg_inverse pr m ;;
  Ok {| ntt_twiddle := tw; ntt_inv_twiddle := itw; ntt_n_inv := ni |}.
