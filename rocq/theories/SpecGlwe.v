(** Vocabulary of the GLWE theorems: phases are polynomials modulo X^N + 1 and 2^w. *)
From Verif Require Import Base PolyRing Tfhe TfheGlwe SpecTfhe.
Open Scope Z_scope.

(** sum_i a_i * s_i in the ring. *)
Fixpoint pdots (N : nat) (a s : list (list Z)) : poly :=
  match a, s with x :: a, y :: s => padd (pmul N (coef x) (coef y)) (pdots N a s) | _, _ => p0 end.

(** The phase of a GLWE ciphertext under a key: b - sum_i a_i * s_i. *)
Definition glwe_phase (N : nat) (sk : list (list Z)) (c : glwe) : poly := psub (coef (gb c)) (pdots N (ga c) sk).

(** Shapes. *)
Definition polys_shape (N k : nat) (l : list (list Z)) : Prop := length l = k /\ Forall (fun p => length p = N) l.
Definition glwe_shape (N k : nat) (c : glwe) : Prop := polys_shape N k (ga c) /\ length (gb c) = N.
(** Shapes and machine-word coefficients. *)
Definition glwe_wf (w : Z) (N k : nat) (c : glwe) : Prop :=
  glwe_shape N k c /\ Forall (toruses w) (ga c) /\ toruses w (gb c).

(** All coefficients have magnitude at most [E]. *)
Definition pbnd (N : nat) (E : Z) (f : poly) : Prop := forall k, (k < N)%nat -> Z.abs (f k) <= E.
(** The sum of the magnitudes of the coefficients is at most [M]. *)
Definition l1bnd (N : nat) (M : Z) (f : poly) : Prop := zsum N (fun k => Z.abs (f k)) <= M.

(** A GLWE key with 0/1 coefficients. *)
Definition binary_polys (sk : list (list Z)) : Prop := Forall binary sk.

(** [glev] encrypts the polynomial [m] with noise at most [E]: entry j has phase m * 2^(w - log (j+1)). *)
Definition glev_enc (N k : nat) (w log E : Z) (sk : list (list Z)) (m : poly) (glev : list glwe) : Prop :=
  forall j c, nth_error glev j = Some c ->
    glwe_shape N k c /\ pnear N w E (glwe_phase N sk c) (pscale (2 ^ (w - log * (Z.of_nat j + 1))) m).

(** [ggsw] encrypts the polynomial [m]: row i < k is a GLEV encryption of - m * s_i, row k of m. *)
Definition ggsw_enc (N k count : nat) (w log E : Z) (sk : list (list Z)) (m : poly) (ggsw : list (list glwe)) : Prop :=
  length ggsw = S k /\ Forall (fun r => length r = count) ggsw /\
  (forall i s r, nth_error sk i = Some s -> nth_error ggsw i = Some r ->
     glev_enc N k w log E sk (popp (pmul N m (coef s))) r) /\
  (forall r, nth_error ggsw k = Some r -> glev_enc N k w log E sk m r).

(** [ksk] is a GLWE key-switch key: row i is a GLEV encryption of the old key's s_i under the new key. *)
Definition gksk_enc (N k count : nat) (w log E : Z) (oldsk newsk : list (list Z)) (ksk : list (list glwe)) : Prop :=
  Forall2 (fun s row => length row = count /\ glev_enc N k w log E newsk (coef s) row) oldsk ksk.

(** Randomness of one GLWE encryption: [k] masks of the right shape and an error polynomial bounded by [E]
    (or none). *)
Definition glwe_rnd_ok (N k : nat) (w E : Z) (r : list (list Z) * option (list Z)) : Prop :=
  polys_shape N k (fst r) /\ Forall (toruses w) (fst r) /\
  match snd r with None => True | Some e => poly_wf w N e /\ pnear N w E (coef e) p0 end.

(** The machines and build profiles on which [poly_add] / [poly_sub] are exact ring operations: everything
    except 64-bit words on x86 (a debug build with AVX2 aborts on wrap-around; [poly_sub] without AVX2 adds). *)
Definition add_exact (h : hw) (pr : profile) (w : Z) : Prop :=
  w = 32 \/ hw_x86 h = false \/ (hw_fma h && hw_avx2 h = false) \/ pr = Release.
Definition sub_exact (h : hw) (pr : profile) (w : Z) : Prop :=
  w = 32 \/ hw_x86 h = false \/ (hw_avx2 h = true /\ pr = Release).
(** The machines and build profiles on which [poly_small_scalar_mad] of polynomials of degree [N] is an exact ring operation: with AVX-512 and 64-bit words,
    AVX512DQ and degrees that are multiples of 16; otherwise release builds (debug builds abort on wrap-around). *)
Definition smad_exact (h : hw) (pr : profile) (w : Z) (N : nat) : Prop :=
  (hw_x86 h = true /\ w = 64 /\ hw_512f h = true /\ hw_512dq h = true /\ (N mod 16 = 0)%nat) \/
  ((hw_x86 h = false \/ w = 32 \/ hw_512f h = false) /\ pr = Release).

(** sum_i a_i * m_i in the ring. *)
Fixpoint pdotp (N : nat) (a : list (list Z)) (m : list poly) : poly :=
  match a, m with x :: a, y :: m => padd (pmul N (coef x) y) (pdotp N a m) | _, _ => p0 end.

(** The noise one gadget product adds when the message's 1-norm is at most [M] and the GLEV ciphertext's
    noise at most [E]: the rounding of the decomposition times the message, plus digits times noise. *)
Definition gadget_bound (N count : nat) (w log M E : Z) : Z :=
  2 ^ (w - log * Z.of_nat count - 1) * M + Z.of_nat count * (2 ^ (log - 1) * (Z.of_nat N * E)).

(** A buffer of the right shape whose body is zero, as [GlweCiphertext::new] makes them. *)
Definition glwe_fresh (N k : nat) (c : glwe) : Prop := glwe_shape N k c /\ Forall (eq 0) (gb c).
