(** Model of the automorphism X -> X^k, automorphism keys, the homomorphic trace and the power-of-two modulus
    switch of sunscreen_tfhe. The floating-point convention is that of TfheBoot.v. *)
From Verif Require Export TfheBoot.
From Verif Require Import Alu MuxGraph.
Open Scope Z_scope.

(** sunscreen_tfhe/src/ops/polynomial/mod.rs:62-87 [polynomial_pow_k]. [mul] multiplies a coefficient by the
    sign ([S * T]): wrapping for torus elements, the plain integer product for key coefficients. *)
Definition poly_pow_k (w : Z) (mul : Z -> Z -> res Z) (out p : list Z) (k : nat) : res (list Z) :=
  let N := length p in
  if (length p =? length out)%nat && is_pow2 N then
    foldM (fun acc i =>
      x <- mul (nth i p 0) (if Nat.even (i * k / N) then 1 else 2 ^ w - 1) ;;
      Ok (upd acc (i * k mod N) (fun _ => x))) (seq 0 N) out
  else Panic.
(** [for (o, x) in out.zip(x) { polynomial_pow_k(o, x, k) }]. *)
Fixpoint polys_pow_k (w : Z) (mul : Z -> Z -> res Z) (out p : list (list Z)) (k : nat) : res (list (list Z)) :=
  match out, p with
  | o :: out, x :: p => o' <- poly_pow_k w mul o x k ;; out' <- polys_pow_k w mul out p k ;; Ok (o' :: out')
  | out, _ => Ok out
  end.
(** The product of a torus element and a sign wraps (sunscreen_tfhe/src/math/torus.rs, [Mul<S> for Torus<S>]). *)
Definition mul_torus (w x s : Z) : res Z := Ok (tmul w x s).

(** The exponent of step i (1-based): sunscreen_tfhe/src/ops/automorphisms/mod.rs:36 and 72. *)
Definition trace_exp (N i : nat) : nat := (N / 2 ^ (i - 1) + 1)%nat.

(** sunscreen_tfhe/src/ops/automorphisms/mod.rs:35-43; [i] counts from 1; [sc] is the scratch key. *)
Fixpoint ak_loop (pr : profile) (w log : Z) (N : nat) (sk sc : list (list Z)) (ak : list (list (list glwe))) (i : nat)
    (rnd : nat -> list (list (list (list Z) * option (list Z)))) : res (list (list (list glwe))) :=
  match ak with
  | [] => Ok []
  | ksk :: ak =>
      sk' <- polys_pow_k w (umul pr w) sc sk (trace_exp N i) ;;
      ksk' <- gksk_loop pr w log N sk' sk ksk (rnd i) ;;
      ak' <- ak_loop pr w log N sk sk' ak (S i) rnd ;;
      Ok (ksk' :: ak')
  end.
Definition gksk_valid (N k count : nat) (ksk : list (list glwe)) : bool :=
  (length ksk =? k)%nat && forallb (glev_valid N k count) ksk.
Definition ak_valid (N k count : nat) (ak : list (list (list glwe))) : bool :=
  (length ak =? Nat.log2 N)%nat && forallb (gksk_valid N k count) ak.
(** sunscreen_tfhe/src/ops/automorphisms/mod.rs:18-44 [generate_automorphism_key]; the key has log2 N key-switch
    keys (entities/automorphism_key.rs:26-28). *)
Definition generate_ak (pr : profile) (w log : Z) (count N k : nat) (ak : list (list (list glwe))) (sk sc : list (list Z))
    (rnd : nat -> list (list (list (list Z) * option (list Z)))) : res (list (list (list glwe))) :=
  if glwe_dim_valid N k && radix_valid w log count && ak_valid N k count ak && polys_valid N k sk
  then ak_loop pr w log N sk sc ak 1 rnd else Panic.

(** sunscreen_tfhe/src/ops/fft_ops.rs:457-495 [keyswitch_glwe_to_glwe] (the FFT version); [d] is the
    floating-point error of the accumulated sum. *)
Definition keyswitch_fft (h : hw) (pr : profile) (w log : Z) (count N k : nat) (out ct : glwe) (ksk : list (list glwe))
    (d : glwe) : res glwe :=
  sum <- rows_mad pr w log count N k (glwe_new N k) (ga ct) ksk ;;
  glwe_sub h pr w out (glwe_trivial (glwe_new N k) (gb ct)) (glwe_perturb w sum d).

(** The loop of sunscreen_tfhe/src/ops/automorphisms/mod.rs:71-84; [ks] and [gk] are the scratch ciphertexts
    [keyswitched] and [glwe_k], whatever they hold. *)
Fixpoint trace_loop (h : hw) (pr : profile) (w log : Z) (count N k : nat) (out ks gk : glwe) (ak : list (list (list glwe)))
    (i : nat) (ds : nat -> glwe) : res glwe :=
  match ak with
  | [] => Ok out
  | ksk :: ak =>
      a <- polys_pow_k w (mul_torus w) (ga gk) (ga out) (trace_exp N i) ;;
      b <- poly_pow_k w (mul_torus w) (gb gk) (gb out) (trace_exp N i) ;;
      let gk' := {| ga := a; gb := b |} in
      ks' <- keyswitch_fft h pr w log count N k ks gk' ksk (ds i) ;;
      out' <- glwe_add_assign w N k out ks' ;;
      trace_loop h pr w log count N k out' ks' gk' ak (S i) ds
  end.
(** sunscreen_tfhe/src/ops/automorphisms/mod.rs:53-85 [trace]; [clone_from_ref] overwrites [out] with [x]. *)
Definition trace (h : hw) (pr : profile) (w log : Z) (count N k : nat) (out x ks gk : glwe) (ak : list (list (list glwe)))
    (ds : nat -> glwe) : res glwe :=
  if glwe_dim_valid N k && radix_valid w log count && glwe_valid N k out && glwe_valid N k x && ak_valid N k count ak
  then trace_loop h pr w log count N k x ks gk ak 1 ds else Panic.

(** sunscreen_tfhe/src/math/simd/scalar.rs:134-143 [vector_shr_round], one element (avx2.rs:129-135 is the same). *)
Definition shr_round (pr : profile) (w x n : Z) : res Z :=
  n1 <- usub pr 32 n 1 ;;
  r <- ushr pr w x n1 ;;
  h <- ushr pr w x n ;;
  Ok (tadd w h (Z.land r 1)).
(** sunscreen_tfhe/src/ops/polynomial/mod.rs:91-96 [polynomial_shr_round] on polynomials of equal length. *)
Definition poly_shr_round (pr : profile) (w : Z) (p : list Z) (n : Z) : res (list Z) := mapM (fun x => shr_round pr w x n) p.
(** sunscreen_tfhe/src/ops/ciphertext/glwe_ciphertext_ops.rs:268-281 [glwe_mod_switch_and_expand_pow_2]; input
    and output have the same shape, so every coefficient of the output is written. *)
Definition glwe_shr_round (pr : profile) (w : Z) (c : glwe) (n : Z) : res glwe :=
  a <- mapM (fun p => poly_shr_round pr w p n) (ga c) ;;
  b <- poly_shr_round pr w (gb c) n ;;
  Ok {| ga := a; gb := b |}.
