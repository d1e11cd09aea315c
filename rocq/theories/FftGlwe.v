(** Model of the GLWE, GLEV and GGSW operations in the Fourier domain (sunscreen_tfhe/src/ops/fft_ops.rs and the entities
    it uses), on top of the polynomial transforms of Fft.v.

    Buffers. A ciphertext in the Fourier domain is one slice of k+1 transforms of N/2 points
    (entities/glwe_ciphertext_fft.rs:22-29, 44-60); here it is already split. A result buffer of the size the code asserts
    is overwritten entirely by [fft] and [ifft], so those return their result. *)
From Coq Require Import Reals ZArith List Lia Bool.
From Coquelicot Require Import Complex.
From Verif Require Export Base Tfhe TfheGlwe TfheBoot Fft.
From Verif Require Import Alu MuxGraph.
Import ListNotations.
Open Scope Z_scope.

Record glwe_fft := { fa : list (list C); fb : list C }.

(** The size assertion of a Fourier-domain GLWE ciphertext (entities/glwe_ciphertext_fft.rs:22-29). *)
Definition glwe_fft_valid (N k : nat) (c : glwe_fft) : bool :=
  ((length (fa c) =? k) && forallb (fun p => length p =? N / 2) (fa c) && (length (fb c) =? N / 2))%nat.
(** The size assertion of a Fourier-domain GGSW ciphertext: (k+1) rows of [count] GLWE ciphertexts. *)
Definition ggsw_fft_valid (N k count : nat) (g : list (list glwe_fft)) : bool :=
  (length g =? k + 1)%nat && forallb (fun r => (length r =? count)%nat && forallb (glwe_fft_valid N k) r) g.

(** A cleared ciphertext: [prod_fft.clear()] (fft_ops.rs:173), [GlweCiphertextFft::new] (glwe_ciphertext_fft.rs:31-40). *)
Definition glwe_fft_zero (N k : nat) : glwe_fft :=
  {| fa := repeat (repeat (RtoC 0) (N / 2)) k; fb := repeat (RtoC 0) (N / 2) |}.

(** sunscreen_tfhe/src/entities/glwe_ciphertext.rs:141-150 [GlweCiphertextRef::fft]. *)
Definition glwe_to_fft (X : ext) (w : Z) (N k : nat) (c : glwe) : res glwe_fft :=
  if glwe_valid N k c then
    a <- mapM (fun p => poly_fft X w p (N / 2)) (ga c) ;;
    b <- poly_fft X w (gb c) (N / 2) ;;
    Ok {| fa := a; fb := b |}
  else Panic.
(** sunscreen_tfhe/src/entities/glwe_ciphertext_fft.rs:107-113 [GlweCiphertextFftRef::ifft]. *)
Definition glwe_from_fft (X : ext) (w : Z) (N : nat) (c : glwe_fft) : res glwe :=
  a <- mapM (fun p => poly_ifft X w p N) (fa c) ;;
  b <- poly_ifft X w (fb c) N ;;
  Ok {| ga := a; gb := b |}.
(** sunscreen_tfhe/src/entities/glev_ciphertext.rs:66-73 [GlevCiphertextRef::fft]. *)
Definition glev_to_fft (X : ext) (w : Z) (N k : nat) (l : list glwe) : res (list glwe_fft) :=
  mapM (glwe_to_fft X w N k) l.
(** sunscreen_tfhe/src/entities/ggsw_ciphertext.rs:98-110 [GgswCiphertextRef::fft]. *)
Definition ggsw_to_fft (X : ext) (w : Z) (N k count : nat) (g : list (list glwe)) : res (list (list glwe_fft)) :=
  if ggsw_valid N k count g then mapM (glev_to_fft X w N k) g else Panic.

(** [for (c, a) in c_a.zip(a_a) { c.multiply_add(a, b) }]. *)
Fixpoint zip_mad (X : ext) (x86 : bool) (m : mad_kernel) (c a : list (list C)) (b : list C) : res (list (list C)) :=
  match c, a with
  | x :: c, y :: a => x' <- multiply_add X x86 m x y b ;; c' <- zip_mad X x86 m c a b ;; Ok (x' :: c')
  | c, _ => Ok c
  end.
(** sunscreen_tfhe/src/ops/fft_ops.rs:107-127 [glwe_polynomial_mad]. *)
Definition glwe_poly_mad_fft (X : ext) (x86 : bool) (m : mad_kernel) (k : nat) (c a : glwe_fft) (b : list C) : res glwe_fft :=
  if (length (fa c) =? k)%nat && (length (fa a) =? k)%nat then
    x <- zip_mad X x86 m (fa c) (fa a) b ;;
    y <- multiply_add X x86 m (fb c) (fb a) b ;;
    Ok {| fa := x; fb := y |}
  else Panic.
(** sunscreen_tfhe/src/ops/fft_ops.rs:91-96, the loop of [decomposed_polynomial_glev_mad]; [bs] is the GLEV ciphertext reversed. *)
Fixpoint glev_mad_loop_fft (X : ext) (x86 : bool) (m : mad_kernel) (pr : profile) (w log : Z) (count N k : nat)
    (it : radix_iter) (cur : list Z) (bs : list glwe_fft) (c : glwe_fft) : res glwe_fft :=
  match bs with
  | [] => Ok c
  | b :: bs =>
      ' (it', cur') <- write_next pr w log count it cur ;;
      d <- poly_fft X w cur' (N / 2) ;;
      c' <- glwe_poly_mad_fft X x86 m k c b d ;;
      glev_mad_loop_fft X x86 m pr w log count N k it' cur' bs c'
  end.
(** sunscreen_tfhe/src/ops/fft_ops.rs:67-97 [decomposed_polynomial_glev_mad], with the iterator made at fft_ops.rs:52. The
    scratch polynomial is overwritten before it is read. *)
Definition glev_mad_fft (X : ext) (x86 : bool) (m : mad_kernel) (pr : profile) (w log : Z) (count N k : nat)
    (c : glwe_fft) (a : list Z) (glev : list glwe_fft) : res glwe_fft :=
  it <- radix_new pr w log count a ;;
  glev_mad_loop_fft X x86 m pr w log count N k it (zpoly N) (rev glev) c.
(** sunscreen_tfhe/src/ops/fft_ops.rs:49-55, the loop of [glwe_ggsw_mad]. *)
Fixpoint rows_mad_fft (X : ext) (x86 : bool) (m : mad_kernel) (pr : profile) (w log : Z) (count N k : nat)
    (c : glwe_fft) (polys : list (list Z)) (rows : list (list glwe_fft)) : res glwe_fft :=
  match polys, rows with
  | a :: polys, r :: rows =>
      c' <- glev_mad_fft X x86 m pr w log count N k c a r ;;
      rows_mad_fft X x86 m pr w log count N k c' polys rows
  | _, _ => Ok c
  end.
(** sunscreen_tfhe/src/ops/fft_ops.rs:23-56 [glwe_ggsw_mad]: c += a [*] b. *)
Definition glwe_ggsw_mad_fft (X : ext) (x86 : bool) (m : mad_kernel) (pr : profile) (w log : Z) (count N k : nat)
    (c : glwe_fft) (a : glwe) (b : list (list glwe_fft)) : res glwe_fft :=
  rows_mad_fft X x86 m pr w log count N k c (ga a ++ [gb a]) b.

(** sunscreen_tfhe/src/ops/fft_ops.rs:149-181 [cmux]. *)
Definition cmux_fft (X : ext) (m : mad_kernel) (h : hw) (pr : profile) (w log : Z) (count N k : nat) (c d0 d1 : glwe)
    (g : list (list glwe_fft)) : res glwe :=
  if glwe_dim_valid N k && radix_valid w log count && glwe_valid N k c && glwe_valid N k d0 && glwe_valid N k d1
     && ggsw_fft_valid N k count g then
    diff <- glwe_sub h pr w (glwe_new N k) d1 d0 ;;
    pf <- glwe_ggsw_mad_fft X (hw_x86 h) m pr w log count N k (glwe_fft_zero N k) diff g ;;
    prod <- glwe_from_fft X w N pf ;;
    glwe_add h pr w c prod d0
  else Panic.

(** sunscreen_tfhe/src/ops/fft_ops.rs:203-220 [glev_cmux]. *)
Fixpoint glev_cmux_fft (X : ext) (m : mad_kernel) (h : hw) (pr : profile) (w log : Z) (count N k : nat)
    (c d0 d1 : list glwe) (g : list (list glwe_fft)) : res (list glwe) :=
  match c, d0, d1 with
  | x :: c, y :: d0, z :: d1 =>
      x' <- cmux_fft X m h pr w log count N k x y z g ;;
      c' <- glev_cmux_fft X m h pr w log count N k c d0 d1 g ;;
      Ok (x' :: c')
  | c, _, _ => Ok c
  end.

(** ** Bootstrapping with the key in Fourier form *)

(** sunscreen_tfhe/src/entities/bootstrap_key.rs:92-105 [BootstrapKeyRef::fft]. *)
Definition bsk_to_fft (X : ext) (w : Z) (n N k count : nat) (bsk : list (list (list glwe))) : res (list (list (list glwe_fft))) :=
  if bsk_valid n N k count bsk then mapM (ggsw_to_fft X w N k count) bsk else Panic.
(** The size assertion of a Fourier-domain bootstrap key. *)
Definition bsk_fft_valid (n N k count : nat) (bsk : list (list (list glwe_fft))) : bool :=
  (length bsk =? n)%nat && forallb (ggsw_fft_valid N k count) bsk.

(** The loop of sunscreen_tfhe/src/ops/bootstrapping/programmable_bootstrapping.rs:395-409. *)
Fixpoint pbs_loop_fft (X : ext) (m : mad_kernel) (h : hw) (pr : profile) (w log : Z) (count N k : nat) (out : glwe) (a : list Z)
    (bsk : list (list (list glwe_fft))) : res glwe :=
  match a, bsk with
  | x :: a, g :: bsk =>
      out' <- cmux_fft X m h pr w log count N k out out (glwe_rot w (glwe_new N k) out x) g ;;
      pbs_loop_fft X m h pr w log count N k out' a bsk
  | _, _ => Ok out
  end.
(** lines 342-410 [generalized_programmable_bootstrap]. *)
Definition generalized_pbs_fft (X : ext) (m : mad_kernel) (h : hw) (pr : profile) (w log : Z) (count n N k : nat) (out : glwe)
    (input : lwe) (lut : glwe) (bsk : list (list (list glwe_fft))) (chi v : Z) : res glwe :=
  if lwe_dim_valid n && glwe_dim_valid N k && radix_valid w log count && bsk_fft_valid n N k count bsk
     && glwe_valid N k lut && lwe_valid n input && glwe_valid N k out then
    ct <- lwe_mod_switch pr w input chi v (Z.of_nat (Nat.log2 N) + 1) ;;
    pbs_loop_fft X m h pr w log count N k (glwe_rot w out lut (- lwe_b ct)) (lwe_a ct) bsk
  else Panic.
(** lines 291-318 [programmable_bootstrap_univariate]. *)
Definition pbs_univariate_fft (X : ext) (m : mad_kernel) (h : hw) (pr : profile) (w log : Z) (count n N k : nat) (out input : lwe)
    (lut : glwe) (bsk : list (list (list glwe_fft))) : res lwe :=
  g <- generalized_pbs_fft X m h pr w log count n N k (glwe_new N k) input lut bsk 0 0 ;;
  sample_extract w N k out g 0.
(** lines 575-621 [programmable_bootstrap_bivariate]. *)
Definition pbs_bivariate_fft (X : ext) (m : mad_kernel) (h : hw) (pr : profile) (w log : Z) (count n N k : nat)
    (out left right : lwe) (lut : glwe) (bsk : list (list (list glwe_fft))) (p : Z) : res lwe :=
  shift <- shl_i32 pr p ;;
  x <- lwe_scalar_mad w (lwe_new n) (uwrap w shift) left ;;
  y <- lwe_add_inplace w x right ;;
  pbs_univariate_fft X m h pr w log count n N k out y lut bsk.

(** The loop of sunscreen_tfhe/src/ops/bootstrapping/blind_rotation.rs:213-222 from row [i] on. *)
Fixpoint blind_rotation_loop_fft (X : ext) (m : mad_kernel) (h : hw) (pr : profile) (w log : Z) (count N k : nat) (out : glwe)
    (rows : list (list (list glwe_fft))) (i : nat) : res glwe :=
  match rows with
  | [] => Ok out
  | g :: rows =>
      out' <- cmux_fft X m h pr w log count N k out out (glwe_rot w (glwe_new N k) out (- 2 ^ Z.of_nat i)) g ;;
      blind_rotation_loop_fft X m h pr w log count N k out' rows (S i)
  end.
