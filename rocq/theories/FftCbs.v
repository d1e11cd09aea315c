(** Model of GLWE key switching, the trace, scheme switching and circuit bootstrapping in the Fourier domain
    (sunscreen_tfhe/src/ops/fft_ops.rs, ops/automorphisms/mod.rs, ops/bootstrapping/circuit_bootstrapping.rs), on top of
    FftGlwe.v. Keys are in Fourier form; the GGSW ciphertext that comes out is too. *)
From Coq Require Import Reals ZArith List Lia Bool.
From Coquelicot Require Import Complex.
From Verif Require Export FftGlwe TfheTrace TfheSwitch TfheCbs.
From Verif Require Import Alu MuxGraph.
Import ListNotations.
Open Scope Z_scope.

(** ** Keys *)

(** sunscreen_tfhe/src/entities/glwe_keyswitch_key.rs:80-89 [GlweKeyswitchKeyRef::fft]. *)
Definition gksk_to_fft (X : ext) (w : Z) (N k : nat) (ksk : list (list glwe)) : res (list (list glwe_fft)) :=
  mapM (glev_to_fft X w N k) ksk.
(** sunscreen_tfhe/src/entities/automorphism_key.rs:68-80 [AutomorphismKeyRef::fft]. *)
Definition ak_to_fft (X : ext) (w : Z) (N k : nat) (ak : list (list (list glwe))) : res (list (list (list glwe_fft))) :=
  mapM (gksk_to_fft X w N k) ak.
(** sunscreen_tfhe/src/entities/scheme_switch_key.rs:174-189 [SchemeSwitchKeyRef::fft]. *)
Definition ssk_to_fft (X : ext) (w : Z) (N k count : nat) (ssk : list (list glwe)) : res (list (list glwe_fft)) :=
  if ssk_valid N k count ssk then mapM (glev_to_fft X w N k) ssk else Panic.

(** The size assertion of a GLEV ciphertext in Fourier form. *)
Definition glev_fft_valid (N k count : nat) (r : list glwe_fft) : bool :=
  (length r =? count)%nat && forallb (glwe_fft_valid N k) r.
(** The size assertion of an automorphism key in Fourier form: log2 N key-switch keys of k rows. *)
Definition ak_fft_valid (N k count : nat) (ak : list (list (list glwe_fft))) : bool :=
  (length ak =? Nat.log2 N)%nat && forallb (fun ksk => (length ksk =? k)%nat && forallb (glev_fft_valid N k count) ksk) ak.
(** The size assertion of a scheme-switch key in Fourier form. *)
Definition ssk_fft_valid (N k count : nat) (ssk : list (list glwe_fft)) : bool :=
  (length ssk =? tri_count k)%nat && forallb (glev_fft_valid N k count) ssk.
(** A fresh GGSW ciphertext in Fourier form, all zero (entities/ggsw_ciphertext_fft.rs [GgswCiphertextFft::new]). *)
Definition ggsw_fft_zero (N k count : nat) : list (list glwe_fft) := repeat (repeat (glwe_fft_zero N k) count) (k + 1).

(** sunscreen_tfhe/src/ops/bootstrapping/scheme_switch.rs:49-59: the product of two key polynomials: transform both, multiply-add into a zero
    transform, transform back. (A panic is written as the empty polynomial; it is excluded by the sizes of the keys.) *)
Definition key_product (X : ext) (x86 : bool) (m : mad_kernel) (w : Z) (n : nat) (s t : list Z) : list Z :=
  match fft_sum_of_products X x86 m w n [(s, t)] with Ok r => r | _ => [] end.

(** ** Key switching and the trace *)

(** sunscreen_tfhe/src/ops/fft_ops.rs:457-495 [keyswitch_glwe_to_glwe]. *)
Definition keyswitch_freq (X : ext) (m : mad_kernel) (h : hw) (pr : profile) (w log : Z) (count N k : nat) (out ct : glwe)
    (ksk : list (list glwe_fft)) : res glwe :=
  sum <- rows_mad_fft X (hw_x86 h) m pr w log count N k (glwe_fft_zero N k) (ga ct) ksk ;;
  s <- glwe_from_fft X w N sum ;;
  glwe_sub h pr w out (glwe_trivial (glwe_new N k) (gb ct)) s.
(** The loop of sunscreen_tfhe/src/ops/automorphisms/mod.rs:71-84; see TfheTrace.trace_loop. *)
Fixpoint trace_loop_freq (X : ext) (m : mad_kernel) (h : hw) (pr : profile) (w log : Z) (count N k : nat) (out ks gk : glwe)
    (ak : list (list (list glwe_fft))) (i : nat) : res glwe :=
  match ak with
  | [] => Ok out
  | ksk :: ak =>
      a <- polys_pow_k w (mul_torus w) (ga gk) (ga out) (trace_exp N i) ;;
      b <- poly_pow_k w (mul_torus w) (gb gk) (gb out) (trace_exp N i) ;;
      let gk' := {| ga := a; gb := b |} in
      ks' <- keyswitch_freq X m h pr w log count N k ks gk' ksk ;;
      out' <- glwe_add_assign w N k out ks' ;;
      trace_loop_freq X m h pr w log count N k out' ks' gk' ak (S i)
  end.
(** sunscreen_tfhe/src/ops/automorphisms/mod.rs:53-85 [trace]. *)
Definition trace_freq (X : ext) (m : mad_kernel) (h : hw) (pr : profile) (w log : Z) (count N k : nat) (out x ks gk : glwe)
    (ak : list (list (list glwe_fft))) : res glwe :=
  if glwe_dim_valid N k && radix_valid w log count && glwe_valid N k out && glwe_valid N k x && ak_fft_valid N k count ak
  then trace_loop_freq X m h pr w log count N k x ks gk ak 1 else Panic.

(** ** Scheme switching *)

(** sunscreen_tfhe/src/ops/fft_ops.rs:270-277, from mask polynomial [r] on. *)
Fixpoint ss_mads_freq (X : ext) (x86 : bool) (m : mad_kernel) (pr : profile) (w log : Z) (count N k : nat) (ssk : list (list glwe_fft))
    (j r : nat) (polys : list (list Z)) (c : glwe_fft) : res glwe_fft :=
  match polys with
  | [] => Ok c
  | a :: polys =>
      idx <- linear_index j r k ;;
      match nth_error ssk idx with
      | None => Panic
      | Some g =>
          c' <- glev_mad_fft X x86 m pr w log count N k c a g ;;
          ss_mads_freq X x86 m pr w log count N k ssk j (S r) polys c'
      end
  end.
(** sunscreen_tfhe/src/ops/fft_ops.rs:222-241 [update_encrypted_secret_key_component_fft]. *)
Definition fill_a_freq (X : ext) (w : Z) (N k : nat) (c : glwe_fft) (p : list Z) (j : nat) : res glwe_fft :=
  if (j <? k)%nat then f <- poly_fft X w p (N / 2) ;; Ok {| fa := setnth (fa c) j f; fb := fb c |} else Panic.
(** sunscreen_tfhe/src/ops/fft_ops.rs:243-278 [scheme_switch_glwe_operation]. *)
Definition ss_op_freq (X : ext) (x86 : bool) (m : mad_kernel) (pr : profile) (w log : Z) (count N k : nat) (ssk : list (list glwe_fft))
    (j : nat) (y : glwe_fft) (x : glwe) : res glwe_fft :=
  if (j =? k)%nat then glwe_to_fft X w N k x
  else
    y0 <- fill_a_freq X w N k y (gb x) j ;;
    ss_mads_freq X x86 m pr w log count N k ssk j 0 (ga x) y0.
Fixpoint ss_row_freq (X : ext) (x86 : bool) (m : mad_kernel) (pr : profile) (w log : Z) (count N k : nat) (ssk : list (list glwe_fft))
    (j : nat) (xs : list glwe) (row : list glwe_fft) : res (list glwe_fft) :=
  match xs, row with
  | x :: xs, y :: row =>
      y' <- ss_op_freq X x86 m pr w log count N k ssk j y x ;;
      ys <- ss_row_freq X x86 m pr w log count N k ssk j xs row ;;
      Ok (y' :: ys)
  | _, row => Ok row
  end.
Fixpoint ss_rows_freq (X : ext) (x86 : bool) (m : mad_kernel) (pr : profile) (w log : Z) (count N k : nat) (ssk : list (list glwe_fft))
    (glev : list glwe) (j : nat) (rows : list (list glwe_fft)) : res (list (list glwe_fft)) :=
  match rows with
  | [] => Ok []
  | row :: rows =>
      row' <- ss_row_freq X x86 m pr w log count N k ssk j glev row ;;
      rows' <- ss_rows_freq X x86 m pr w log count N k ssk glev (S j) rows ;;
      Ok (row' :: rows')
  end.
(** sunscreen_tfhe/src/ops/fft_ops.rs:403-442 [scheme_switch_fft]. *)
Definition scheme_switch_freq (X : ext) (x86 : bool) (m : mad_kernel) (pr : profile) (w log : Z) (count cg N k : nat)
    (out : list (list glwe_fft)) (glev : list glwe) (ssk : list (list glwe_fft)) : res (list (list glwe_fft)) :=
  if ssk_fft_valid N k count ssk && ggsw_fft_valid N k cg out && glev_valid N k cg glev
  then ss_rows_freq X x86 m pr w log count N k ssk glev 0 out else Panic.

(** ** Circuit bootstrapping *)

(** circuit_bootstrapping.rs:387-428 [hi_noise_lwe_to_lo_noise_glwe]; see TfheCbs.cbs_hi_noise. *)
Definition cbs_hi_noise_freq (X : ext) (m : mad_kernel) (h : hw) (pr : profile) (w lp log : Z) (cp count n N k : nat) (rot : lwe) (out : glwe)
    (input : lwe) (bsk : list (list (list glwe_fft))) : res glwe :=
  if (count <? 8)%nat then
    q4 <- t_encode w 1 2 ;;
    rotated <- lwe_rotate w n rot input q4 ;;
    lv <- cbs_log_v count ;;
    lut <- cbs_lut pr w log count N k ;;
    generalized_pbs_fft X m h pr w lp cp n N k out rotated lut bsk 0 (Z.of_nat lv)
  else Panic.
(** The loop of circuit_bootstrapping.rs:278-297; see TfheCbs.cbs_trace_loop. *)
Fixpoint cbs_trace_loop_freq (X : ext) (m : mad_kernel) (h : hw) (pr : profile) (w lt log : Z) (ct N k : nat) (glev : list glwe)
    (rot perm ks gk : glwe) (ak : list (list (list glwe_fft))) (i : nat) : res (list glwe) :=
  match glev with
  | [] => Ok []
  | g :: glev =>
      e <- t_encode w 1 (cbs_bits log i) ;;
      b <- add_at w (gb rot) i e ;;
      let rot' := {| ga := ga rot; gb := b |} in
      let perm' := glwe_rot w perm rot' (- Z.of_nat i) in
      sh <- glwe_shr_round pr w perm' (Z.of_nat (Nat.log2 N)) ;;
      g' <- trace_freq X m h pr w lt ct N k g sh ks gk ak ;;
      gs <- cbs_trace_loop_freq X m h pr w lt log ct N k glev rot' perm' ks gk ak (S i) ;;
      Ok (g' :: gs)
  end.
(** circuit_bootstrapping.rs:342-384 [circuit_bootstrap_via_trace_and_scheme_switch]. *)
Definition circuit_bootstrap_freq (X : ext) (m : mad_kernel) (h : hw) (pr : profile) (w lp lt ls log : Z) (cp ct cs count n N k : nat)
    (out : list (list glwe_fft)) (input : lwe) (bsk ak : list (list (list glwe_fft))) (ssk : list (list glwe_fft))
    (scr : lwe) (scg : glwe) (scl : list glwe) : res (list (list glwe_fft)) :=
  lo <- cbs_hi_noise_freq X m h pr w lp log cp count n N k scr scg input bsk ;;
  glev <- cbs_trace_loop_freq X m h pr w lt log ct N k scl lo scg scg scg ak 0 ;;
  scheme_switch_freq X (hw_x86 h) m pr w ls cs count N k out glev ssk.
