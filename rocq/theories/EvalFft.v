(** The TFHE evaluation layer with GGSW ciphertexts and keys in Fourier form, as the code runs it: Eval.v on top of the floating-point
    operations of FftGlwe.v and FftCbs.v. Nothing here is perturbed by an assumed error: every product goes through the transforms in [X].
    Operations that do not touch GGSW ciphertexts (sums, rotation, sample extraction, LWE key switching, encryption, decryption) are those of Eval.v.

    The machine: [X] the f64 arithmetic and transforms, [m] the multiply-add kernel. *)
From Coq Require Import Reals ZArith List Lia Bool.
From Coquelicot Require Import Complex.
From Verif Require Import Base Alu Graph MuxGraph FheGraph.
From Verif Require Export Eval Fft FftGlwe FftCbs.
Import ListNotations.
Open Scope Z_scope.

(** ** Keys *)

(** keys.rs:306-318 ComputeKey. *)
Record fkey := { fk_bs : list (list (list glwe_fft)); fk_ks : list (list lwe); fk_ss : list (list glwe_fft); fk_auto : list (list (list glwe_fft)) }.
(** keys.rs:258-281 ComputeKeyNonFft::fft. *)
Definition key_fft (X : ext) (P : params) (ck : compute_key) : res fkey :=
  ss <- ssk_to_fft X 64 (p_N P) (p_k P) (r_count (p_ss P)) (k_ss ck) ;;
  auto <- ak_to_fft X 64 (p_N P) (p_k P) (k_auto ck) ;;
  bs <- bsk_to_fft X 64 (p_n P) (p_N P) (p_k P) (r_count (p_pbs P)) (k_bs ck) ;;
  Ok {| fk_bs := bs; fk_ks := k_ks ck; fk_ss := ss; fk_auto := auto |}.
(** Key generation (Eval.key_generate) with products of key polynomials computed through the FFT (scheme_switch.rs:49-59), then the transforms. *)
Definition with_fft_products (X : ext) (h : hw) (m : mad_kernel) (P : params) (r : key_rnd) : key_rnd :=
  {| kr_bs := kr_bs r; kr_ks := kr_ks r; kr_ss := kr_ss r; kr_auto := kr_auto r; kr_mul := key_product X (hw_x86 h) m 64 (p_N P / 2); kr_scratch := kr_scratch r |}.
Definition key_generate_fft (X : ext) (m : mad_kernel) (h : hw) (pr : profile) (P : params) (sk : secret_key) (r : key_rnd) : res fkey :=
  ck <- key_generate pr P sk (with_fft_products X h m P r) ;; key_fft X P ck.

(** ** Ciphertexts: crypto/ciphertext.rs:25-32 *)
Inductive rct := RLwe0 (c : lwe) | RLwe1 (c : lwe) | RGlwe1 (c : glwe) | RGgsw1 (c : list (list glwe_fft)) | RGlev1 (c : list glwe).
Definition rty_of (c : rct) : cty :=
  match c with RLwe0 _ => TLwe0 | RLwe1 _ => TLwe1 | RGlwe1 _ => TGlwe1 | RGgsw1 _ => TGgsw1 | RGlev1 _ => TGlev1 end.

(** encryption.rs:251-271: encrypt and transform. *)
Definition renc_ggsw1 (X : ext) (pr : profile) (P : params) (sk : secret_key) (b : bool) (rnd : list (list (list (list Z) * option (list Z)))) : res (list (list glwe_fft)) :=
  g <- enc_ggsw1 pr P sk b rnd ;; ggsw_to_fft X 64 (p_N P) (p_k P) (r_count (p_cbs P)) g.
(** sunscreen_tfhe/src/entities/ggsw_ciphertext_fft.rs:69-78, glev_ciphertext_fft.rs:57-64: row by row into a new ciphertext. *)
Definition ggsw_from_fft (X : ext) (w : Z) (N k count : nat) (g : list (list glwe_fft)) : res (list (list glwe)) :=
  if ggsw_fft_valid N k count g then mapM (mapM (glwe_from_fft X w N)) g else Panic.
(** encryption.rs:294-310. *)
Definition rdec_ggsw1 (X : ext) (pr : profile) (P : params) (sk : secret_key) (c : list (list glwe_fft)) : res bool :=
  g <- ggsw_from_fft X 64 (p_N P) (p_k P) (r_count (p_cbs P)) c ;; dec_ggsw1 pr P sk g.

(** ** Evaluation *)

(** The scratch buffers of a circuit bootstrap as an operation finds them. *)
Record scratch := { sc_lwe : lwe; sc_glwe : glwe; sc_glev : list glwe }.

(** circuit_processor/mod.rs:62-78 with evaluation.rs:26-32, 144-149. *)
Record rproc := {
  rp_params : params; rp_hw : hw; rp_pr : profile; rp_key : fkey;
  rp_zero_lwe0 : lwe; rp_one_lwe0 : lwe; rp_zero_glwe1 : glwe; rp_one_glwe1 : glwe;
  rp_zero_ggsw1 : list (list glwe_fft); rp_one_ggsw1 : list (list glwe_fft);
  rp_zero_glev1 : list glwe; rp_one_glev1 : list glwe
}.

(** evaluation.rs:68-83. *)
Definition rev_cmux (X : ext) (m : mad_kernel) (h : hw) (pr : profile) (P : params) (out : glwe) (sel : list (list glwe_fft)) (a b : glwe) : res glwe :=
  cmux_fft X m h pr 64 (r_log (p_cbs P)) (r_count (p_cbs P)) (p_N P) (p_k P) out a b sel.
(** evaluation.rs:86-101. *)
Definition rev_glev_cmux (X : ext) (m : mad_kernel) (h : hw) (pr : profile) (P : params) (out : list glwe) (sel : list (list glwe_fft)) (a b : list glwe) : res (list glwe) :=
  glev_cmux_fft X m h pr 64 (r_log (p_cbs P)) (r_count (p_cbs P)) (p_N P) (p_k P) out a b sel.
(** evaluation.rs:104-123: into a new Fourier accumulator. The sizes of the operands are asserted where their parts are taken
    (entities/*.rs, [assert_is_valid]). *)
Definition rev_multiply (X : ext) (m : mad_kernel) (h : hw) (pr : profile) (P : params) (x : glwe) (g : list (list glwe_fft)) : res glwe :=
  c <- glwe_ggsw_mad_fft X (hw_x86 h) m pr 64 (r_log (p_cbs P)) (r_count (p_cbs P)) (p_N P) (p_k P) (glwe_fft_zero (p_N P) (p_k P)) x g ;;
  glwe_from_fft X 64 (p_N P) c.
(** evaluation.rs:211-225. *)
Definition rev_cbs (X : ext) (m : mad_kernel) (h : hw) (pr : profile) (P : params) (ck : fkey) (out : list (list glwe_fft)) (x : lwe) (s : scratch) : res (list (list glwe_fft)) :=
  circuit_bootstrap_freq X m h pr 64 (r_log (p_pbs P)) (r_log (p_tr P)) (r_log (p_ss P)) (r_log (p_cbs P)) (r_count (p_pbs P)) (r_count (p_tr P)) (r_count (p_ss P))
    (r_count (p_cbs P)) (p_n P) (p_N P) (p_k P) out x (fk_bs ck) (fk_auto ck) (fk_ss ck) (sc_lwe s) (sc_glwe s) (sc_glev s).
(** evaluation.rs:231-240. *)
Definition rev_scheme_switch (X : ext) (m : mad_kernel) (h : hw) (pr : profile) (P : params) (ck : fkey) (out : list (list glwe_fft)) (x : list glwe) : res (list (list glwe_fft)) :=
  scheme_switch_freq X (hw_x86 h) m pr 64 (r_log (p_ss P)) (r_count (p_ss P)) (r_count (p_cbs P)) (p_N P) (p_k P) out x (fk_ss ck).
(** evaluation.rs:246-255. *)
Definition rev_keyswitch (pr : profile) (P : params) (ck : fkey) (out x : lwe) : res lwe :=
  lwe_keyswitch pr 64 (r_log (p_ks P)) (r_count (p_ks P)) (p_k P * p_N P) (p_n P) out x (fk_ks ck).

(** evaluation.rs:161-197 Evaluation::new and mod.rs:83-124 CircuitProcessor::new. *)
Definition rproc_new (X : ext) (m : mad_kernel) (h : hw) (pr : profile) (P : params) (ck : fkey) (s0 s1 : scratch) : res rproc :=
  z <- triv_lwe (p_n P) false ;;
  g0 <- rev_cbs X m h pr P ck (ggsw_fft_zero (p_N P) (p_k P) (r_count (p_cbs P))) z s0 ;;
  o <- triv_lwe (p_n P) true ;;
  g1 <- rev_cbs X m h pr P ck (ggsw_fft_zero (p_N P) (p_k P) (r_count (p_cbs P))) o s1 ;;
  zg <- triv_glwe P false ;; og <- triv_glwe P true ;;
  zl <- triv_glev pr P false ;; ol <- triv_glev pr P true ;;
  Ok {| rp_params := P; rp_hw := h; rp_pr := pr; rp_key := ck; rp_zero_lwe0 := z; rp_one_lwe0 := o; rp_zero_glwe1 := zg; rp_one_glwe1 := og;
        rp_zero_ggsw1 := g0; rp_one_ggsw1 := g1; rp_zero_glev1 := zl; rp_one_glev1 := ol |}.

(** ** Executing one operation *)
Definition rinputs := list (fedge * option rct).
Definition routcome := (option rct * option (cty * nat * rct))%type.

(** What validation (task.rs:24-170) looks at. *)
Definition rshape_of (c : rct) : ct :=
  match c with RLwe0 _ => CLwe0 false | RLwe1 _ => CLwe1 false | RGlwe1 _ => CGlwe1 [] | RGgsw1 _ => CGgsw1 false | RGlev1 _ => CGlev1 false end.
Definition rshapes (ins : rinputs) : tinputs := map (fun p => (fst p, option_map rshape_of (snd p))) ins.

(** crypto/ciphertext.rs:65-99. *)
Definition ras_lwe0 (c : option rct) : res lwe := match c with Some (RLwe0 c) => Ok c | _ => Panic end.
Definition ras_lwe1 (c : option rct) : res lwe := match c with Some (RLwe1 c) => Ok c | _ => Panic end.
Definition ras_glwe (c : option rct) : res glwe := match c with Some (RGlwe1 c) => Ok c | _ => Panic end.
Definition ras_ggsw (c : option rct) : res (list (list glwe_fft)) := match c with Some (RGgsw1 c) => Ok c | _ => Panic end.
Definition ras_glev (c : option rct) : res (list glwe) := match c with Some (RGlev1 c) => Ok c | _ => Panic end.
Definition rin0 (ins : rinputs) : res (option rct) := match ins with p :: _ => Ok (snd p) | [] => Panic end.
Definition rin1 (ins : rinputs) : res (option rct) := match ins with _ :: p :: _ => Ok (snd p) | _ => Panic end.
Definition rinl (l : fedge) (ins : rinputs) : res (option rct) :=
  match find (fun p => fedge_eqb (fst p) l) ins with Some p => Ok (snd p) | None => Panic end.

(** mod.rs:475-507. *)
Definition rconst (pc : rproc) (t : cty) (b : bool) : res rct :=
  match t with
  | TLwe0 => Ok (RLwe0 (if b then rp_one_lwe0 pc else rp_zero_lwe0 pc))
  | TGlwe1 => Ok (RGlwe1 (if b then rp_one_glwe1 pc else rp_zero_glwe1 pc))
  | TGgsw1 => Ok (RGgsw1 (if b then rp_one_ggsw1 pc else rp_zero_ggsw1 pc))
  | TGlev1 => Ok (RGlev1 (if b then rp_one_glev1 pc else rp_zero_glev1 pc))
  | TLwe1 => Panic
  end.

(** mod.rs:255-540 after validation. *)
Definition rrun_op (X : ext) (m : mad_kernel) (pc : rproc) (s : scratch) (cells : cty -> nat -> rct) (op : fop) (ins : rinputs) : res routcome :=
  let P := rp_params pc in let h := rp_hw pc in let pr := rp_pr pc in let ck := rp_key pc in
  let N := p_N P in let k := p_k P in
  let out c := Ok (Some c, None) in
  match op with
  | FInput t r => out (cells t r)
  | FOutput t r =>
      c <- rin0 ins ;;
      match c with Some c => if cty_eqb (rty_of c) t then Ok (None, Some (t, r, c)) else Panic | None => Panic end
  | FCbs => c <- rin0 ins ;; x <- ras_lwe0 c ;; g <- rev_cbs X m h pr P ck (ggsw_fft_zero N k (r_count (p_cbs P))) x s ;; out (RGgsw1 g)
  | FNot => c <- rin0 ins ;; x <- ras_glwe c ;; out (RGlwe1 (ev_not (rp_one_glwe1 pc) x))
  | FGlweAdd => c <- rin0 ins ;; x <- ras_glwe c ;; c' <- rin1 ins ;; y <- ras_glwe c' ;; out (RGlwe1 (ev_xor x y))
  | FMultiply =>
      c <- rinl EGlwe ins ;; x <- ras_glwe c ;; c' <- rinl EGgsw ins ;; g <- ras_ggsw c' ;;
      r <- rev_multiply X m h pr P x g ;; out (RGlwe1 r)
  | FCMux =>
      c <- rinl ELow ins ;; a <- ras_glwe c ;; c' <- rinl EHigh ins ;; b <- ras_glwe c' ;; s <- rinl ESel ins ;; s <- ras_ggsw s ;;
      r <- rev_cmux X m h pr P (glwe_new N k) s a b ;; out (RGlwe1 r)
  | FGlevCMux =>
      c <- rinl ELow ins ;; a <- ras_glev c ;; c' <- rinl EHigh ins ;; b <- ras_glev c' ;; s <- rinl ESel ins ;; s <- ras_ggsw s ;;
      r <- rev_glev_cmux X m h pr P (repeat (glwe_new N k) (r_count (p_cbs P))) s a b ;; out (RGlev1 r)
  | FKeyswitch => c <- rin0 ins ;; x <- ras_lwe1 c ;; r <- rev_keyswitch pr P ck (lwe_new (p_n P)) x ;; out (RLwe0 r)
  | FSampleExtract i => c <- rin0 ins ;; x <- ras_glwe c ;; r <- ev_sample_extract P (lwe_new (k * N)) x i ;; out (RLwe1 r)
  | FZero t => c <- rconst pc t false ;; out c
  | FOne t => c <- rconst pc t true ;; out c
  | FMulXN n => c <- rinl EUnary ins ;; x <- ras_glwe c ;; out (RGlwe1 (ev_mul_xn P (glwe_new N k) x n))
  | FSchemeSwitch =>
      c <- rinl EUnary ins ;; x <- ras_glev c ;; g <- rev_scheme_switch X m h pr P ck (ggsw_fft_zero N k (r_count (p_cbs P))) x ;; out (RGgsw1 g)
  | FRetire | FNop => Ok (None, None)
  end.
Definition rexec_op (X : ext) (m : mad_kernel) (pc : rproc) (s : scratch) (cells : cty -> nat -> rct) (op : fop) (ins : rinputs) : res routcome :=
  _ <- validate (p_N (rp_params pc)) op (rshapes ins) ;; rrun_op X m pc s cells op ins.
