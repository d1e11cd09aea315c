(** Model of the TFHE evaluation layer of the runtime: parasol_runtime/src/crypto/{keys.rs,encryption.rs,evaluation.rs} and
    the execution of one FHE operation on real ciphertexts, parasol_runtime/src/circuit_processor/mod.rs (exec_op).
    It puts the functions of sunscreen_tfhe (Tfhe*.v) under the operations of FheGraph.v.

    All ciphertexts use 64-bit words. Random choices are arguments; FFT forms are written as the torus ciphertexts they
    represent and every floating-point product has an explicit error (the convention of TfheBoot.v). *)
From Verif Require Import Base Alu Graph MuxGraph FheGraph.
From Verif Require Export Tfhe TfheGlwe TfheBoot TfheTrace TfheSwitch TfheCbs.
Open Scope Z_scope.

(** sunscreen_tfhe/src/params.rs RadixDecomposition; parasol_runtime/src/params.rs:59-84 Params. The noise of fresh
    ciphertexts is not a parameter here (errors are arguments) and pfks_radix is not used by the modelled code. *)
Record radix := { r_log : Z; r_count : nat }.
Record params := { p_n : nat; p_N : nat; p_k : nat; p_cbs : radix; p_pbs : radix; p_ks : radix; p_ss : radix; p_tr : radix }.

(** keys.rs:100-105 SecretKey and keys.rs:147-159, 306-318 ComputeKeyNonFft / ComputeKey. *)
Record secret_key := { s_lwe0 : list Z; s_glwe1 : list (list Z) }.
Record compute_key := { k_bs : list (list (list glwe)); k_ks : list (list lwe); k_ss : list (list glwe); k_auto : list (list (list glwe)) }.

(** The random choices of key generation, the product the FFT gives for two key polynomials and the scratch polynomials of
    the automorphism-key generation. *)
Record key_rnd := {
  kr_bs : nat -> list (list (list (list Z) * option (list Z)));
  kr_ks : list (list (list Z * Z));
  kr_ss : nat -> list (list (list Z) * option (list Z));
  kr_auto : nat -> list (list (list (list Z) * option (list Z)));
  kr_mul : list Z -> list Z -> list Z;
  kr_scratch : list (list Z)
}.

(** keys.rs:214-254 ComputeKeyNonFft::generate (its [fft], 258-281, is part of the floating-point convention). All keys
    are generated into new, zero buffers. *)
Definition key_generate (pr : profile) (P : params) (sk : secret_key) (r : key_rnd) : res compute_key :=
  let N := p_N P in let k := p_k P in let n := p_n P in
  bs <- generate_bsk pr 64 (r_log (p_pbs P)) (r_count (p_pbs P)) n N k (repeat (ggsw_new N k (r_count (p_pbs P))) n) (s_lwe0 sk) (s_glwe1 sk) (kr_bs r) ;;
  ks <- lwe_gen_ksk pr 64 (r_log (p_ks P)) (r_count (p_ks P)) (k * N) n (ksk_new (k * N) n (r_count (p_ks P))) (to_lwe_sk (s_glwe1 sk)) (s_lwe0 sk) (kr_ks r) ;;
  ss <- generate_ssk pr 64 (r_log (p_ss P)) (r_count (p_ss P)) N k (repeat (repeat (glwe_new N k) (r_count (p_ss P))) (tri_count k)) (s_glwe1 sk) (kr_mul r) (kr_ss r) ;;
  auto <- generate_ak pr 64 (r_log (p_tr P)) (r_count (p_tr P)) N k (repeat (repeat (repeat (glwe_new N k) (r_count (p_tr P))) k) (Nat.log2 N)) (s_glwe1 sk) (kr_scratch r) (kr_auto r) ;;
  Ok {| k_bs := bs; k_ks := ks; k_ss := ss; k_auto := auto |}.

(** ** Ciphertexts: crypto/ciphertext.rs:25-32 Ciphertext *)
Inductive cct := KLwe0 (c : lwe) | KLwe1 (c : lwe) | KGlwe1 (c : glwe) | KGgsw1 (c : list (list glwe)) | KGlev1 (c : list glwe).
Definition cty_of (c : cct) : cty :=
  match c with KLwe0 _ => TLwe0 | KLwe1 _ => TLwe1 | KGlwe1 _ => TGlwe1 | KGgsw1 _ => TGgsw1 | KGlev1 _ => TGlev1 end.

(** ** Encryption: encryption.rs; every ciphertext has one plaintext bit (encryption.rs:132) *)

(** encryption.rs:168-187. *)
Definition enc_lwe0 (P : params) (sk : secret_key) (b : bool) (mask : list Z) (e : Z) : res lwe :=
  lwe_sk_encrypt 64 (p_n P) (s_lwe0 sk) (Z.b2z b) 1 mask e.
Definition enc_lwe1 (P : params) (sk : secret_key) (b : bool) (mask : list Z) (e : Z) : res lwe :=
  lwe_sk_encrypt 64 (p_k P * p_N P) (to_lwe_sk (s_glwe1 sk)) (Z.b2z b) 1 mask e.
(** encryption.rs:189-197. *)
Definition enc_glwe1 (P : params) (sk : secret_key) (m : list bool) (masks : list (list Z)) (e : option (list Z)) : res glwe :=
  glwe_encode_encrypt 64 (p_N P) (p_k P) (s_glwe1 sk) (map Z.b2z m) 1 masks e.
(** encryption.rs:220-232; sunscreen_tfhe/src/high_level.rs:757-768. *)
Definition enc_glev1 (pr : profile) (P : params) (sk : secret_key) (m : list bool) (rnd : list (list (list Z) * option (list Z))) : res (list glwe) :=
  glev_encrypt pr 64 (r_log (p_cbs P)) (r_count (p_cbs P)) (p_N P) (p_k P) (repeat (glwe_new (p_N P) (p_k P)) (r_count (p_cbs P))) (map Z.b2z m) (s_glwe1 sk) rnd.
(** encryption.rs:251-271: the polynomial is the constant [b]. *)
Definition enc_ggsw1 (pr : profile) (P : params) (sk : secret_key) (b : bool) (rnd : list (list (list (list Z) * option (list Z)))) : res (list (list glwe)) :=
  ggsw_encrypt pr 64 (r_log (p_cbs P)) (r_count (p_cbs P)) (p_N P) (p_k P) (ggsw_new (p_N P) (p_k P) (r_count (p_cbs P)))
    (upd (repeat 0 (p_N P)) 0 (fun _ => Z.b2z b)) (s_glwe1 sk) 1 rnd.

(** keys.rs:58-70 PublicKey::generate. *)
Definition pk_generate (P : params) (sk : secret_key) (masks : list (list Z)) (e : option (list Z)) : res glwe :=
  if (p_k P =? 1)%nat then rlwe_gen_pk 64 (p_N P) (p_k P) (glwe_new (p_N P) (p_k P)) (s_glwe1 sk) masks e else Panic.
(** encryption.rs:205-217. *)
Definition enc_rlwe1 (P : params) (pk : glwe) (m : list bool) (u e0 e1 : list Z) : res glwe :=
  rlwe_encode_encrypt_public 64 (p_N P) (p_k P) (glwe_new (p_N P) (p_k P)) (map Z.b2z m) pk 1 u e0 e1.
(** sunscreen_tfhe/src/ops/encryption/glev_encryption.rs:155-161, from column [j] on. The debugging output of line 158
    slices the first 16 coefficients, which panics when there are fewer; what it prints is not modelled. *)
Fixpoint rlev_loop (pr : profile) (log : Z) (N k : nat) (msg : list Z) (pk : glwe) (j : nat) (rlev : list glwe) (rnd : list (list Z * list Z * list Z)) : res (list glwe) :=
  match rlev, rnd with
  | c :: rlev, (u, e0, e1) :: rnd =>
      m <- scale_msg pr 64 log msg j ;;
      if (16 <=? length m)%nat then
        c' <- rlwe_encrypt_public 64 N k c m pk u e0 e1 ;;
        cs <- rlev_loop pr log N k msg pk (S j) rlev rnd ;;
        Ok (c' :: cs)
      else Panic
  | [], _ => Ok []
  | _, [] => Panic
  end.
(** encryption.rs:240-248; sunscreen_tfhe/src/high_level.rs:799-810, ops/encryption/glev_encryption.rs:135-162. *)
Definition enc_rlev1 (pr : profile) (P : params) (pk : glwe) (m : list bool) (rnd : list (list Z * list Z * list Z)) : res (list glwe) :=
  if radix_valid 64 (r_log (p_cbs P)) (r_count (p_cbs P)) && (length m =? p_N P)%nat && glwe_valid (p_N P) (p_k P) pk
  then rlev_loop pr (r_log (p_cbs P)) (p_N P) (p_k P) (map Z.b2z m) pk 0 (repeat (glwe_new (p_N P) (p_k P)) (r_count (p_cbs P))) rnd else Panic.

(** encryption.rs:274-291: decrypt and compare with 1. *)
Definition dec_lwe0 (pr : profile) (P : params) (sk : secret_key) (c : lwe) : res bool :=
  m <- lwe_decrypt pr 64 (p_n P) (s_lwe0 sk) c 1 ;; Ok (m =? 1).
Definition dec_lwe1 (pr : profile) (P : params) (sk : secret_key) (c : lwe) : res bool :=
  m <- lwe_decrypt pr 64 (p_k P * p_N P) (to_lwe_sk (s_glwe1 sk)) c 1 ;; Ok (m =? 1).
(** encryption.rs:294-310: coefficient 0 of the decrypted polynomial, compared with 1; [coeffs()[0]] panics when there
    is none. The inverse FFT of the ciphertext is part of the floating-point convention. *)
Definition dec_ggsw1 (pr : profile) (P : params) (sk : secret_key) (c : list (list glwe)) : res bool :=
  m <- ggsw_decrypt pr 64 (r_log (p_cbs P)) (r_count (p_cbs P)) (p_N P) (p_k P) (repeat 0 (p_N P)) c (s_glwe1 sk) ;;
  match m with x :: _ => Ok (x =? 1) | [] => Panic end.
(** encryption.rs:313-320. *)
Definition dec_glwe1 (pr : profile) (P : params) (sk : secret_key) (c : glwe) : res (list Z) :=
  glwe_decrypt_decode pr 64 (p_N P) (p_k P) (s_glwe1 sk) c 1.
(** encryption.rs:323-335; sunscreen_tfhe/src/ops/encryption/glev_encryption.rs:211-221 decrypts entry 0. *)
Definition dec_glev1 (pr : profile) (P : params) (sk : secret_key) (c : list glwe) : res (list Z) :=
  glev_decrypt_at pr 64 (r_log (p_cbs P)) (r_count (p_cbs P)) (p_N P) (p_k P) (repeat 0 (p_N P)) c (s_glwe1 sk) 0.

(** encryption.rs:386-424 and sunscreen_tfhe/src/high_level.rs:530-540. *)
Definition triv_lwe (dim : nat) (b : bool) : res lwe :=
  m <- t_encode 64 (Z.b2z b) 1 ;; lwe_trivial dim (lwe_new dim) m.
(** encryption.rs:345-376 (zero, and one with coefficient 0 set; indexing panics when there is none), sunscreen_tfhe/src/high_level.rs:658-679. *)
Definition triv_glwe_poly (N k : nat) (pt : list Z) : res glwe :=
  if glwe_dim_valid N k && (length pt =? N)%nat then
    b <- mapM (fun x => t_encode 64 x 1) pt ;; Ok {| ga := repeat (zpoly N) k; gb := b |}
  else Panic.
Definition bit_poly (N : nat) (b : bool) : res (list Z) :=
  if b then match N with O => Panic | S d => Ok (1 :: repeat 0 d) end else Ok (repeat 0 N).
Definition triv_glwe (P : params) (b : bool) : res glwe :=
  pt <- bit_poly (p_N P) b ;; triv_glwe_poly (p_N P) (p_k P) pt.
(** sunscreen_tfhe/src/ops/encryption/glev_encryption.rs:51-54 with trivial encryption, from column [j] on. *)
Fixpoint triv_glev_loop (pr : profile) (log : Z) (msg : list Z) (j : nat) (glev : list glwe) : res (list glwe) :=
  match glev with
  | [] => Ok []
  | c :: glev =>
      m <- scale_msg pr 64 log msg j ;;
      cs <- triv_glev_loop pr log msg (S j) glev ;;
      Ok (glwe_trivial c m :: cs)
  end.
(** encryption.rs:434-451: zero is a new ciphertext; one: high_level.rs:778-788, glev_encryption.rs:104-123. *)
Definition triv_glev (pr : profile) (P : params) (b : bool) : res (list glwe) :=
  let new := repeat (glwe_new (p_N P) (p_k P)) (r_count (p_cbs P)) in
  if b then
    msg <- bit_poly (p_N P) true ;;
    if radix_valid 64 (r_log (p_cbs P)) (r_count (p_cbs P)) then triv_glev_loop pr (r_log (p_cbs P)) msg 0 new else Panic
  else Ok new.

(** ** Evaluation *)

(** What one operation finds in its environment: the contents of the scratch buffers of a circuit bootstrap, the
    floating-point errors of its products and those of products with a selector. *)
Record fenv := {
  fe_lwe : lwe; fe_glwe : glwe; fe_glev : list glwe;
  fe_sel : nat -> glwe; fe_d1 : nat -> glwe; fe_d2 : nat -> nat -> glwe; fe_d3 : nat -> nat -> glwe
}.

(** sunscreen_tfhe/src/macros.rs:6-60 for Add on GlweCiphertext: wrapping, element by element, in every build. *)
Definition glwe_plus (a b : glwe) : glwe :=
  {| ga := zip_assign (poly_add_assign 64) (ga a) (ga b); gb := poly_add_assign 64 (gb a) (gb b) |}.

(** The processor: circuit_processor/mod.rs:62-78 with the Evaluation it owns (evaluation.rs:26-32, 144-149). *)
Record proc := {
  pc_params : params; pc_hw : hw; pc_pr : profile; pc_key : compute_key;
  pc_zero_lwe0 : lwe; pc_one_lwe0 : lwe; pc_zero_glwe1 : glwe; pc_one_glwe1 : glwe;
  pc_zero_ggsw1 : list (list glwe); pc_one_ggsw1 : list (list glwe);
  pc_zero_glev1 : list glwe; pc_one_glev1 : list glwe
}.

(** evaluation.rs:48-50, 53-55. *)
Definition ev_not (one x : glwe) : glwe := glwe_plus x one.
Definition ev_xor (a b : glwe) : glwe := glwe_plus a b.
(** evaluation.rs:58-65; the exponent is cast to isize (blind_rotation.rs:126-135). *)
Definition ev_mul_xn (P : params) (out x : glwe) (n : nat) : glwe :=
  let z := Z.of_nat n in glwe_rot 64 out x (if z <? 2 ^ 63 then z else z - 2 ^ 64).
(** evaluation.rs:68-83. *)
Definition ev_cmux (h : hw) (pr : profile) (P : params) (out : glwe) (sel : list (list glwe)) (a b : glwe) (f : fenv) : res glwe :=
  cmux h pr 64 (r_log (p_cbs P)) (r_count (p_cbs P)) (p_N P) (p_k P) out a b sel (fe_sel f O).
(** evaluation.rs:86-101. *)
Definition ev_glev_cmux (h : hw) (pr : profile) (P : params) (out : list glwe) (sel : list (list glwe)) (a b : list glwe) (f : fenv) : res (list glwe) :=
  glev_cmux h pr 64 (r_log (p_cbs P)) (r_count (p_cbs P)) (p_N P) (p_k P) out a b sel (fe_sel f).
(** evaluation.rs:104-123: into a cleared accumulator; the inverse FFT overwrites the output. *)
Definition ev_multiply (pr : profile) (P : params) (x : glwe) (g : list (list glwe)) (f : fenv) : res glwe :=
  c <- glwe_ggsw_mad pr 64 (r_log (p_cbs P)) (r_count (p_cbs P)) (p_N P) (p_k P) (glwe_new (p_N P) (p_k P)) x g ;;
  Ok (glwe_perturb 64 c (fe_sel f O)).
(** evaluation.rs:126-133. *)
Definition ev_sample_extract (P : params) (out : lwe) (x : glwe) (i : nat) : res lwe :=
  sample_extract 64 (p_N P) (p_k P) out x i.
(** evaluation.rs:211-225. *)
Definition ev_cbs (h : hw) (pr : profile) (P : params) (ck : compute_key) (out : list (list glwe)) (x : lwe) (f : fenv) : res (list (list glwe)) :=
  circuit_bootstrap h pr 64 (r_log (p_pbs P)) (r_log (p_tr P)) (r_log (p_ss P)) (r_log (p_cbs P)) (r_count (p_pbs P)) (r_count (p_tr P)) (r_count (p_ss P))
    (r_count (p_cbs P)) (p_n P) (p_N P) (p_k P) out x (k_bs ck) (k_auto ck) (k_ss ck) (fe_lwe f) (fe_glwe f) (fe_glev f) (fe_d1 f) (fe_d2 f) (fe_d3 f).
(** evaluation.rs:231-240. *)
Definition ev_scheme_switch (pr : profile) (P : params) (ck : compute_key) (out : list (list glwe)) (x : list glwe) (f : fenv) : res (list (list glwe)) :=
  scheme_switch_fft pr 64 (r_log (p_ss P)) (r_count (p_ss P)) (r_count (p_cbs P)) (p_N P) (p_k P) out x (k_ss ck) (fe_d3 f).
(** evaluation.rs:246-255. *)
Definition ev_keyswitch (pr : profile) (P : params) (ck : compute_key) (out x : lwe) : res lwe :=
  lwe_keyswitch pr 64 (r_log (p_ks P)) (r_count (p_ks P)) (p_k P * p_N P) (p_n P) out x (k_ks ck).

(** evaluation.rs:161-197 Evaluation::new (the GGSW constants are circuit bootstraps of trivial ciphertexts, with
    environments [f0] and [f1]) and mod.rs:83-124 CircuitProcessor::new. *)
Definition proc_new (h : hw) (pr : profile) (P : params) (ck : compute_key) (f0 f1 : fenv) : res proc :=
  z <- triv_lwe (p_n P) false ;;
  g0 <- ev_cbs h pr P ck (ggsw_new (p_N P) (p_k P) (r_count (p_cbs P))) z f0 ;;
  o <- triv_lwe (p_n P) true ;;
  g1 <- ev_cbs h pr P ck (ggsw_new (p_N P) (p_k P) (r_count (p_cbs P))) o f1 ;;
  zg <- triv_glwe P false ;; og <- triv_glwe P true ;;
  zl <- triv_glev pr P false ;; ol <- triv_glev pr P true ;;
  Ok {| pc_params := P; pc_hw := h; pc_pr := pr; pc_key := ck; pc_zero_lwe0 := z; pc_one_lwe0 := o; pc_zero_glwe1 := zg; pc_one_glwe1 := og;
        pc_zero_ggsw1 := g0; pc_one_ggsw1 := g1; pc_zero_glev1 := zl; pc_one_glev1 := ol |}.

(** ** Executing one operation *)
Definition cinputs := list (fedge * option cct).
Definition coutcome := (option cct * option (cty * nat * cct))%type.

(** Validation (task.rs:24-170) looks at labels, presence and kinds only, so it is that of FheGraph.v on ciphertexts
    of the same kinds. *)
Definition shape_of (c : cct) : ct :=
  match c with KLwe0 _ => CLwe0 false | KLwe1 _ => CLwe1 false | KGlwe1 _ => CGlwe1 [] | KGgsw1 _ => CGgsw1 false | KGlev1 _ => CGlev1 false end.
Definition shapes (ins : cinputs) : tinputs := map (fun p => (fst p, option_map shape_of (snd p))) ins.

(** crypto/ciphertext.rs:65-99 borrow_xxx. *)
Definition as_lwe0 (c : option cct) : res lwe := match c with Some (KLwe0 c) => Ok c | _ => Panic end.
Definition as_lwe1 (c : option cct) : res lwe := match c with Some (KLwe1 c) => Ok c | _ => Panic end.
Definition as_glwe (c : option cct) : res glwe := match c with Some (KGlwe1 c) => Ok c | _ => Panic end.
Definition as_ggsw (c : option cct) : res (list (list glwe)) := match c with Some (KGgsw1 c) => Ok c | _ => Panic end.
Definition as_glev (c : option cct) : res (list glwe) := match c with Some (KGlev1 c) => Ok c | _ => Panic end.
Definition kin0 (ins : cinputs) : res (option cct) := match ins with p :: _ => Ok (snd p) | [] => Panic end.
Definition kin1 (ins : cinputs) : res (option cct) := match ins with _ :: p :: _ => Ok (snd p) | _ => Panic end.
Definition kinl (l : fedge) (ins : cinputs) : res (option cct) :=
  match find (fun p => fedge_eqb (fst p) l) ins with Some p => Ok (snd p) | None => Panic end.

(** The constants: mod.rs:475-507. *)
Definition kconst (pc : proc) (t : cty) (b : bool) : res cct :=
  match t with
  | TLwe0 => Ok (KLwe0 (if b then pc_one_lwe0 pc else pc_zero_lwe0 pc))
  | TGlwe1 => Ok (KGlwe1 (if b then pc_one_glwe1 pc else pc_zero_glwe1 pc))
  | TGgsw1 => Ok (KGgsw1 (if b then pc_one_ggsw1 pc else pc_zero_ggsw1 pc))
  | TGlev1 => Ok (KGlev1 (if b then pc_one_glev1 pc else pc_zero_glev1 pc))
  | TLwe1 => Panic
  end.

(** mod.rs:255-540 after validation, operation by operation; every result goes into a newly allocated ciphertext. *)
Definition krun_op (pc : proc) (f : fenv) (cells : cty -> nat -> cct) (op : fop) (ins : cinputs) : res coutcome :=
  let P := pc_params pc in let h := pc_hw pc in let pr := pc_pr pc in let ck := pc_key pc in
  let N := p_N P in let k := p_k P in
  let out c := Ok (Some c, None) in
  match op with
  | FInput t r => out (cells t r)
  | FOutput t r =>
      c <- kin0 ins ;;
      match c with Some c => if cty_eqb (cty_of c) t then Ok (None, Some (t, r, c)) else Panic | None => Panic end
  | FCbs => c <- kin0 ins ;; x <- as_lwe0 c ;; g <- ev_cbs h pr P ck (ggsw_new N k (r_count (p_cbs P))) x f ;; out (KGgsw1 g)
  | FNot => c <- kin0 ins ;; x <- as_glwe c ;; out (KGlwe1 (ev_not (pc_one_glwe1 pc) x))
  | FGlweAdd => c <- kin0 ins ;; x <- as_glwe c ;; c' <- kin1 ins ;; y <- as_glwe c' ;; out (KGlwe1 (ev_xor x y))
  | FMultiply =>
      c <- kinl EGlwe ins ;; x <- as_glwe c ;; c' <- kinl EGgsw ins ;; g <- as_ggsw c' ;;
      r <- ev_multiply pr P x g f ;; out (KGlwe1 r)
  | FCMux =>
      c <- kinl ELow ins ;; a <- as_glwe c ;; c' <- kinl EHigh ins ;; b <- as_glwe c' ;; s <- kinl ESel ins ;; s <- as_ggsw s ;;
      r <- ev_cmux h pr P (glwe_new N k) s a b f ;; out (KGlwe1 r)
  | FGlevCMux =>
      c <- kinl ELow ins ;; a <- as_glev c ;; c' <- kinl EHigh ins ;; b <- as_glev c' ;; s <- kinl ESel ins ;; s <- as_ggsw s ;;
      r <- ev_glev_cmux h pr P (repeat (glwe_new N k) (r_count (p_cbs P))) s a b f ;; out (KGlev1 r)
  | FKeyswitch => c <- kin0 ins ;; x <- as_lwe1 c ;; r <- ev_keyswitch pr P ck (lwe_new (p_n P)) x ;; out (KLwe0 r)
  | FSampleExtract i => c <- kin0 ins ;; x <- as_glwe c ;; r <- ev_sample_extract P (lwe_new (k * N)) x i ;; out (KLwe1 r)
  | FZero t => c <- kconst pc t false ;; out c
  | FOne t => c <- kconst pc t true ;; out c
  | FMulXN n => c <- kinl EUnary ins ;; x <- as_glwe c ;; out (KGlwe1 (ev_mul_xn P (glwe_new N k) x n))
  | FSchemeSwitch =>
      c <- kinl EUnary ins ;; x <- as_glev c ;; g <- ev_scheme_switch pr P ck (ggsw_new N k (r_count (p_cbs P))) x f ;; out (KGgsw1 g)
  | FRetire | FNop => Ok (None, None)
  end.
Definition kexec_op (pc : proc) (f : fenv) (cells : cty -> nat -> cct) (op : fop) (ins : cinputs) : res coutcome :=
  _ <- validate (p_N (pc_params pc)) op (shapes ins) ;; krun_op pc f cells op ins.
