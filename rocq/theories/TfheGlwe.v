(** Model of GLWE, GLEV and GGSW ciphertexts of sunscreen_tfhe: encryption, decryption, linear operations,
    sample extraction, external product, key switching and public-key encryption (the integer versions; the
    FFT versions are in FftGlwe.v).

    [N] is the polynomial degree, [k] the GLWE size. A ciphertext is stored as one slice and split into
    [k] mask polynomials and the body (entities/glwe_ciphertext.rs:84-95 [a_b]); here it is already split. *)
From Verif Require Export Base Tfhe.
From Verif Require Import Alu MuxGraph.
Open Scope Z_scope.

Record glwe := { ga : list (list Z); gb : list Z }.

(** sunscreen_tfhe/src/params.rs:145-151 [GlweDimension::assert_valid]. *)
Definition glwe_dim_valid (N k : nat) : bool := is_pow2 N && (0 <? N)%nat && (0 <? k)%nat.

(** [assert_is_valid] for a GLWE ciphertext / secret key (sunscreen_tfhe/src/dst.rs:500-523; the sizes are
    (k+1)*N and k*N). *)
Definition polys_valid (N k : nat) (l : list (list Z)) : bool :=
  (length l =? k)%nat && forallb (fun p => (length p =? N)%nat) l.
Definition glwe_valid (N k : nat) (c : glwe) : bool := polys_valid N k (ga c) && (length (gb c) =? N)%nat.

(** A zero polynomial: [Polynomial::zero]. *)
Definition zpoly (N : nat) : list Z := repeat 0 N.
(** sunscreen_tfhe/src/entities/glwe_ciphertext.rs:50-58 [GlweCiphertext::new]. *)
Definition glwe_new (N k : nat) : glwe := {| ga := repeat (zpoly N) k; gb := zpoly N |}.

(** ** Encryption *)

(** The loop of sunscreen_tfhe/src/ops/encryption/glwe_encryption.rs:35-42; [masks] are the uniform
    polynomials drawn. Returns the new mask polynomials and [tmp]. *)
Fixpoint glwe_enc_loop (w : Z) (a sk masks : list (list Z)) (tmp : list Z) : res (list (list Z) * list Z) :=
  match a, sk, masks with
  | _ :: a, s :: sk, m :: masks =>
      tmp' <- poly_mad w tmp m s ;;
      ' (a', t) <- glwe_enc_loop w a sk masks tmp' ;;
      Ok (m :: a', t)
  | a, _, _ => Ok (a, tmp)
  end.
(** sunscreen_tfhe/src/ops/encryption/glwe_encryption.rs:22-62 [encrypt_glwe_ciphertext_secret_generic]
    (and 65-76). [c] is the output buffer, whose body is added to; [e] is the error polynomial, [None] when
    the standard deviation is zero. *)
Definition glwe_encrypt (w : Z) (N : nat) (c : glwe) (msg : list Z) (sk masks : list (list Z))
    (e : option (list Z)) : res glwe :=
  ' (a, tmp) <- glwe_enc_loop w (ga c) sk masks (zpoly N) ;;
  let b := poly_add_assign w (poly_add_assign w (gb c) tmp) msg in
  Ok {| ga := a; gb := match e with None => b | Some e => poly_add_assign w b e end |}.

(** sunscreen_tfhe/src/ops/encryption/glwe_encryption.rs:79-98. [clone_from_ref] (dst.rs:45-49) zips. *)
Definition glwe_trivial (c : glwe) (msg : list Z) : glwe :=
  {| ga := map (map (fun _ => 0)) (ga c); gb := zip_assign (fun _ x => x) (gb c) msg |}.

(** [tmp += sum A_i * S_i]: sunscreen_tfhe/src/ops/encryption/glwe_encryption.rs:116-119. *)
Fixpoint glwe_dot (w : Z) (a sk : list (list Z)) (tmp : list Z) : res (list Z) :=
  match a, sk with
  | x :: a, s :: sk => tmp' <- poly_mad w tmp x s ;; glwe_dot w a sk tmp'
  | _, _ => Ok tmp
  end.
(** sunscreen_tfhe/src/ops/encryption/glwe_encryption.rs:104-124 [decrypt_glwe_ciphertext]; [msg] is the
    output buffer. *)
Definition glwe_decrypt (w : Z) (msg : list Z) (ct : glwe) (sk : list (list Z)) : res (list Z) :=
  let msg := zip_assign (fun _ x => x) msg (gb ct) in
  tmp <- glwe_dot w (ga ct) sk (zpoly (length (gb ct))) ;;
  Ok (poly_sub_assign w msg tmp).

(** sunscreen_tfhe/src/entities/glwe_secret_key.rs:89-109 [decrypt_decode_glwe]. *)
Definition glwe_decrypt_decode (pr : profile) (w : Z) (N k : nat) (sk : list (list Z)) (ct : glwe) (p : Z)
  : res (list Z) :=
  if glwe_dim_valid N k && (p <? w) && glwe_valid N k ct then
    m <- glwe_decrypt w (zpoly N) ct sk ;; mapM (fun x => t_decode pr w x p) m
  else Panic.
(** sunscreen_tfhe/src/entities/glwe_secret_key.rs:112-127 [encode_encrypt_glwe]. *)
Definition glwe_encode_encrypt (w : Z) (N k : nat) (sk : list (list Z)) (pt : list Z) (p : Z)
    (masks : list (list Z)) (e : option (list Z)) : res glwe :=
  if glwe_dim_valid N k then
    m <- mapM (fun x => t_encode w x p) pt ;;
    glwe_encrypt w N (glwe_new N k) m sk masks e
  else Panic.

(** ** Linear operations: sunscreen_tfhe/src/ops/ciphertext/glwe_ciphertext_ops.rs *)

(** [for (c, (a, b)) in cs.zip(as.zip(bs)) { f(c, a, b) }]. *)
Fixpoint zip3M (f : list Z -> list Z -> list Z -> res (list Z)) (c a b : list (list Z)) : res (list (list Z)) :=
  match c, a, b with
  | x :: c, y :: a, z :: b => x' <- f x y z ;; c' <- zip3M f c a b ;; Ok (x' :: c')
  | c, _, _ => Ok c
  end.
Fixpoint zip2M (f : list Z -> list Z -> res (list Z)) (c a : list (list Z)) : res (list (list Z)) :=
  match c, a with
  | x :: c, y :: a => x' <- f x y ;; c' <- zip2M f c a ;; Ok (x' :: c')
  | c, _ => Ok c
  end.

(** lines 79-99 [add_glwe_ciphertexts]. *)
Definition glwe_add (h : hw) (pr : profile) (w : Z) (c a b : glwe) : res glwe :=
  if (length (ga c) =? length (ga a))%nat && (length (ga c) =? length (ga b))%nat then
    x <- zip3M (poly_add h pr w) (ga c) (ga a) (ga b) ;;
    y <- poly_add h pr w (gb c) (gb a) (gb b) ;;
    Ok {| ga := x; gb := y |}
  else Panic.
(** lines 102-120 [glwe_add_assign]. *)
Definition glwe_add_assign (w : Z) (N k : nat) (c a : glwe) : res glwe :=
  if glwe_dim_valid N k && glwe_valid N k c && glwe_valid N k a then
    Ok {| ga := zip_assign (poly_add_assign w) (ga c) (ga a); gb := poly_add_assign w (gb c) (gb a) |}
  else Panic.
(** lines 123-143 [sub_glwe_ciphertexts]. *)
Definition glwe_sub (h : hw) (pr : profile) (w : Z) (c a b : glwe) : res glwe :=
  if (length (ga c) =? length (ga a))%nat && (length (ga c) =? length (ga b))%nat then
    x <- zip3M (poly_sub h pr w) (ga c) (ga a) (ga b) ;;
    y <- poly_sub h pr w (gb c) (gb a) (gb b) ;;
    Ok {| ga := x; gb := y |}
  else Panic.
(** lines 149-158 [glwe_negate_inplace]; also [impl_unary_op!(Neg, GlweCiphertext)]. *)
Definition glwe_negate (w : Z) (c : glwe) : glwe :=
  {| ga := map (poly_negate w) (ga c); gb := poly_negate w (gb c) |}.
(** lines 166-186 [glwe_polynomial_mad]. *)
Definition glwe_poly_mad (w : Z) (k : nat) (c a : glwe) (b : list Z) : res glwe :=
  if (length (ga c) =? k)%nat && (length (ga a) =? k)%nat then
    x <- zip2M (fun c a => poly_mad w c a b) (ga c) (ga a) ;;
    y <- poly_mad w (gb c) (gb a) b ;;
    Ok {| ga := x; gb := y |}
  else Panic.
(** lines 188-202 [glwe_scalar_mad]. *)
Definition glwe_scalar_mad (h : hw) (pr : profile) (w : Z) (c a : glwe) (s : Z) : res glwe :=
  x <- zip2M (fun c a => poly_small_scalar_mad h pr w c a s) (ga c) (ga a) ;;
  y <- poly_small_scalar_mad h pr w (gb c) (gb a) s ;;
  Ok {| ga := x; gb := y |}.
(** lines 296-318 [glwe_rotate]. *)
Definition glwe_rotate (w : Z) (y x : glwe) (r : Z) : glwe :=
  {| ga := zip_assign (fun _ x => x) (ga y) (ga x);
     gb := zip_assign (fun _ x => tadd w x r) (gb y) (gb x) |}.

(** lines 31-76 [sample_extract]; every element of the output mask is written. *)
Definition extract_poly (w : Z) (N h : nat) (p : list Z) : list Z :=
  map (fun j => if (j <=? h)%nat then nth (h - j) p 0 else tneg w (nth (h + N - j) p 0)) (seq 0 N).
Definition sample_extract (w : Z) (N k : nat) (out : lwe) (c : glwe) (h : nat) : res lwe :=
  if glwe_valid N k c && (h <? N)%nat && (length (lwe_a out) =? k * N)%nat then
    Ok {| lwe_a := concat (map (extract_poly w N h) (ga c)); lwe_b := nth h (gb c) 0 |}
  else Panic.
(** sunscreen_tfhe/src/entities/glwe_secret_key.rs:157-159 [to_lwe_secret_key]. *)
Definition to_lwe_sk (sk : list (list Z)) : list Z := concat sk.

(** ** GLEV and GGSW *)

(** sunscreen_tfhe/src/ops/encryption/glev_encryption.rs:65-77 [scale_msg_by_gadget_factor]; the scratch
    polynomial is overwritten. *)
Definition scale_msg (pr : profile) (w log : Z) (msg : list Z) (j : nat) : res (list Z) :=
  f <- gadget_factor pr w log j ;; Ok (poly_scalar_mul w msg msg f).

(** The loop of sunscreen_tfhe/src/ops/encryption/glev_encryption.rs:51-54 from column [j] on. *)
Fixpoint glev_enc_loop (pr : profile) (w log : Z) (N : nat) (sk : list (list Z)) (msg : list Z) (j : nat)
    (glev : list glwe) (rnd : list (list (list Z) * option (list Z))) : res (list glwe) :=
  match glev, rnd with
  | c :: glev, (masks, e) :: rnd =>
      m <- scale_msg pr w log msg j ;;
      c' <- glwe_encrypt w N c m sk masks e ;;
      cs <- glev_enc_loop pr w log N sk msg (S j) glev rnd ;;
      Ok (c' :: cs)
  | glev, _ => Ok glev
  end.
Definition glev_valid (N k count : nat) (l : list glwe) : bool :=
  (length l =? count)%nat && forallb (glwe_valid N k) l.
(** sunscreen_tfhe/src/ops/encryption/glev_encryption.rs:23-55, with [encrypt] the secret-key encryption. *)
Definition glev_encrypt (pr : profile) (w log : Z) (count N k : nat) (glev : list glwe) (msg : list Z)
    (sk : list (list Z)) (rnd : list (list (list Z) * option (list Z))) : res (list glwe) :=
  if radix_valid w log count && glev_valid N k count glev && (length msg =? N)%nat && polys_valid N k sk
  then glev_enc_loop pr w log N sk msg 0 glev rnd else Panic.

(** sunscreen_tfhe/src/ops/encryption/glev_encryption.rs:164-200 [decrypt_glwe_in_glev]. *)
Definition glev_decrypt_at (pr : profile) (w log : Z) (count N k : nat) (msg : list Z) (glev : list glwe)
    (sk : list (list Z)) (idx : nat) : res (list Z) :=
  if radix_valid w log count && (length msg =? N)%nat && glwe_dim_valid N k && glev_valid N k count glev
     && polys_valid N k sk then
    match nth_error glev idx with
    | None => Panic
    | Some c =>
        m <- glwe_decrypt w msg c sk ;;
        one <- ushl pr 64 1 log ;;
        mask <- usub pr 64 one 1 ;;
        mapM (fun x =>
          s <- usub pr 64 w (log * (Z.of_nat idx + 1)) ;;
          val <- ushr pr w x s ;;
          s1 <- usub pr 64 s 1 ;;
          r <- ushr pr w x s1 ;;
          sum <- uadd pr w val (Z.land r 1) ;;
          Ok (Z.land sum (uwrap w mask))) m
    end
  else Panic.

(** The loop of sunscreen_tfhe/src/ops/encryption/ggsw_encryption.rs:40-70 from row [i] on. [sk] is the key,
    [ss] the part of it not used yet. *)
Fixpoint ggsw_enc_loop (pr : profile) (w log : Z) (count N k : nat) (sk ss : list (list Z)) (msg : list Z)
    (i : nat) (rows : list (list glwe)) (rnd : list (list (list (list Z) * option (list Z))))
  : res (list (list glwe)) :=
  match rows, rnd with
  | row :: rows, r :: rnd =>
      m <- (if (i <? k)%nat then
              match ss with
              | [] => Panic
              | s :: _ => ms <- poly_mad w (zpoly N) msg s ;; Ok (map (tneg w) ms)
              end
            else Ok msg) ;;
      row' <- glev_encrypt pr w log count N k row m sk r ;;
      rows' <- ggsw_enc_loop pr w log count N k sk (tl ss) msg (S i) rows rnd ;;
      Ok (row' :: rows')
  | rows, _ => Ok rows
  end.
(** sunscreen_tfhe/src/ops/encryption/ggsw_encryption.rs:16-71. *)
Definition ggsw_encrypt (pr : profile) (w log : Z) (count N k : nat) (ggsw : list (list glwe)) (msg : list Z)
    (sk : list (list Z)) (p : Z) (rnd : list (list (list (list Z) * option (list Z)))) : res (list (list glwe)) :=
  m <- ushl pr 64 1 p ;;
  if forallb (fun x => x <? uwrap w m) msg
  then ggsw_enc_loop pr w log count N k sk sk msg 0 ggsw rnd else Panic.
(** sunscreen_tfhe/src/ops/encryption/ggsw_encryption.rs:122-145 [encrypt_ggsw_ciphertext_scalar]. *)
Definition ggsw_encrypt_scalar (pr : profile) (w log : Z) (count N k : nat) (ggsw : list (list glwe)) (msg : Z)
    (sk : list (list Z)) (p : Z) (rnd : list (list (list (list Z) * option (list Z)))) : res (list (list glwe)) :=
  if (N =? 0)%nat then Panic
  else ggsw_encrypt pr w log count N k ggsw (msg :: repeat 0 (N - 1)) sk p rnd.
Definition ggsw_valid (N k count : nat) (g : list (list glwe)) : bool :=
  (length g =? k + 1)%nat && forallb (glev_valid N k count) g.
(** sunscreen_tfhe/src/ops/encryption/ggsw_encryption.rs:163-184 [decrypt_ggsw_ciphertext] (and 147-160). *)
Definition ggsw_decrypt (pr : profile) (w log : Z) (count N k : nat) (msg : list Z) (ggsw : list (list glwe))
    (sk : list (list Z)) : res (list Z) :=
  if (length msg =? N)%nat && glwe_dim_valid N k && radix_valid w log count && ggsw_valid N k count ggsw
     && polys_valid N k sk then
    match nth_error ggsw k with None => Panic | Some row => glev_decrypt_at pr w log count N k msg row sk 0 end
  else Panic.

(** sunscreen_tfhe/src/ops/ciphertext/glev_ciphertext_ops.rs:39-42; [bs] is the GLEV ciphertext reversed. *)
Fixpoint glev_mad_loop (pr : profile) (w log : Z) (count k : nat) (it : radix_iter) (cur : list Z)
    (bs : list glwe) (c : glwe) : res glwe :=
  match bs with
  | [] => Ok c
  | b :: bs =>
      ' (it', cur') <- write_next pr w log count it cur ;;
      c' <- glwe_poly_mad w k c b cur' ;;
      glev_mad_loop pr w log count k it' cur' bs c'
  end.
(** lines 18-43 [decomposed_polynomial_glev_mad], with the iterator made from the polynomial [a]. *)
Definition glev_mad (pr : profile) (w log : Z) (count N k : nat) (c : glwe) (a : list Z) (glev : list glwe)
  : res glwe :=
  it <- radix_new pr w log count a ;;
  glev_mad_loop pr w log count k it (zpoly N) (rev glev) c.
(** [for (a_i, r) in polys.zip(rows) { glev_mad }]:
    sunscreen_tfhe/src/ops/ciphertext/glwe_ciphertext_ops.rs:245-252, ops/keyswitch/glwe_keyswitch.rs:43-47. *)
Fixpoint rows_mad (pr : profile) (w log : Z) (count N k : nat) (c : glwe) (polys : list (list Z))
    (rows : list (list glwe)) : res glwe :=
  match polys, rows with
  | a :: polys, r :: rows => c' <- glev_mad pr w log count N k c a r ;; rows_mad pr w log count N k c' polys rows
  | _, _ => Ok c
  end.
(** sunscreen_tfhe/src/ops/ciphertext/glwe_ciphertext_ops.rs:214-253 [glwe_ggsw_mad]: c += a [*] b. *)
Definition glwe_ggsw_mad (pr : profile) (w log : Z) (count N k : nat) (c a : glwe) (b : list (list glwe)) : res glwe :=
  rows_mad pr w log count N k c (ga a ++ [gb a]) b.
(** lines 257-270 [external_product_ggsw_glwe]. *)
Definition external_product (pr : profile) (w log : Z) (count N k : nat) (ggsw : list (list glwe)) (c : glwe) : res glwe :=
  glwe_ggsw_mad pr w log count N k (glwe_new N k) c ggsw.

(** ** GLWE key switching *)

(** sunscreen_tfhe/src/ops/keyswitch/glwe_keyswitch.rs:26-55 [keyswitch_glwe_to_glwe]. *)
Definition glwe_keyswitch (h : hw) (pr : profile) (w log : Z) (count N k : nat) (out ct : glwe)
    (ksk : list (list glwe)) : res glwe :=
  sum <- rows_mad pr w log count N k (glwe_new N k) (ga ct) ksk ;;
  glwe_sub h pr w out (glwe_trivial (glwe_new N k) (gb ct)) sum.

(** sunscreen_tfhe/src/ops/keyswitch/glwe_keyswitch_key.rs:47-68: row i holds encryptions of the old key's
    polynomial s_i scaled by the gadget factors. *)
Fixpoint gksk_loop (pr : profile) (w log : Z) (N : nat) (oldsk newsk : list (list Z)) (rows : list (list glwe))
    (rnd : list (list (list (list Z) * option (list Z)))) : res (list (list glwe)) :=
  match rows, oldsk, rnd with
  | row :: rows, s :: oldsk, r :: rnd =>
      row' <- glev_enc_loop pr w log N newsk s 0 row r ;;
      rows' <- gksk_loop pr w log N oldsk newsk rows rnd ;;
      Ok (row' :: rows')
  | [], _, _ => Ok []
  | _, [], _ => Panic
  | rows, _, [] => Ok rows
  end.

(** ** RLWE public-key encryption (k = 1) *)

(** sunscreen_tfhe/src/ops/encryption/rlwe_encryption.rs:47-60 [rlwe_generate_public_key]. *)
Definition rlwe_gen_pk (w : Z) (N k : nat) (pk : glwe) (sk masks : list (list Z)) (e : option (list Z)) : res glwe :=
  if (k =? 1)%nat then glwe_encrypt w N pk (zpoly N) sk masks e else Panic.
(** sunscreen_tfhe/src/ops/encryption/rlwe_encryption.rs:125-161 [rlwe_encrypt_public_impl]; the ciphertext
    buffer is cleared first. *)
Definition rlwe_encrypt_public (w : Z) (N k : nat) (ct : glwe) (msg : list Z) (pk : glwe) (u e0 e1 : list Z) : res glwe :=
  if (k =? 1)%nat && (length msg =? N)%nat && glwe_valid N k ct && glwe_valid N k pk then
    match ga pk with
    | p0 :: _ =>
        a <- poly_mad w (zpoly N) p0 u ;;
        b <- poly_mad w (zpoly N) (gb pk) u ;;
        Ok {| ga := [poly_add_assign w a e0];
              gb := poly_add_assign w (poly_add_assign w b e1) msg |}
    | [] => Panic
    end
  else Panic.
(** sunscreen_tfhe/src/ops/encryption/rlwe_encryption.rs:69-85 [rlwe_encode_encrypt_public]. *)
Definition rlwe_encode_encrypt_public (w : Z) (N k : nat) (ct : glwe) (msg : list Z) (pk : glwe) (p : Z)
    (u e0 e1 : list Z) : res glwe :=
  m <- mapM (fun x => t_encode w x p) msg ;; rlwe_encrypt_public w N k ct m pk u e0 e1.
