(** Model of the arithmetic layer of sunscreen_tfhe: torus encoding, radix decomposition, polynomial
    arithmetic, LWE encryption, linear operations and LWE key switching.

    [w] is the word size S::BITS (32 for u32, 64 for u64, sunscreen_tfhe/src/math/torus.rs:213-214). A
    torus element or key coefficient is an integer in [0, 2^w). Randomness (uniform masks, Gaussian
    errors, sunscreen_tfhe/src/rand.rs) is an explicit argument, so every theorem holds for every draw. *)
From Verif Require Export Base.
From Verif Require Import Alu MuxGraph.
Open Scope Z_scope.

(** ** Torus arithmetic: sunscreen_tfhe/src/math/torus.rs:341-480 — every operator wraps. *)
Definition tadd (w a b : Z) : Z := uwrap w (a + b).
Definition tsub (w a b : Z) : Z := uwrap w (a - b).
Definition tneg (w a : Z) : Z := uwrap w (- a).
Definition tmul (w a s : Z) : Z := uwrap w (a * s).

(** [wrapping_shl] / [wrapping_shr] of the num crate: the amount is reduced modulo the word size. *)
Definition wshl (w a s : Z) : Z := uwrap w (a * 2 ^ (s mod w)).
Definition wshr (w a s : Z) : Z := a / 2 ^ (s mod w).

(** sunscreen_tfhe/src/math/torus.rs:284-290 [Torus::encode]. *)
Definition t_encode (w val p : Z) : res Z :=
  if p <? w then Ok (wshl w val (w - p)) else Panic.

(** sunscreen_tfhe/src/math/torus.rs:293-300 [Torus::decode]. The literal mask [(0x1 << p) - 1] is a u32
    ([S: From<u32>]). *)
Definition t_decode (pr : profile) (w x p : Z) : res Z :=
  if p <? w then
    let round_bit := Z.land (wshr w x (w - p - 1)) 1 in
    one <- ushl pr 32 1 p ;;
    mask <- usub pr 32 one 1 ;;
    sum <- uadd pr w (wshr w x (w - p)) round_bit ;;
    Ok (Z.land sum mask)
  else Panic.

(** ** Radix decomposition: sunscreen_tfhe/src/math/radix.rs, math/simd/scalar.rs *)

(** sunscreen_tfhe/src/math/radix.rs:157-162 [round]. *)
Definition radix_round (pr : profile) (w log count x : Z) : res Z :=
  shift <- usub pr 64 w (log * count) ;;
  s1 <- usub pr 64 shift 1 ;;
  r <- ushr pr w x s1 ;;
  h <- ushr pr w x shift ;;
  Ok (tadd w h (Z.land r 1)).

(** sunscreen_tfhe/src/math/radix.rs:35-47 [get_next_digit] ([+] is checked). Returns (digit, cur). *)
Definition scalar_next_digit (pr : profile) (w log cur : Z) : res (Z * Z) :=
  one <- ushl pr 64 1 log ;;
  m <- usub pr 64 one 1 ;;
  let digit := Z.land cur (uwrap w m) in
  cur1 <- ushr pr w cur log ;;
  l1 <- usub pr 64 log 1 ;;
  carry <- ushr pr w digit l1 ;;
  cur2 <- uadd pr w cur1 carry ;;
  c <- ushl pr w carry log ;;
  Ok (tsub w digit c, cur2).

(** sunscreen_tfhe/src/math/radix.rs:52-63 [ScalarRadixIterator::next], run to exhaustion: [n] digits,
    least significant first. *)
Fixpoint scalar_digits_from (pr : profile) (w log : Z) (n : nat) (cur : Z) : res (list Z) :=
  match n with
  | O => Ok []
  | S n =>
      ' (d, cur') <- scalar_next_digit pr w log cur ;;
      ds <- scalar_digits_from pr w log n cur' ;;
      Ok (d :: ds)
  end.

(** sunscreen_tfhe/src/math/radix.rs:25-32 [ScalarRadixIterator::new] followed by iteration. *)
Definition scalar_digits (pr : profile) (w log : Z) (count : nat) (x : Z) : res (list Z) :=
  cur <- radix_round pr w log (Z.of_nat count) x ;;
  scalar_digits_from pr w log count cur.

(** sunscreen_tfhe/src/math/simd/scalar.rs:52-72 [vector_next_decomp], the body of the loop (the carry
    is added with [wrapping_add]). Returns (digit, s). *)
Definition vec_next_digit (pr : profile) (w log s : Z) : res (Z * Z) :=
  one <- ushl pr 64 1 log ;;
  m <- usub pr 64 one 1 ;;
  let digit := Z.land s (uwrap w m) in
  s1 <- ushr pr w s log ;;
  l1 <- usub pr 64 log 1 ;;
  carry <- ushr pr w digit l1 ;;
  c <- ushl pr w carry log ;;
  Ok (tsub w digit c, tadd w s1 carry).

(** The state of a [PolynomialRadixIterator] (sunscreen_tfhe/src/math/radix.rs:68-75). *)
Record radix_iter := { ri_scratch : list Z; ri_level : nat }.

(** sunscreen_tfhe/src/math/radix.rs:81-96 [PolynomialRadixIterator::new]. *)
Definition radix_new (pr : profile) (w log : Z) (count : nat) (p : list Z) : res radix_iter :=
  if (log * Z.of_nat count <? w) && negb (log * Z.of_nat count =? 0) then
    s <- mapM (radix_round pr w log (Z.of_nat count)) p ;;
    Ok {| ri_scratch := s; ri_level := 0 |}
  else Panic.

(** sunscreen_tfhe/src/math/radix.rs:99-113 [write_next]: the new iterator and the new contents of the
    destination, which is left alone when the iterator is exhausted. *)
Definition write_next (pr : profile) (w log : Z) (count : nat) (it : radix_iter) (dst : list Z)
  : res (radix_iter * list Z) :=
  if (ri_level it =? count)%nat then Ok (it, dst)
  else
    r <- mapM (vec_next_digit pr w log) (ri_scratch it) ;;
    Ok ({| ri_scratch := map snd r; ri_level := S (ri_level it) |}, map fst r).

(** sunscreen_tfhe/src/math/radix.rs:144-153 [scale_by_decomposition_factor]. *)
Definition scale_by_decomposition_factor (pr : profile) (w log val : Z) (j : nat) : res Z :=
  shift <- usub pr 64 w (log * (Z.of_nat j + 1)) ;;
  factor <- ushl pr w 1 shift ;;
  Ok (tmul w val factor).

(** [S::from_u64(0x1 << (S::BITS as usize - radix_log * (j + 1)))]: the gadget factor as computed in
    sunscreen_tfhe/src/ops/keyswitch/lwe_keyswitch_key.rs:42-43, glwe_keyswitch_key.rs:61-62 and
    ops/encryption/glev_encryption.rs:74. *)
Definition gadget_factor (pr : profile) (w log : Z) (j : nat) : res Z :=
  shift <- usub pr 64 w (log * (Z.of_nat j + 1)) ;;
  f <- ushl pr 64 1 shift ;;
  Ok (uwrap w f).

(** sunscreen_tfhe/src/params.rs:118-125 [RadixDecomposition::assert_valid]. *)
Definition radix_valid (w log : Z) (count : nat) : bool :=
  (0 <? Z.of_nat count) && (0 <? log) && (Z.of_nat count * log <=? w).

(** ** Polynomials: lists of coefficients, constant term first *)

(** [for (a, b) in l.iter_mut().zip(r) { *a = f(a, b) }]: a longer [l] keeps its tail. *)
Fixpoint zip_assign {A B} (f : A -> B -> A) (l : list A) (r : list B) : list A :=
  match l, r with
  | x :: l, y :: r => f x y :: zip_assign f l r
  | l, _ => l
  end.

(** sunscreen_tfhe/src/math/polynomial.rs:88-99 [polynomial_add_assign]. *)
Definition poly_add_assign (w : Z) (l r : list Z) : list Z := zip_assign (tadd w) l r.
(** sunscreen_tfhe/src/math/polynomial.rs:18-29 [polynomial_sub_assign]. *)
Definition poly_sub_assign (w : Z) (l r : list Z) : list Z := zip_assign (tsub w) l r.
(** sunscreen_tfhe/src/math/polynomial.rs:33-40 [polynomial_negate]. *)
Definition poly_negate (w : Z) (c : list Z) : list Z := map (tneg w) c.
(** sunscreen_tfhe/src/math/polynomial.rs:43-52 [polynomial_scalar_mul]: [c = a * s]. *)
Definition poly_scalar_mul (w : Z) (c a : list Z) (s : Z) : list Z :=
  zip_assign (fun _ x => tmul w x s) c a.
(** sunscreen_tfhe/src/math/polynomial.rs:55-65 [polynomial_scalar_mad] on torus elements: [c += a * s] (torus.rs:473-480 wraps). *)
Definition poly_scalar_mad (w : Z) (c a : list Z) (s : Z) : list Z :=
  zip_assign (fun y x => tadd w y (tmul w x s)) c a.
(** What [CpuId] reports (sunscreen_tfhe/src/math/simd/mod.rs:3-11, simd/x86_64/mod.rs:14-49): is this an
    x86-64 build, and does the CPU have AVX2, FMA, AVX512F and AVX512DQ? *)
Record hw := { hw_x86 : bool; hw_avx2 : bool; hw_fma : bool; hw_512f : bool; hw_512dq : bool }.
(** A machine with AVX2 and FMA but not AVX-512, one with neither, and one that is not x86. *)
Definition hw_avx2_machine : hw := {| hw_x86 := true; hw_avx2 := true; hw_fma := true; hw_512f := false; hw_512dq := false |}.
Definition hw_old_x86 : hw := {| hw_x86 := true; hw_avx2 := false; hw_fma := false; hw_512f := false; hw_512dq := false |}.
Definition hw_arm : hw := {| hw_x86 := false; hw_avx2 := false; hw_fma := false; hw_512f := false; hw_512dq := false |}.
Definition hw_avx512_machine : hw := {| hw_x86 := true; hw_avx2 := true; hw_fma := true; hw_512f := true; hw_512dq := true |}.

(** One element of [VectorOps::vector_add]: sunscreen_tfhe/src/math/simd/x86_64/mod.rs:141-147 (u64),
    195-198 (u32), simd/x86_64/avx2.rs:41-45 (plain [+], so checked in debug builds), simd/scalar.rs:38-42
    and simd/generic/mod.rs:54-56 (wrapping). *)
Definition vec_add (h : hw) (pr : profile) (w a b : Z) : res Z :=
  if hw_x86 h && (w =? 64) && (hw_fma h && hw_avx2 h) then uadd pr 64 a b else Ok (tadd w a b).
(** One element of [VectorOps::vector_sub]: simd/x86_64/mod.rs:149-155 (u64; without AVX2 the fallback
    calls [scalar::vector_add]), 200-203 (u32), simd/x86_64/avx2.rs:49-53 (plain [-]), simd/scalar.rs:45-49
    and simd/generic/mod.rs:58-60 (wrapping). *)
Definition vec_sub (h : hw) (pr : profile) (w a b : Z) : res Z :=
  if hw_x86 h && (w =? 64) then
    if hw_avx2 h then usub pr 64 a b else Ok (tadd w a b)
  else Ok (tsub w a b).
(** [MulAdd::mul_add] of num-traits on a word: [self * a + b] with plain operators, so checked in debug builds. *)
Definition word_mul_add (pr : profile) (w y x s : Z) : res Z :=
  match pr with
  | Release => Ok (tadd w y (tmul w x s))
  | Debug => p <- umul Debug w x s ;; uadd Debug w p y
  end.
(** sunscreen_tfhe/src/math/simd/scalar.rs:122-131 [vector_scalar_mad] on words. *)
Fixpoint words_mul_add (pr : profile) (w : Z) (c a : list Z) (s : Z) : res (list Z) :=
  match c, a with
  | y :: c, x :: a => y' <- word_mul_add pr w y x s ;; c' <- words_mul_add pr w c a s ;; Ok (y' :: c')
  | c, _ => Ok c
  end.
(** sunscreen_tfhe/src/math/polynomial.rs:68-73 [polynomial_small_scalar_mad] with the dispatch of simd/x86_64/mod.rs:127-133, 175-182, 216-219 and
    simd/generic/mod.rs:40-46, 70-72, 98-100 (which cast torus elements to words). The AVX-512 kernel works on 16 words at a time without looking at
    the lengths, and needs AVX512DQ: this is proved of its instructions in Props_Avx512.v; an access outside the slices is written [Panic]. *)
Definition poly_small_scalar_mad (h : hw) (pr : profile) (w : Z) (c a : list Z) (s : Z) : res (list Z) :=
  if hw_x86 h && (w =? 64) && hw_512f h then
    if (length c =? 0)%nat || (hw_512dq h && (length c mod 16 =? 0)%nat && (length c <=? length a)%nat) then Ok (poly_scalar_mad w c a s) else Panic
  else words_mul_add pr w c a s.
(** sunscreen_tfhe/src/math/polynomial.rs:76-84 [polynomial_add]: every element of [c] is overwritten. *)
Definition poly_add (h : hw) (pr : profile) (w : Z) (c a b : list Z) : res (list Z) :=
  if (length c =? length a)%nat && (length c =? length b)%nat
  then mapM (fun xy => vec_add h pr w (fst xy) (snd xy)) (combine a b) else Panic.
(** sunscreen_tfhe/src/math/polynomial.rs:102-110 [polynomial_sub]. *)
Definition poly_sub (h : hw) (pr : profile) (w : Z) (c a b : list Z) : res (list Z) :=
  if (length c =? length a)%nat && (length c =? length b)%nat
  then mapM (fun xy => vec_sub h pr w (fst xy) (snd xy)) (combine a b) else Panic.

(** [usize::is_power_of_two]. *)
Definition is_pow2 (n : nat) : bool := negb (n =? 0)%nat && (2 ^ Nat.log2 n =? n)%nat.

(** [coeffs[i] = f(coeffs[i])]. *)
Fixpoint upd (l : list Z) (i : nat) (f : Z -> Z) : list Z :=
  match l, i with
  | [], _ => []
  | x :: l, O => f x :: l
  | x :: l, S i => x :: upd l i f
  end.

(** sunscreen_tfhe/src/math/polynomial.rs:190-201, the inner loop: row [i] of the schoolbook product.
    [j] counts the coefficients of [b] already used; [(i + j) & mask] is [i + j - len]. *)
Fixpoint mad_row (w : Z) (len i j : nat) (l : Z) (b : list Z) (c : list Z) : list Z :=
  match b with
  | [] => c
  | r :: b =>
      mad_row w len i (S j) l b
        (if (len <=? i + j)%nat then upd c (i + j - len) (fun x => tsub w x (tmul w l r))
         else upd c (i + j) (fun x => tadd w x (tmul w l r)))
  end.
(** sunscreen_tfhe/src/math/polynomial.rs:189, the outer loop. *)
Fixpoint mad_rows (w : Z) (len i : nat) (a b c : list Z) : list Z :=
  match a with
  | [] => c
  | l :: a => mad_rows w len (S i) a b (mad_row w len i 0 l b c)
  end.
(** sunscreen_tfhe/src/math/polynomial.rs:159-203 [polynomial_mad_impl] (also
    [polynomial_external_mad], lines 114-122): [c += a * b]. The unused copy to f64 (lines 184-187) is
    dropped. *)
Definition poly_mad (w : Z) (c a b : list Z) : res (list Z) :=
  if is_pow2 (length a) && (length a =? length b)%nat && (length a =? length c)%nat
  then Ok (mad_rows w (length a) 0 a b c) else Panic.

(** [rotate_left] / [rotate_right] of slices. *)
Definition rot_left (n : nat) (l : list Z) : list Z := skipn n l ++ firstn n l.
Definition rot_right (n : nat) (l : list Z) : list Z :=
  skipn (length l - n) l ++ firstn (length l - n) l.

(** [for i in lo..hi { l[i] = -l[i] }]. *)
Fixpoint neg_range (w : Z) (l : list Z) (lo hi : nat) : list Z :=
  match l with
  | [] => []
  | x :: l =>
      (if ((lo =? 0) && (1 <=? hi))%nat then tneg w x else x) :: neg_range w l (lo - 1) (hi - 1)
  end.

(** sunscreen_tfhe/src/entities/polynomial.rs:171-203 [mul_by_negative_monomial_negacyclic]. *)
Definition poly_rot_neg (w : Z) (p : list Z) (degree : nat) : list Z :=
  let len := length p in
  let degree := (degree mod (2 * len))%nat in
  if (degree =? 0)%nat then p
  else if (degree =? len)%nat then map (tneg w) p
  else
    let shift := (degree mod len)%nat in
    let r := rot_left shift p in
    if (degree <? len)%nat then neg_range w r (len - shift) len else neg_range w r 0 (len - shift).

(** sunscreen_tfhe/src/entities/polynomial.rs:208-236 [mul_by_positive_monomial_negacyclic]. *)
Definition poly_rot_pos (w : Z) (p : list Z) (degree : nat) : list Z :=
  let len := length p in
  let degree := (degree mod (2 * len))%nat in
  if (degree =? 0)%nat then p
  else if (degree =? len)%nat then map (tneg w) p
  else
    let shift := (degree mod len)%nat in
    let r := rot_right shift p in
    if (degree <? len)%nat then neg_range w r 0 degree else neg_range w r shift len.

(** sunscreen_tfhe/src/entities/polynomial.rs:242-248 [mul_by_monomial_negacyclic]. *)
Definition poly_rot (w : Z) (p : list Z) (degree : Z) : list Z :=
  if degree <? 0 then poly_rot_neg w p (Z.to_nat (- degree)) else poly_rot_pos w p (Z.to_nat degree).

(** sunscreen_tfhe/src/math/radix.rs:120-140 [recompose_and_add]; [digits] least significant first. The
    running factor is a word that is shifted left after every digit. *)
Fixpoint recompose_loop (pr : profile) (w log : Z) (dst : list Z) (digits : list (list Z)) (cur : Z)
  : res (list Z) :=
  match digits with
  | [] => Ok dst
  | d :: ds =>
      let dst' := poly_scalar_mad w dst d cur in
      cur' <- ushl pr w cur log ;;
      recompose_loop pr w log dst' ds cur'
  end.
Definition recompose_and_add (pr : profile) (w log : Z) (count : nat) (dst : list Z)
    (digits : list (list Z)) : res (list Z) :=
  shift <- usub pr 64 w (log * Z.of_nat count) ;;
  f <- ushl pr 64 1 shift ;;
  dst' <- recompose_loop pr w log dst digits (uwrap w f) ;;
  if (count =? length digits)%nat then Ok dst' else Panic.

(** ** LWE *)

(** An LWE ciphertext, already split into mask and body
    (sunscreen_tfhe/src/entities/lwe_ciphertext.rs:50-57 [a_b]). *)
Record lwe := { lwe_a : list Z; lwe_b : Z }.

(** sunscreen_tfhe/src/entities/lwe_ciphertext.rs:41-46 [LweCiphertext::new]. *)
Definition lwe_new (dim : nat) : lwe := {| lwe_a := repeat 0 dim; lwe_b := 0 |}.

(** [assert_is_valid] (sunscreen_tfhe/src/dst.rs:500-523) for a ciphertext of dimension [dim]. *)
Definition lwe_valid (dim : nat) (c : lwe) : bool := (length (lwe_a c) =? dim)%nat.

(** [LweDef::assert_valid] (sunscreen_tfhe/src/params.rs:33-36, 167-170). *)
Definition lwe_dim_valid (dim : nat) : bool := negb (dim =? 0)%nat.

(** sunscreen_tfhe/src/ops/encryption/lwe_encryption.rs:13-32. [c] is the output buffer. *)
Definition lwe_trivial (dim : nat) (c : lwe) (msg : Z) : res lwe :=
  if lwe_dim_valid dim && lwe_valid dim c
  then Ok {| lwe_a := map (fun _ => 0) (lwe_a c); lwe_b := msg |} else Panic.

(** The loop of sunscreen_tfhe/src/ops/encryption/lwe_encryption.rs:50-53; [mask] are the values drawn
    by [uniform_torus]. *)
Fixpoint lwe_enc_loop (w : Z) (a sk mask : list Z) (b : Z) : list Z * Z :=
  match a, sk, mask with
  | _ :: a, d :: sk, m :: mask =>
      let '(a', b') := lwe_enc_loop w a sk mask (tadd w b (tmul w m d)) in (m :: a', b')
  | a, _, _ => (a, b)
  end.
(** sunscreen_tfhe/src/ops/encryption/lwe_encryption.rs:36-59 [encrypt_lwe_ciphertext]; [e] is the value
    drawn by [normal_torus]. *)
Definition lwe_encrypt (w : Z) (dim : nat) (ct : lwe) (sk : list Z) (msg : Z) (mask : list Z) (e : Z)
  : res lwe :=
  if lwe_dim_valid dim then
    let '(a, b) := lwe_enc_loop w (lwe_a ct) sk mask 0 in
    Ok {| lwe_a := a; lwe_b := tadd w b (tadd w msg e) |}
  else Panic.
(** sunscreen_tfhe/src/ops/encryption/lwe_encryption.rs:63-76 [encode_and_encrypt_lwe_ciphertext]. *)
Definition lwe_encode_encrypt (w : Z) (dim : nat) (ct : lwe) (sk : list Z) (msg p : Z) (mask : list Z)
    (e : Z) : res lwe :=
  m <- t_encode w msg p ;; lwe_encrypt w dim ct sk m mask e.
(** sunscreen_tfhe/src/entities/lwe_secret_key.rs:68-83 [LweSecretKeyRef::encrypt]. *)
Definition lwe_sk_encrypt (w : Z) (dim : nat) (sk : list Z) (msg p : Z) (mask : list Z) (e : Z)
  : res lwe :=
  if lwe_dim_valid dim && (p <? w) then lwe_encode_encrypt w dim (lwe_new dim) sk msg p mask e
  else Panic.

(** sunscreen_tfhe/src/entities/lwe_secret_key.rs:96-100: [dot += a_i * d_i]. *)
Fixpoint lwe_dot (w : Z) (a sk : list Z) (dot : Z) : Z :=
  match a, sk with
  | x :: a, d :: sk => lwe_dot w a sk (tadd w dot (tmul w x d))
  | _, _ => dot
  end.
(** sunscreen_tfhe/src/entities/lwe_secret_key.rs:89-103 [decrypt_without_decode]. *)
Definition lwe_decrypt_raw (w : Z) (dim : nat) (sk : list Z) (ct : lwe) : res Z :=
  if lwe_dim_valid dim && lwe_valid dim ct
  then Ok (tsub w (lwe_b ct) (lwe_dot w (lwe_a ct) sk 0)) else Panic.
(** sunscreen_tfhe/src/entities/lwe_secret_key.rs:109-122 [decrypt]. *)
Definition lwe_decrypt (pr : profile) (w : Z) (dim : nat) (sk : list Z) (ct : lwe) (p : Z) : res Z :=
  if lwe_dim_valid dim && (p <? w) && lwe_valid dim ct then
    m <- lwe_decrypt_raw w dim sk ct ;; t_decode pr w m p
  else Panic.

(** sunscreen_tfhe/src/ops/ciphertext/lwe_ciphertext_ops.rs:4-18 [add_lwe_inplace]. *)
Definition lwe_add_inplace (w : Z) (c a : lwe) : res lwe :=
  if (length (lwe_a c) =? length (lwe_a a))%nat
  then Ok {| lwe_a := zip_assign (tadd w) (lwe_a c) (lwe_a a); lwe_b := tadd w (lwe_b c) (lwe_b a) |}
  else Panic.
(** sunscreen_tfhe/src/ops/ciphertext/lwe_ciphertext_ops.rs:23-43 [sub_lwe_ciphertexts]. *)
Definition lwe_sub (w : Z) (c a b : lwe) : res lwe :=
  if (length (lwe_a c) =? length (lwe_a a))%nat && (length (lwe_a c) =? length (lwe_a b))%nat
  then Ok {| lwe_a := zip_assign (fun _ xy => tsub w (fst xy) (snd xy)) (lwe_a c)
                        (combine (lwe_a a) (lwe_a b));
             lwe_b := tsub w (lwe_b a) (lwe_b b) |}
  else Panic.
(** sunscreen_tfhe/src/ops/ciphertext/lwe_ciphertext_ops.rs:48-67 [scalar_mul_ciphertext_mad]. *)
Definition lwe_scalar_mad (w : Z) (c : lwe) (s : Z) (a : lwe) : res lwe :=
  if (length (lwe_a c) =? length (lwe_a a))%nat
  then Ok {| lwe_a := zip_assign (fun y x => tadd w y (tmul w x s)) (lwe_a c) (lwe_a a);
             lwe_b := tadd w (lwe_b c) (tmul w (lwe_b a) s) |}
  else Panic.
(** sunscreen_tfhe/src/macros.rs [impl_unary_op!(Neg, LweCiphertext)] (entities/lwe_ciphertext.rs:22):
    negates every element of the slice. *)
Definition lwe_neg (w : Z) (c : lwe) : lwe :=
  {| lwe_a := map (tneg w) (lwe_a c); lwe_b := tneg w (lwe_b c) |}.
(** sunscreen_tfhe/src/ops/homomorphisms/lwe.rs:9-20 [lwe_rotate]. *)
Definition lwe_rotate (w : Z) (dim : nat) (out inp : lwe) (amount : Z) : res lwe :=
  if lwe_valid dim out && lwe_valid dim inp
  then Ok {| lwe_a := lwe_a inp; lwe_b := tadd w (lwe_b inp) amount |} else Panic.

(** ** LWE key switching *)

(** The loop of sunscreen_tfhe/src/ops/ciphertext/lev_ciphertext_ops.rs:33-38: [bs] is the LEV
    ciphertext in reverse order. *)
Fixpoint lev_mad_loop (pr : profile) (w log : Z) (count : nat) (it : radix_iter) (cur : list Z)
    (bs : list lwe) (c : lwe) : res lwe :=
  match bs with
  | [] => Ok c
  | b :: bs =>
      ' (it', cur') <- write_next pr w log count it cur ;;
      c' <- lwe_scalar_mad w c (nth 0 cur' 0) b ;;
      lev_mad_loop pr w log count it' cur' bs c'
  end.
(** sunscreen_tfhe/src/ops/ciphertext/lev_ciphertext_ops.rs:18-42 [decomposed_scalar_lev_mad]. *)
Definition lev_mad (pr : profile) (w log : Z) (count : nat) (c : lwe) (it : radix_iter)
    (lev : list lwe) : res lwe :=
  lev_mad_loop pr w log count it [0] (rev lev) c.

(** The loop of sunscreen_tfhe/src/ops/keyswitch/lwe_keyswitch.rs:50-56. *)
Fixpoint lwe_ks_loop (pr : profile) (w log : Z) (count : nat) (a : list Z) (ksk : list (list lwe))
    (c : lwe) : res lwe :=
  match a, ksk with
  | x :: a, lev :: ksk =>
      it <- radix_new pr w log count [x] ;;
      c' <- lev_mad pr w log count c it lev ;;
      lwe_ks_loop pr w log count a ksk c'
  | _, _ => Ok c
  end.

(** A key-switch key: one LEV ciphertext ([count] LWE ciphertexts of dimension [new]) per coefficient of
    the old key; [assert_is_valid((old, new, count))]. *)
Definition ksk_valid (old new count : nat) (ksk : list (list lwe)) : bool :=
  (length ksk =? old)%nat &&
  forallb (fun lev => (length lev =? count)%nat && forallb (lwe_valid new) lev) ksk.

(** sunscreen_tfhe/src/ops/keyswitch/lwe_keyswitch.rs:23-64 [keyswitch_lwe_to_lwe]. *)
Definition lwe_keyswitch (pr : profile) (w log : Z) (count old new : nat) (out ct : lwe)
    (ksk : list (list lwe)) : res lwe :=
  if lwe_dim_valid old && lwe_dim_valid new && radix_valid w log count && lwe_valid new out
     && lwe_valid old ct && ksk_valid old new count ksk
  then
    sum <- lwe_ks_loop pr w log count (lwe_a ct) ksk (lwe_new new) ;;
    triv <- lwe_trivial new (lwe_new new) (lwe_b ct) ;;
    lwe_sub w out triv sum
  else Panic.

(** The loops of sunscreen_tfhe/src/ops/keyswitch/lwe_keyswitch_key.rs:36-49: row [s], columns from [j].
    [decomp_factor * s_i] is a checked multiplication. [rnd] supplies (mask, error) per column. *)
Fixpoint ksk_row (pr : profile) (w log : Z) (new : nat) (newsk : list Z) (s : Z) (j : nat)
    (row : list lwe) (rnd : list (list Z * Z)) : res (list lwe) :=
  match row, rnd with
  | col :: row, (mask, e) :: rnd =>
      f <- gadget_factor pr w log j ;;
      msg <- umul pr w f s ;;
      c <- lwe_encrypt w new col newsk msg mask e ;;
      cs <- ksk_row pr w log new newsk s (S j) row rnd ;;
      Ok (c :: cs)
  | row, _ => Ok row
  end.
Fixpoint ksk_rows (pr : profile) (w log : Z) (new : nat) (newsk : list Z) (oldsk : list Z)
    (rows : list (list lwe)) (rnd : list (list (list Z * Z))) : res (list (list lwe)) :=
  match oldsk, rows, rnd with
  | s :: oldsk, row :: rows, r :: rnd =>
      row' <- ksk_row pr w log new newsk s 0 row r ;;
      rows' <- ksk_rows pr w log new newsk oldsk rows rnd ;;
      Ok (row' :: rows')
  | _, rows, _ => Ok rows
  end.
(** sunscreen_tfhe/src/ops/keyswitch/lwe_keyswitch_key.rs:17-50 [generate_keyswitch_key_lwe]. *)
Definition lwe_gen_ksk (pr : profile) (w log : Z) (count old new : nat) (ksk : list (list lwe))
    (oldsk newsk : list Z) (rnd : list (list (list Z * Z))) : res (list (list lwe)) :=
  if lwe_dim_valid old && lwe_dim_valid new && radix_valid w log count
     && (length newsk =? new)%nat && (length oldsk =? old)%nat && ksk_valid old new count ksk
  then ksk_rows pr w log new newsk oldsk ksk rnd else Panic.

(** A freshly allocated key-switch key (all zero). *)
Definition ksk_new (old new count : nat) : list (list lwe) := repeat (repeat (lwe_new new) count) old.
