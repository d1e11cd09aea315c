(** Model of the plaintext side of encrypted integers: parasol_runtime/src/fluent/{uint,int,dynamic_generic_int,generic_int,
    packed_generic_int,recrypted_int}.rs, the one-time pad of parasol_runtime/src/crypto/recryption.rs, and the checked
    deserialisation of parasol_runtime/src/safe_bincode.rs.

    A bit ciphertext is replaced by the bit it encrypts, a GLWE ciphertext of a packed integer by its message polynomial (the
    ideal functionality). u128 values are integers in [0, 2^128), i128 values integers in [-2^127, 2^127). *)
From Verif Require Import Base Alu MuxGraph.

(** ** u128 as plaintext: uint.rs:20-33 *)
(** uint.rs:21-23. *)
Definition u_assert_in_bounds (p : profile) (v bits : Z) : res unit :=
  if bits =? 128 then Ok tt else (s <- ushl p 128 1 bits ;; if v <? s then Ok tt else Panic).
(** uint.rs:30-32. *)
Definition u_to_bits (p : profile) (v : Z) (len : nat) : res (list bool) :=
  mapM (fun i => x <- ushr p 128 v (Z.of_nat i) ;; Ok (Z.odd x)) (seq 0 len).
(** uint.rs:25-28: the fold, from index i on. *)
Fixpoint u_fold (p : profile) (bits : list bool) (i : nat) (s : Z) : res Z :=
  match bits with
  | [] => Ok s
  | x :: bits => y <- ushl p 128 (b2z x) (Z.of_nat i) ;; u_fold p bits (S i) (Z.lor s y)
  end.
Definition u_from_bits (p : profile) (bits : list bool) : res Z := u_fold p bits 0 0.

(** ** i128 as plaintext: int.rs:19-50 *)
(** [-x] on an i128. *)
Definition sneg (p : profile) (x : Z) : res Z :=
  if x =? - 2 ^ 127 then match p with Debug => Panic | Release => Ok x end else Ok (- x).
(** int.rs:20-26; bits is a usize. *)
Definition s_assert_in_bounds (p : profile) (v bits : Z) : res unit :=
  k <- usub p 64 bits 1 ;; one <- ushl p 128 1 k ;; m <- usub p 128 one 1 ;;
  let max_val := sint 128 m in
  min_val <- sneg p (sint 128 one) ;;
  if (bits =? 128) || (v <=? max_val) then (if (bits =? 128) || (min_val <=? v) then Ok tt else Panic) else Panic.
(** [a << s] on an i128. *)
Definition sshl (p : profile) (a s : Z) : res Z := x <- ushl p 128 (uwrap 128 a) s ;; Ok (sint 128 x).
(** [a >> s] on an i128 (arithmetic); Base.ushr divides with rounding down. *)
Definition sshr (p : profile) (a s : Z) : res Z := ushr p 128 a s.
(** int.rs:47-49. *)
Definition s_to_bits (p : profile) (v : Z) (len : nat) : res (list bool) :=
  mapM (fun i => x <- sshr p v (Z.of_nat i) ;; Ok (Z.odd x)) (seq 0 len).
(** int.rs:31-34. *)
Fixpoint s_fold (p : profile) (bits : list bool) (i : nat) (s : Z) : res Z :=
  match bits with
  | [] => Ok s
  | x :: bits => y <- sshl p (b2z x) (Z.of_nat i) ;; s_fold p bits (S i) (Z.lor s y)
  end.
(** int.rs:38-41: i = from .. from + k - 1. *)
Fixpoint s_extend (p : profile) (sign : Z) (from k : nat) (val : Z) : res Z :=
  match k with
  | O => Ok val
  | S k => y <- sshl p sign (Z.of_nat from) ;; s_extend p sign (S from) k (Z.lor val y)
  end.
(** int.rs:28-45; num_bits is an i32, so num_bits - 1 is -1 for an empty iterator. *)
Definition s_from_bits (p : profile) (bits : list bool) : res Z :=
  val <- s_fold p bits 0 0 ;;
  s <- sshr p val (Z.of_nat (length bits) - 1) ;;
  s_extend p (b2z (Z.odd s)) (length bits) (128 - length bits) val.

(** generic_int.rs:31-49 Sign: the two instances, uint.rs:35-60 and int.rs:52-79. *)
Inductive sign := Unsigned | Signed.
Definition assert_in_bounds (p : profile) (sg : sign) (v : Z) (n : nat) : res unit :=
  match sg with Unsigned => u_assert_in_bounds p v (Z.of_nat n) | Signed => s_assert_in_bounds p v (Z.of_nat n) end.
Definition pt_to_bits (p : profile) (sg : sign) (v : Z) (n : nat) : res (list bool) :=
  match sg with Unsigned => u_to_bits p v n | Signed => s_to_bits p v n end.
Definition pt_from_bits (p : profile) (sg : sign) (bits : list bool) : res Z :=
  match sg with Unsigned => u_from_bits p bits | Signed => s_from_bits p bits end.

(** ** Unpacked integers: dynamic_generic_int.rs:67-87 encrypt_secret (122-135 trivial and 140-170 encrypt are the same with
    another per-bit encryption), 90-92 and 106-111 decrypt. *)
Definition int_encrypt (p : profile) (sg : sign) (v : Z) (n : nat) : res (list bool) :=
  _ <- assert_in_bounds p sg v n ;; pt_to_bits p sg v n.
Definition int_decrypt (p : profile) (sg : sign) (bits : list bool) : res Z := pt_from_bits p sg bits.

(** ** Packed integers: generic_int.rs:230-297. A message polynomial is the list of its coefficients modulo 2. *)
Record packed := mkPacked { pk_len : nat; pk_poly : list bool }.
(** generic_int.rs:240-251 encode. [deg] is the polynomial degree. *)
Definition packed_encode (p : profile) (deg : nat) (sg : sign) (v : Z) (n : nat) : res (list bool) :=
  if negb (n <? deg)%nat then Panic
  else bits <- pt_to_bits p sg v n ;; Ok (firstn deg (bits ++ repeat false deg)).
(** generic_int.rs:228-238 encrypt; the length is stored as a u32. *)
Definition packed_encrypt (p : profile) (deg : nat) (sg : sign) (v : Z) (n : nat) : res packed :=
  _ <- assert_in_bounds p sg v n ;; poly <- packed_encode p deg sg v n ;; Ok (mkPacked n poly).
(** generic_int.rs:282-292 trivial_encrypt: no bounds check. *)
Definition packed_trivial (p : profile) (deg : nat) (sg : sign) (v : Z) (n : nat) : res packed :=
  poly <- packed_encode p deg sg v n ;; Ok (mkPacked n poly).
(** generic_int.rs:254-267 decrypt. *)
Definition packed_decrypt (p : profile) (deg : nat) (sg : sign) (c : packed) : res Z :=
  if negb (pk_len c <? deg)%nat then Panic else pt_from_bits p sg (firstn (pk_len c) (pk_poly c)).

(** ** One-time-pad recryption: crypto/recryption.rs:92-129 and recrypted_int.rs:25-66 *)
(** recryption.rs:96-107: the sum of two ciphertexts encrypts the sum of the messages modulo 2. *)
Definition recrypt (c : list bool) (pad : list bool) : list bool :=
  map (fun '(a, b) => xorb a b) (combine c pad).
(** recryption.rs:110-124 decrypt_one_time_pad. Coefficients are u64 values, here 0 or 1, so a + b does not overflow. *)
Definition decrypt_otp (x pad : list bool) : res (list bool) :=
  if negb (length pad =? length x)%nat then Panic
  else Ok (map (fun '(a, b) => (b2z a + b2z b) mod 2 =? 1) (combine x pad)).
(** recrypted_int.rs:53-65. *)
Definition recrypted_decrypt (p : profile) (sg : sign) (len : nat) (x pad : list bool) : res Z :=
  if negb (len <=? length x)%nat then Panic
  else m <- decrypt_otp x pad ;; pt_from_bits p sg (firstn len m).

(** ** Checked deserialisation: safe_bincode.rs:17-29 *)
(** The byte string still to be read and the bytes still allowed by the limit. bincode with fixed-size integers reads
    little-endian words; a read fails when the limit or the input is exhausted. EOther stands for a bincode error. *)
Definition reader := (list Z * Z)%type.
Definition le_word (bs : list Z) : Z := fold_right (fun b acc => b + 256 * acc) 0 bs.
Definition read_word (k : nat) (r : reader) : res (Z * reader) :=
  let '(bs, lim) := r in
  if lim <? Z.of_nat k then Err EOther
  else if (length bs <? k)%nat then Err EOther
  else Ok (le_word (firstn k bs), (skipn k bs, lim - Z.of_nat k)).
(** A sequence: a u64 length, then the elements (serde's Vec and AVec). [fuel] is the length that was read; the loop stops at the
    first element that fails. *)
Fixpoint read_seq {A} (elem : reader -> res (A * reader)) (n : nat) (r : reader) : res (list A * reader) :=
  match n with
  | O => Ok ([], r)
  | S n => ' (x, r) <- elem r ;; ' (xs, r) <- read_seq elem n r ;; Ok (x :: xs, r)
  end.
(** A length larger than the input is certain to fail: cap it, so that the model computes. *)
Definition read_vec {A} (elem : reader -> res (A * reader)) (r : reader) : res (list A * reader) :=
  ' (n, r) <- read_word 8 r ;;
  read_seq elem (if Z.of_nat (length (fst r)) <? n then S (length (fst r)) else Z.to_nat n) r.
(** A ciphertext is a sequence of u64 words (dst.rs:26-33); GGSW ciphertexts hold pairs of f64, also 8 bytes each. *)
Definition read_ct (r : reader) : res (list Z * reader) := read_vec (read_word 8) r.
(** dst.rs:510-516 check_is_valid and crypto/encryption.rs:454-519 GetSize; [sz] is the number of words of a valid ciphertext. *)
Definition ct_size (sz : nat) : Z := Z.of_nat (sz + 1) * 8.
Definition ct_valid (sz : nat) (c : list Z) : bool := (length c =? sz)%nat.
(** generic_int.rs:84-97 GetSize for GenericInt<N, T, U>. *)
Definition de_int (sz N : nat) (data : list Z) : res (list (list Z)) :=
  ' (bits, _) <- read_vec read_ct (data, Z.of_nat N * ct_size sz + 8) ;;
  if forallb (ct_valid sz) bits then Ok bits else Err EOther.
(** generic_int.rs:203-213 and packed_generic_int.rs:86-96: PackedDynamicGenericInt and PackedGenericInt<N>. *)
Definition de_packed (sz : nat) (data : list Z) : res (Z * list Z) :=
  ' (n, r) <- read_word 4 (data, 4 + ct_size sz) ;;
  ' (c, _) <- read_ct r ;;
  if ct_valid sz c then Ok (n, c) else Err EOther.
(** bit.rs:20-29 GetSize for Bit<T>, and the ciphertexts themselves. *)
Definition de_ct (sz : nat) (data : list Z) : res (list Z) :=
  ' (c, _) <- read_ct (data, ct_size sz) ;; if ct_valid sz c then Ok c else Err EOther.
(** bincode::serialize of the same objects (fixed-size integers). *)
Fixpoint word_le (k : nat) (v : Z) : list Z := match k with O => [] | S k => v mod 256 :: word_le k (v / 256) end.
Definition ser_ct (c : list Z) : list Z := word_le 8 (Z.of_nat (length c)) ++ flat_map (word_le 8) c.
Definition ser_int (bits : list (list Z)) : list Z := word_le 8 (Z.of_nat (length bits)) ++ flat_map ser_ct bits.
