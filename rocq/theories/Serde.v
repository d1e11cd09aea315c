(** Model of the checked deserialisation (parasol_runtime/src/safe_bincode.rs) of keys, ciphertexts and one-time pads:
    parasol_runtime/src/crypto/{keys.rs,encryption.rs,recryption.rs} and the layouts of sunscreen_tfhe/src/entities.

    Sizes are natural numbers: the usize products in [size] are not checked for overflow. The byte reader is the one of FluentInt.v. *)
From Verif Require Import Base Alu Eval FluentInt.
Open Scope Z_scope.

(** ** Layouts: every entity is one array of words (sunscreen_tfhe/src/dst.rs:26-33) *)

(** entities/lwe_ciphertext.rs:50-73 [split_at_idx], [a_b], [a], [b]. *)
Definition flat_lwe (c : lwe) : list Z := lwe_a c ++ [lwe_b c].
(** entities/glwe_ciphertext.rs:85-106, 136-138 [a_b], [a], [b], [split_idx]; the polynomials of the mask are consecutive. *)
Definition flat_glwe (c : glwe) : list Z := concat (ga c) ++ gb c.
(** entities/glev_ciphertext.rs:62-86, ggsw_ciphertext.rs [rows], bootstrap_key.rs [rows], lwe_keyswitch_key.rs [rows],
    lev_ciphertext.rs [lwe_ciphertexts], scheme_switch_key.rs [glev_ciphertexts], automorphism_key.rs [keyswitch_keys],
    glwe_keyswitch_key.rs [rows]: consecutive entries. *)
Definition flat_glev : list glwe -> list Z := flat_map flat_glwe.
Definition flat_ggsw : list (list glwe) -> list Z := flat_map flat_glev.
Definition flat_bs : list (list (list glwe)) -> list Z := flat_map flat_ggsw.
Definition flat_ks : list (list lwe) -> list Z := flat_map (flat_map flat_lwe).
Definition flat_ss : list (list glwe) -> list Z := flat_map flat_glev.
Definition flat_auto : list (list (list glwe)) -> list Z := flat_map (flat_map flat_glev).

(** Striding over the array (dst.rs:151-210): [cnt] consecutive pieces of [sz] words. *)
Fixpoint chunks (cnt sz : nat) (l : list Z) : list (list Z) :=
  match cnt with O => [] | S cnt => firstn sz l :: chunks cnt sz (skipn sz l) end.
Definition un_lwe (n : nat) (l : list Z) : lwe := {| lwe_a := firstn n l; lwe_b := nth n l 0 |}.
Definition un_glwe (N k : nat) (l : list Z) : glwe := {| ga := chunks k N l; gb := skipn (k * N) l |}.
(** [size] of each entity: glwe_secret_key.rs:43-45, glwe_ciphertext.rs:38-41, glev_ciphertext.rs:29-31, ggsw_ciphertext.rs:31-33,
    lwe_ciphertext.rs:30-32, lev_ciphertext.rs:24-26. *)
Definition sz_glwe_sk (N k : nat) : nat := (N * k)%nat.
Definition sz_glwe (N k : nat) : nat := (sz_glwe_sk N k + N)%nat.
Definition sz_glev (N k cnt : nat) : nat := (sz_glwe N k * cnt)%nat.
Definition sz_ggsw (N k cnt : nat) : nat := (sz_glev N k cnt * (k + 1))%nat.
Definition sz_lwe (n : nat) : nat := (n + 1)%nat.
Definition sz_lev (n cnt : nat) : nat := (sz_lwe n * cnt)%nat.
Definition un_glev (N k cnt : nat) (l : list Z) : list glwe := map (un_glwe N k) (chunks cnt (sz_glwe N k) l).
Definition un_ggsw (N k cnt : nat) (l : list Z) : list (list glwe) := map (un_glev N k cnt) (chunks (k + 1) (sz_glev N k cnt) l).
(** bootstrap_key.rs:28-30, lwe_keyswitch_key.rs:27-37, scheme_switch_key.rs:49-61, automorphism_key.rs:26-28 with
    glwe_keyswitch_key.rs:31-33. *)
Definition sz_bs (P : params) : nat := (sz_ggsw (p_N P) (p_k P) (r_count (p_pbs P)) * p_n P)%nat.
Definition sz_ks (P : params) : nat := (sz_lev (p_n P) (r_count (p_ks P)) * (p_k P * p_N P))%nat.
Definition sz_ss (P : params) : nat := (sz_glwe (p_N P) (p_k P) * r_count (p_ss P) * tri_count (p_k P))%nat.
Definition sz_auto (P : params) : nat := (sz_glev (p_N P) (p_k P) (r_count (p_tr P)) * p_k P * Nat.log2 (p_N P))%nat.
Definition un_bs (P : params) (l : list Z) : list (list (list glwe)) :=
  map (un_ggsw (p_N P) (p_k P) (r_count (p_pbs P))) (chunks (p_n P) (sz_ggsw (p_N P) (p_k P) (r_count (p_pbs P))) l).
Definition un_ks (P : params) (l : list Z) : list (list lwe) :=
  map (fun r => map (un_lwe (p_n P)) (chunks (r_count (p_ks P)) (sz_lwe (p_n P)) r)) (chunks (p_k P * p_N P) (sz_lev (p_n P) (r_count (p_ks P))) l).
Definition un_ss (P : params) (l : list Z) : list (list glwe) :=
  map (un_glev (p_N P) (p_k P) (r_count (p_ss P))) (chunks (tri_count (p_k P)) (sz_glev (p_N P) (p_k P) (r_count (p_ss P))) l).
Definition un_auto (P : params) (l : list Z) : list (list (list glwe)) :=
  map (fun r => map (un_glev (p_N P) (p_k P) (r_count (p_tr P))) (chunks (p_k P) (sz_glev (p_N P) (p_k P) (r_count (p_tr P))) r))
    (chunks (Nat.log2 (p_N P)) (sz_glev (p_N P) (p_k P) (r_count (p_tr P)) * p_k P) l).
(** The Fourier forms, in complex numbers: polynomial_fft.rs:38-40, glwe_ciphertext_fft.rs:25-28, glev_ciphertext_fft.rs:28-30,
    ggsw_ciphertext_fft.rs:26-28, bootstrap_key.rs:122-124, scheme_switch_key_fft.rs:30-41, glwe_keyswitch_key_fft.rs:29-31,
    automorphism_key_fft.rs:25-27. *)
Definition fsz_glwe (N k : nat) : nat := (N / 2 * (k + 1))%nat.
Definition fsz_ggsw (N k cnt : nat) : nat := (fsz_glwe N k * cnt * (k + 1))%nat.
Definition fsz_bs (P : params) : nat := (fsz_ggsw (p_N P) (p_k P) (r_count (p_pbs P)) * p_n P)%nat.
Definition fsz_ss (P : params) : nat := (fsz_glwe (p_N P) (p_k P) * r_count (p_ss P) * tri_count (p_k P))%nat.
Definition fsz_auto (P : params) : nat := (fsz_glwe (p_N P) (p_k P) * r_count (p_tr P) * p_k P * Nat.log2 (p_N P))%nat.

(** ** Reading and writing *)

(** A sequence whose elements are [ew] words of 8 bytes: u64 ([ew] = 1) or Complex<f64> ([ew] = 2; the bits of an f64 are one word). *)
Definition read_words (ew : nat) (r : reader) : res (list Z * reader) :=
  ' (xs, r) <- read_vec (read_seq (read_word 8) ew) r ;; Ok (concat xs, r).
Definition ser_words (ew : nat) (l : list Z) : list Z := word_le 8 (Z.of_nat (length l / ew)) ++ flat_map (word_le 8) l.
Fixpoint read_fields (ews : list nat) (r : reader) : res (list (list Z) * reader) :=
  match ews with
  | [] => Ok ([], r)
  | ew :: ews => ' (x, r) <- read_words ew r ;; ' (xs, r) <- read_fields ews r ;; Ok (x :: xs, r)
  end.
(** dst.rs:510-516 [check_is_valid] on each field: [fst] words per element, [snd] elements. *)
Fixpoint fields_valid (fs : list (nat * nat)) (xs : list (list Z)) : bool :=
  match fs, xs with
  | [], [] => true
  | (ew, sz) :: fs, x :: xs => (length x =? ew * sz)%nat && fields_valid fs xs
  | _, _ => false
  end.
(** safe_bincode.rs:17-29 [deserialize] for a struct with these fields: [lim] is its [get_size]. *)
Definition de_fields (lim : Z) (fs : list (nat * nat)) (data : list Z) : res (list (list Z)) :=
  ' (xs, _) <- read_fields (map fst fs) (data, lim) ;; if fields_valid fs xs then Ok xs else Err EOther.
Fixpoint ser_fields (ews : list nat) (xs : list (list Z)) : list Z :=
  match ews, xs with ew :: ews, x :: xs => ser_words ew x ++ ser_fields ews xs | _, _ => [] end.

(** ** Keys: keys.rs *)

(** 31-40 PublicKey (entities/rlwe_public_key.rs:27-29); the key is used as a GLWE ciphertext (rlwe_public_key.rs [p0_p1]). *)
Definition de_public_key (P : params) (data : list Z) : res glwe :=
  xs <- de_fields (Z.of_nat ((sz_glwe (p_N P) (p_k P) + 1) * 8)) [(1, sz_glwe (p_N P) (p_k P))]%nat data ;;
  match xs with [x] => Ok (un_glwe (p_N P) (p_k P) x) | _ => Panic end.
Definition ser_public_key (pk : glwe) : list Z := ser_fields [1]%nat [flat_glwe pk].
(** 107-123 SecretKey. *)
Definition de_secret_key (P : params) (data : list Z) : res secret_key :=
  xs <- de_fields (Z.of_nat ((p_n P + sz_glwe_sk (p_N P) (p_k P) + 3) * 8)) [(1, p_n P); (1, sz_glwe_sk (p_N P) (p_k P))]%nat data ;;
  match xs with [x; y] => Ok {| s_lwe0 := x; s_glwe1 := chunks (p_k P) (p_N P) y |} | _ => Panic end.
Definition ser_secret_key (sk : secret_key) : list Z := ser_fields [1; 1]%nat [s_lwe0 sk; concat (s_glwe1 sk)].
(** 165-212 ComputeKeyNonFft; the fields in the order of the struct (153-163). *)
Definition de_compute_key (P : params) (data : list Z) : res compute_key :=
  xs <- de_fields (Z.of_nat ((sz_bs P + sz_ks P + sz_ss P + sz_auto P + 4) * 8)) [(1, sz_bs P); (1, sz_ks P); (1, sz_auto P); (1, sz_ss P)]%nat data ;;
  match xs with
  | [bs; ks; auto; ss] => Ok {| k_bs := un_bs P bs; k_ks := un_ks P ks; k_ss := un_ss P ss; k_auto := un_auto P auto |}
  | _ => Panic
  end.
Definition ser_compute_key (ck : compute_key) : list Z :=
  ser_fields [1; 1; 1; 1]%nat [flat_bs (k_bs ck); flat_ks (k_ks ck); flat_auto (k_auto ck); flat_ss (k_ss ck)].
(** 320-372 ComputeKey, fields in the order of the struct (306-318). The complex numbers are left as words. *)
Record fft_key := { fk_bs : list Z; fk_ks : list (list lwe); fk_ss : list Z; fk_auto : list Z }.
Definition de_fft_key (P : params) (data : list Z) : res fft_key :=
  xs <- de_fields (Z.of_nat ((sz_bs P + sz_ks P + sz_ss P + fsz_auto P) * 16 + 4 * 8)) [(2, fsz_bs P); (1, sz_ks P); (2, fsz_ss P); (2, fsz_auto P)]%nat data ;;
  match xs with
  | [bs; ks; ss; auto] => Ok {| fk_bs := bs; fk_ks := un_ks P ks; fk_ss := ss; fk_auto := auto |}
  | _ => Panic
  end.
Definition ser_fft_key (fk : fft_key) : list Z := ser_fields [2; 1; 2; 2]%nat [fk_bs fk; flat_ks (fk_ks fk); fk_ss fk; fk_auto fk].

(** ** Ciphertexts: encryption.rs:454-519 *)
Definition de_lwe (n : nat) (data : list Z) : res lwe :=
  xs <- de_fields (Z.of_nat ((sz_lwe n + 1) * 8)) [(1, sz_lwe n)]%nat data ;; match xs with [x] => Ok (un_lwe n x) | _ => Panic end.
Definition de_lwe0 (P : params) : list Z -> res lwe := de_lwe (p_n P).
Definition de_lwe1 (P : params) : list Z -> res lwe := de_lwe (p_k P * p_N P).
Definition ser_lwe (c : lwe) : list Z := ser_fields [1]%nat [flat_lwe c].
Definition de_glwe1 (P : params) (data : list Z) : res glwe :=
  xs <- de_fields (Z.of_nat ((sz_glwe (p_N P) (p_k P) + 1) * 8)) [(1, sz_glwe (p_N P) (p_k P))]%nat data ;;
  match xs with [x] => Ok (un_glwe (p_N P) (p_k P) x) | _ => Panic end.
Definition ser_glwe (c : glwe) : list Z := ser_fields [1]%nat [flat_glwe c].
Definition de_glev1 (P : params) (data : list Z) : res (list glwe) :=
  let cnt := r_count (p_cbs P) in
  xs <- de_fields (Z.of_nat ((sz_glev (p_N P) (p_k P) cnt + 1) * 8)) [(1, sz_glev (p_N P) (p_k P) cnt)]%nat data ;;
  match xs with [x] => Ok (un_glev (p_N P) (p_k P) cnt x) | _ => Panic end.
Definition ser_glev (c : list glwe) : list Z := ser_fields [1]%nat [flat_glev c].
(** GGSW ciphertexts are kept in Fourier form; the limit is that of the other form. *)
Definition de_ggsw1 (P : params) (data : list Z) : res (list Z) :=
  let cnt := r_count (p_cbs P) in
  xs <- de_fields (Z.of_nat ((sz_ggsw (p_N P) (p_k P) cnt + 1) * 8)) [(2, fsz_ggsw (p_N P) (p_k P) cnt)]%nat data ;;
  match xs with [x] => Ok x | _ => Panic end.
Definition ser_ggsw (c : list Z) : list Z := ser_fields [2]%nat [c].

(** ** One-time pads: recryption.rs:28-59; the public pad is a GLWE ciphertext *)
Definition de_public_pad : params -> list Z -> res glwe := de_glwe1.
Definition de_secret_pad (P : params) (data : list Z) : res (list Z) :=
  xs <- de_fields (Z.of_nat ((p_N P + 1) * 8)) [(1, p_N P)]%nat data ;; match xs with [x] => Ok x | _ => Panic end.
Definition ser_secret_pad (key : list Z) : list Z := ser_fields [1]%nat [key].
(** recryption.rs:102-117 [decrypt_one_time_pad]; the sum is checked in debug builds. *)
Fixpoint pad_loop (pr : profile) (x key : list Z) : res (list Z) :=
  match x, key with
  | a :: x, b :: key => s <- uadd pr 64 a b ;; r <- pad_loop pr x key ;; Ok (s mod 2 :: r)
  | _, _ => Ok []
  end.
Definition decrypt_pad (pr : profile) (x key : list Z) : res (list Z) :=
  if (length key =? length x)%nat then pad_loop pr x key else Panic.
