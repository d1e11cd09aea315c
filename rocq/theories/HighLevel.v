(** Model of sunscreen_tfhe/src/high_level.rs, the API the crate's documentation and examples use: every function allocates its result
    and calls one operation. All words are u64. Randomness is an explicit argument, as in Tfhe.v and TfheGlwe.v.

    Parameters: an LweDef is its dimension [n]; a GlweDef is its degree [N] and size [k]; a RadixDecomposition is [log] and [count]
    (the standard deviations only govern the randomness). [sc], [scr], [scg], [scl] are the contents of scratch buffers. *)
From Coq Require Import Reals ZArith List Bool.
From Coquelicot Require Import Complex.
From Verif Require Export Base Tfhe TfheGlwe TfheBoot Fft FftGlwe FftCbs.
From Verif Require Import Alu MuxGraph TfheTrace TfheSwitch TfheCbs PubKey Eval.
Import ListNotations.
Open Scope Z_scope.

(** ** keygen *)
(** high_level.rs:133-135 [generate_lwe_pk]. *)
Definition hl_generate_lwe_pk (n : nat) (sk : list Z) (rnd : list (list Z * Z)) : res (list lwe) := lwe_pk_generate 64 n sk rnd.
(** high_level.rs:213-225 [generate_bootstrapping_key]; the new key: entities/bootstrap_key.rs:41-47. *)
Definition hl_generate_bootstrapping_key (pr : profile) (log : Z) (count n N k : nat) (s : list Z) (sk : list (list Z))
    (rnd : nat -> list (list (list (list Z) * option (list Z)))) : res (list (list (list glwe))) :=
  generate_bsk pr 64 log count n N k (repeat (ggsw_new N k count) n) s sk rnd.
(** high_level.rs:249-261 [generate_ksk]; the new key: entities/lwe_keyswitch_key.rs:46-53. *)
Definition hl_generate_ksk (pr : profile) (log : Z) (count from to : nat) (from_sk to_sk : list Z) (rnd : list (list (list Z * Z)))
  : res (list (list lwe)) :=
  lwe_gen_ksk pr 64 log count from to (ksk_new from to count) from_sk to_sk rnd.
(** high_level.rs:335-345 [generate_scheme_switch_key]. *)
Definition hl_generate_scheme_switch_key (X : ext) (m : mad_kernel) (h : hw) (pr : profile) (log : Z) (count N k : nat) (sk : list (list Z))
    (rnd : nat -> list (list (list Z) * option (list Z))) : res (list (list glwe)) :=
  generate_ssk pr 64 log count N k (repeat (repeat (glwe_new N k) count) (tri_count k)) sk (key_product X (hw_x86 h) m 64 (N / 2)) rnd.
(** high_level.rs:352-362 [generate_automorphism_key]. *)
Definition hl_generate_automorphism_key (pr : profile) (log : Z) (count N k : nat) (sk sc : list (list Z))
    (rnd : nat -> list (list (list (list Z) * option (list Z)))) : res (list (list (list glwe))) :=
  generate_ak pr 64 log count N k (repeat (repeat (repeat (glwe_new N k) count) k) (Nat.log2 N)) sk sc rnd.

(** ** encryption *)
(** high_level.rs:425-432 [encrypt_lwe_secret_and_return_randomness]; the error is returned (entities/lwe_secret_key.rs:80-82). *)
Definition hl_encrypt_lwe_secret_and_return_randomness (n : nat) (val : Z) (sk : list Z) (p : Z) (mask : list Z) (e : Z) : res (lwe * Z) :=
  c <- lwe_sk_encrypt 64 n sk val p mask e ;; Ok (c, e).
(** high_level.rs:395-402 [encrypt_lwe_secret]. *)
Definition hl_encrypt_lwe_secret (n : nat) (val : Z) (sk : list Z) (p : Z) (mask : list Z) (e : Z) : res lwe :=
  r <- hl_encrypt_lwe_secret_and_return_randomness n val sk p mask e ;; Ok (fst r).
(** high_level.rs:477-484 [encrypt_lwe_and_return_randomness] and 447-454 [encrypt_lwe]. *)
Definition hl_encrypt_lwe_and_return_randomness (n : nat) (val : Z) (pk : list lwe) (p : Z) (rs ea : list Z) (eb : Z) : res (lwe * pub_rnd) :=
  lwe_pk_encrypt 64 n pk val p rs ea eb.
Definition hl_encrypt_lwe (n : nat) (val : Z) (pk : list lwe) (p : Z) (rs ea : list Z) (eb : Z) : res lwe :=
  r <- hl_encrypt_lwe_and_return_randomness n val pk p rs ea eb ;; Ok (fst r).
(** high_level.rs:501-508 [encrypt_glwe]. *)
Definition hl_encrypt_glwe (N k : nat) (pt : list Z) (sk : list (list Z)) (p : Z) (masks : list (list Z)) (e : option (list Z)) : res glwe :=
  glwe_encode_encrypt 64 N k sk pt p masks e.
(** high_level.rs:530-540 [trivial_lwe]. *)
Definition hl_trivial_lwe (n : nat) (val p : Z) : res lwe :=
  m <- t_encode 64 val p ;; lwe_trivial n (lwe_new n) m.
(** high_level.rs:558-565 [decrypt_lwe]. *)
Definition hl_decrypt_lwe (pr : profile) (n : nat) (ct : lwe) (sk : list Z) (p : Z) : res Z := lwe_decrypt pr 64 n sk ct p.
(** high_level.rs:586-612 [decrypt_lwe_with_carry]: modelled in TfheBoot.v. *)
Definition hl_decrypt_lwe_with_carry (pr : profile) (n : nat) (ct : lwe) (sk : list Z) (p carry : Z) : res Z := lwe_decrypt_with_carry pr n sk ct p carry.
(** high_level.rs:630-637 [decrypt_glwe]. *)
Definition hl_decrypt_glwe (pr : profile) (N k : nat) (ct : glwe) (sk : list (list Z)) (p : Z) : res (list Z) := glwe_decrypt_decode pr 64 N k sk ct p.
(** high_level.rs:658-679 [trivial_glwe]. *)
Definition hl_trivial_glwe (N k : nat) (pt : list Z) (p : Z) : res glwe :=
  if (p <? 64) && glwe_dim_valid N k && (length pt =? N)%nat then
    b <- mapM (fun x => t_encode 64 x p) pt ;; Ok {| ga := ga (glwe_new N k); gb := zip_assign (fun _ x => x) (gb (glwe_new N k)) b |}
  else Panic.
(** high_level.rs:707-719 [encrypt_ggsw]; entities/ggsw_ciphertext.rs:41-47. *)
Definition hl_encrypt_ggsw (pr : profile) (log : Z) (count N k : nat) (msg : Z) (sk : list (list Z)) (p : Z)
    (rnd : list (list (list (list Z) * option (list Z)))) : res (list (list glwe)) :=
  ggsw_encrypt_scalar pr 64 log count N k (ggsw_new N k count) msg sk p rnd.
(** high_level.rs:734-746 [decrypt_ggsw]; the number of plaintext bits is ignored. *)
Definition hl_decrypt_ggsw (pr : profile) (log : Z) (count N k : nat) (ct : list (list glwe)) (sk : list (list Z)) : res (list Z) :=
  ggsw_decrypt pr 64 log count N k (zpoly N) ct sk.
(** high_level.rs:757-768 [encrypt_binary_msg_secret_glev]. *)
Definition hl_encrypt_glev (pr : profile) (log : Z) (count N k : nat) (msg : list Z) (sk : list (list Z))
    (rnd : list (list (list Z) * option (list Z))) : res (list glwe) :=
  glev_encrypt pr 64 log count N k (repeat (glwe_new N k) count) msg sk rnd.

(** ** fft *)
(** high_level.rs:834-843 [fft_glwe], 857-867 [fft_ggsw], 881-892 [fft_bootstrap_key], 898-908 [fft_scheme_switch_key], 914-924
    [fft_automorphism_key]; the new buffers are overwritten. *)
Definition hl_fft_glwe (X : ext) (N k : nat) (ct : glwe) : res glwe_fft := glwe_to_fft X 64 N k ct.
Definition hl_fft_ggsw (X : ext) (count N k : nat) (g : list (list glwe)) : res (list (list glwe_fft)) := ggsw_to_fft X 64 N k count g.
Definition hl_fft_bootstrap_key (X : ext) (count n N k : nat) (bsk : list (list (list glwe))) : res (list (list (list glwe_fft))) := bsk_to_fft X 64 n N k count bsk.
Definition hl_fft_scheme_switch_key (X : ext) (count N k : nat) (ssk : list (list glwe)) : res (list (list glwe_fft)) := ssk_to_fft X 64 N k count ssk.
Definition hl_fft_automorphism_key (X : ext) (N k : nat) (ak : list (list (list glwe))) : res (list (list (list glwe_fft))) := ak_to_fft X 64 N k ak.

(** ** evaluation *)
(** high_level.rs:962-974 [cmux]; GlweCiphertext::new asserts the dimensions (entities/glwe_ciphertext.rs:49-57). *)
Definition hl_cmux (X : ext) (m : mad_kernel) (h : hw) (pr : profile) (log : Z) (count N k : nat) (b : list (list glwe_fft)) (d0 d1 : glwe) : res glwe :=
  if glwe_dim_valid N k then cmux_fft X m h pr 64 log count N k (glwe_new N k) d0 d1 b else Panic.
(** high_level.rs:998-1010 [glev_cmux]. *)
Definition hl_glev_cmux (X : ext) (m : mad_kernel) (h : hw) (pr : profile) (log : Z) (count N k : nat) (b : list (list glwe_fft)) (d0 d1 : list glwe) : res (list glwe) :=
  glev_cmux_fft X m h pr 64 log count N k (repeat (glwe_new N k) count) d0 d1 b.
(** high_level.rs:1037-1052 [univariate_programmable_bootstrap]; GlweDef::as_lwe_def: dimension k * N. *)
Definition hl_univariate_programmable_bootstrap (X : ext) (m : mad_kernel) (h : hw) (pr : profile) (log : Z) (count n N k : nat)
    (input : lwe) (lut : glwe) (bsk : list (list (list glwe_fft))) : res lwe :=
  pbs_univariate_fft X m h pr 64 log count n N k (lwe_new (k * N)) input lut bsk.
(** high_level.rs:1101-1121 [circuit_bootstrap]. *)
Definition hl_circuit_bootstrap (X : ext) (m : mad_kernel) (h : hw) (pr : profile) (lp lt ls log : Z) (cp ct cs count n N k : nat) (input : lwe)
    (bsk ak : list (list (list glwe_fft))) (ssk : list (list glwe_fft)) (scr : lwe) (scg : glwe) (scl : list glwe) : res (list (list glwe_fft)) :=
  circuit_bootstrap_freq X m h pr 64 lp lt ls log cp ct cs count n N k (ggsw_fft_zero N k count) input bsk ak ssk scr scg scl.
(** high_level.rs:1137-1155 [keyswitch_lwe_to_lwe]. *)
Definition hl_keyswitch_lwe_to_lwe (pr : profile) (log : Z) (count from to : nat) (ct : lwe) (ksk : list (list lwe)) : res lwe :=
  lwe_keyswitch pr 64 log count from to (lwe_new to) ct ksk.
(** high_level.rs:1169-1179 [sample_extract]. *)
Definition hl_sample_extract (N k : nat) (ct : glwe) (idx : nat) : res lwe := sample_extract 64 N k (lwe_new (k * N)) ct idx.
