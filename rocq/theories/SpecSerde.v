(** Vocabulary for C112: what it means for a key or ciphertext to be well formed for a parameter set. *)
From Verif Require Import Base Eval SpecTfhe SpecGlwe.
Open Scope Z_scope.

Definition bytes (data : list Z) : Prop := Forall (fun b => 0 <= b < 256) data.
(** A length that fits a 64-bit length field. *)
Definition fits (n : nat) : Prop := Z.of_nat n < 2 ^ 64.
(** [cnt] objects, each well formed. *)
Definition many {A} (cnt : nat) (V : A -> Prop) (xs : list A) : Prop := length xs = cnt /\ Forall V xs.

Definition glev_ok (P : params) (cnt : nat) : list glwe -> Prop := many cnt (glwe_wf 64 (p_N P) (p_k P)).
Definition ggsw_ok (P : params) (cnt : nat) : list (list glwe) -> Prop := many (p_k P + 1) (glev_ok P cnt).
Definition secret_key_ok (P : params) (sk : secret_key) : Prop :=
  (length (s_lwe0 sk) = p_n P /\ toruses 64 (s_lwe0 sk)) /\ many (p_k P) (fun p => length p = p_N P /\ toruses 64 p) (s_glwe1 sk).
(** The key-switch key from LWE keys of dimension k*N to dimension n. *)
Definition lwe_ksk_ok (P : params) : list (list lwe) -> Prop := many (p_k P * p_N P) (many (r_count (p_ks P)) (lwe_wf 64 (p_n P))).
Definition compute_key_ok (P : params) (ck : compute_key) : Prop :=
  many (p_n P) (ggsw_ok P (r_count (p_pbs P))) (k_bs ck) /\ lwe_ksk_ok P (k_ks ck) /\
  many (tri_count (p_k P)) (glev_ok P (r_count (p_ss P))) (k_ss ck) /\
  many (Nat.log2 (p_N P)) (many (p_k P) (glev_ok P (r_count (p_tr P)))) (k_auto ck).
(** [n] complex numbers, as pairs of 64-bit words. *)
Definition complex_words (n : nat) (l : list Z) : Prop := length l = (2 * n)%nat /\ toruses 64 l.

(** [de] and [ser] are inverse: on any bytes, [de] succeeds with [x] exactly when [x] is well formed and the bytes begin with the
    serialisation of [x]; otherwise it reports an error, and it never aborts. The serialisation of a well-formed [x] has [n] bytes. *)
Definition codec {A} (de : list Z -> res A) (ser : A -> list Z) (ok : A -> Prop) (n : Z) : Prop :=
  (forall data, bytes data -> (forall x, de data = Ok x <-> ok x /\ exists rest, data = ser x ++ rest) /\ de data <> Panic) /\
  (forall x, ok x -> bytes (ser x) /\ Z.of_nat (length (ser x)) = n).

(** The entries of a compute key are 64-bit words (in the program: by their type). *)
Definition glwe_words (c : glwe) : Prop := Forall (toruses 64) (ga c) /\ toruses 64 (gb c).
Definition lwe_words (c : lwe) : Prop := toruses 64 (lwe_a c) /\ torus 64 (lwe_b c).
Definition key_words (ck : compute_key) : Prop :=
  Forall (Forall (Forall glwe_words)) (k_bs ck) /\ Forall (Forall lwe_words) (k_ks ck) /\
  Forall (Forall glwe_words) (k_ss ck) /\ Forall (Forall (Forall glwe_words)) (k_auto ck).
(** The numbers of words of degree-[N] polynomials (of complex numbers, for N / 2) in the parts of a compute key. *)
Definition bs_size (P : params) (N : nat) : nat := (p_n P * ((p_k P + 1) * (r_count (p_pbs P) * ((p_k P + 1) * N))))%nat.
Definition ks_size (P : params) : nat := (p_k P * p_N P * (r_count (p_ks P) * (p_n P + 1)))%nat.
Definition ss_size (P : params) (N : nat) : nat := (tri_count (p_k P) * (r_count (p_ss P) * ((p_k P + 1) * N)))%nat.
Definition auto_size (P : params) (N : nat) : nat := (Nat.log2 (p_N P) * (p_k P * (r_count (p_tr P) * ((p_k P + 1) * N))))%nat.
(** The lengths fit a length field. *)
Definition key_fits (P : params) : Prop := fits (bs_size P (p_N P)) /\ fits (ks_size P) /\ fits (ss_size P (p_N P)) /\ fits (auto_size P (p_N P)).
