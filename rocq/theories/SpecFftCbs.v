(** Vocabulary of the theorems about key switching, the trace, scheme switching and circuit bootstrapping through the floating-point FFT. *)
From Coq Require Import Reals ZArith List.
From Verif Require Import Base Tfhe TfheGlwe TfheSwitch SpecTfhe SpecGlwe Fft SpecFft SpecFftGlwe.
Open Scope Z_scope.

(** [D] bounds the error per coefficient of [L] products of a key polynomial (signed words) with a polynomial of digits (at most 2^(log-1)),
    summed in the Fourier domain, transformed back and rounded, at degree 2^[lg], for the f64 arithmetic and transforms in [X]. *)
Definition products_error_at_most (X : ext) (lg : nat) (w log : Z) (L : nat) (D : Z) : Prop :=
  0 <= D /\ exists u eta tau delta,
    f64_rounding (ef_fl X) /\ accurate X (2 ^ (lg - 1)) u eta tau delta /\
    (SpecFft.fft_err (2 ^ (lg - 1)) u eta tau delta (IZR (2 ^ (w - 1))) (IZR (2 ^ (log - 1))) L + 3 / 2 <= IZR D)%R.

(** The same when the key polynomials are themselves only known up to [e] at each frequency and have size at most [s] there. *)
Definition approx_err (n : nat) (u eta tau delta e s B : R) (L : nat) : R :=
  untwist_err n u eta tau delta (mads_err u eta e s (fwd_err n u eta tau delta B) (freq n B) L 0 0) (INR L * (s * freq n B)).
(** A GGSW ciphertext that a scheme switch leaves in Fourier form: the transform of a word polynomial plus [L] products of word polynomials with digits
    up to [B]. Its error and its size at each frequency. (It is never reduced modulo 2^w.) *)
Definition switched_err (n : nat) (u eta tau delta A B : R) (L : nat) : R :=
  mads_err u eta (fwd_err n u eta tau delta A) (freq n A) (fwd_err n u eta tau delta B) (freq n B) L (fwd_err n u eta tau delta A) (freq n A).
Definition switched_size (n : nat) (A B : R) (L : nat) : R := (freq n A + INR L * (freq n A * freq n B))%R.
(** [D] bounds the error of an external product (digits 2^(log-1), [count] levels) with a GGSW ciphertext that comes out of a scheme switch with radix [ls], [cs]. *)
Definition switched_error_at_most (X : ext) (lg : nat) (w ls log : Z) (cs count k : nat) (D : Z) : Prop :=
  0 <= D /\ exists u eta tau delta,
    f64_rounding (ef_fl X) /\ accurate X (2 ^ (lg - 1)) u eta tau delta /\
    (approx_err (2 ^ (lg - 1)) u eta tau delta
       (switched_err (2 ^ (lg - 1)) u eta tau delta (IZR (2 ^ (w - 1))) (IZR (2 ^ (ls - 1))) (k * cs))
       (switched_size (2 ^ (lg - 1)) (IZR (2 ^ (w - 1))) (IZR (2 ^ (ls - 1))) (k * cs))
       (IZR (2 ^ (log - 1))) ((k + 1) * count) + 3 / 2 <= IZR D)%R.
(** Products of two binary polynomials are computed with an error below one half. *)
Definition binary_products_exact (X : ext) (lg : nat) : Prop :=
  exists u eta tau delta, f64_rounding (ef_fl X) /\ accurate X (2 ^ (lg - 1)) u eta tau delta /\
    (SpecFft.fft_err (2 ^ (lg - 1)) u eta tau delta 1 1 1 < / 2)%R.

(** Keys whose coefficients are machine words: key-switch, automorphism and scheme-switch keys. *)
Definition glevs_wf (w : Z) (N k count : nat) (rows : list (list glwe)) : Prop :=
  Forall (fun r => length r = count /\ Forall (glwe_wf w N k) r) rows.
Definition gksk_words (w : Z) (N k count : nat) (ksk : list (list glwe)) : Prop := length ksk = k /\ glevs_wf w N k count ksk.
Definition ak_words (w : Z) (N k count : nat) (ak : list (list (list glwe))) : Prop := length ak = Nat.log2 N /\ Forall (gksk_words w N k count) ak.
Definition ssk_words (w : Z) (N k count : nat) (ssk : list (list glwe)) : Prop := length ssk = tri_count k /\ glevs_wf w N k count ssk.

(** The errors of the products inside a circuit bootstrap - bootstrapping with radix [lp], [cp] and the trace with radix [lt], [ct] - are at most [D],
    and those of a CMUX (radix [log], [count]) with the result, which a scheme switch with radix [ls], [cs] made, at most [D4]. *)
Definition cbs_errors_at_most (X : ext) (lg : nat) (w lp lt ls log : Z) (cp ct cs count k : nat) (D D4 : Z) : Prop :=
  0 <= D /\ 0 <= D4 /\ exists u eta tau delta,
    f64_rounding (ef_fl X) /\ accurate X (2 ^ (lg - 1)) u eta tau delta /\
    (let n := (2 ^ (lg - 1))%nat in let A := IZR (2 ^ (w - 1)) in let B l := IZR (2 ^ (l - 1)) in
     SpecFft.fft_err n u eta tau delta A (B lp) ((k + 1) * cp) + 3 / 2 <= IZR D /\
     SpecFft.fft_err n u eta tau delta A (B lt) (k * ct) + 3 / 2 <= IZR D /\
     approx_err n u eta tau delta (switched_err n u eta tau delta A (B ls) (k * cs)) (switched_size n A (B ls) (k * cs)) (B log) ((k + 1) * count) + 3 / 2 <= IZR D4)%R.
