(** Vocabulary of the theorems about GLWE operations that go through the floating-point FFT. *)
From Coq Require Import Reals ZArith List.
From Verif Require Import Base Tfhe TfheGlwe TfheBoot SpecTfhe SpecGlwe SpecBoot Fft SpecFft.
Import ListNotations.
Open Scope Z_scope.

(** A GGSW ciphertext of [k]+1 rows of [count] GLWE ciphertexts whose coefficients are machine words. *)
Definition ggsw_wf (w : Z) (N k count : nat) (g : list (list glwe)) : Prop :=
  length g = S k /\ Forall (fun r => length r = count /\ Forall (glwe_wf w N k) r) g.

(** One external product through the FFT at degree 2^[lg]: (k+1)*count products of a key polynomial (signed words, at most
    2^(w-1)) with a polynomial of digits (at most 2^(log-1)), summed in the Fourier domain, transformed back and rounded.
    [D] bounds its error per coefficient, for the f64 arithmetic and transforms in [X]. *)
Definition fft_error_at_most (X : ext) (lg : nat) (w log : Z) (count k : nat) (D : Z) : Prop :=
  0 <= D /\ exists u eta tau delta,
    f64_rounding (ef_fl X) /\ accurate X (2 ^ (lg - 1)) u eta tau delta /\
    (SpecFft.fft_err (2 ^ (lg - 1)) u eta tau delta (IZR (2 ^ (w - 1))) (IZR (2 ^ (log - 1))) ((k + 1) * count) + 3 / 2 <= IZR D)%R.

(** The error of one multiply-add c + a * b of frequency points, when [a], [b], [c] are known up to [ea], [eb], [e] and are at
    most [sa], [sb], [s]; and of [L] of them in a row. *)
Definition mad_gen_err (u eta ea sa eb sb e s : R) : R :=
  (e + ((sa + ea) * eb + ea * sb) + (14 * u * (s + e + (sa + ea) * (sb + eb)) + 11 * eta))%R.
Fixpoint mads_err (u eta ea sa eb sb : R) (L : nat) (e s : R) : R :=
  match L with O => e | S L => mads_err u eta ea sa eb sb L (mad_gen_err u eta ea sa eb sb e s) (s + sa * sb)%R end.
