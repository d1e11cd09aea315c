(** Vocabulary of the trace theorems. *)
From Verif Require Import Base PolyRing Tfhe TfheGlwe TfheBoot TfheTrace SpecTfhe SpecGlwe SpecBoot.
Open Scope Z_scope.

(** f(X^k) modulo X^N + 1: the sum of f_i X^(i k). *)
Definition psubst (N k : nat) (f : poly) : poly := psum N (fun i => pscale (f i) (pmono N (Z.of_nat (i * k)) p1)).

(** [ak] is an automorphism key for [sk]: entry i (from 0) switches from the key s(X^(N / 2^i + 1)) to [sk]. *)
Definition ak_enc (N k count : nat) (w log E : Z) (sk : list (list Z)) (ak : list (list (list glwe))) : Prop :=
  length ak = Nat.log2 N /\
  forall i ksk, nth_error ak i = Some ksk ->
    length ksk = k /\ Forall (fun r => length r = count /\ Forall (glwe_shape N k) r) ksk /\
    forall j s row, nth_error sk j = Some s -> nth_error ksk j = Some row ->
      glev_enc N k w log E sk (psubst N (N / 2 ^ i + 1) (coef s)) row.

(** The noise of one key switch through the FFT under binary keys. *)
Definition fft_ks_noise (N k count : nat) (w log E D : Z) : Z :=
  Z.of_nat k * gadget_bound N count w log (Z.of_nat N) E + D * (1 + Z.of_nat k * Z.of_nat N).
