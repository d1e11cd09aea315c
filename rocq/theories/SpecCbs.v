(** Vocabulary of the circuit-bootstrap theorems. *)
From Verif Require Import Base PolyRing Tfhe TfheGlwe TfheBoot TfheTrace TfheSwitch SpecTfhe SpecGlwe SpecBoot SpecTrace SpecSwitch.
Open Scope Z_scope.

(** The noise of one level after the trace: [n] CMUXes with bootstrap-key noise [Eb], the rounding of the
    modulus switch, and the trace with automorphism-key noise [Ea]. *)
Definition cbs_glev_noise (N k n cp ct : nat) (w lp lt Eb Ea D : Z) : Z :=
  Z.of_nat n * cmux_noise N k cp w lp Eb D
  + 2 ^ (Z.of_nat (Nat.log2 N) - 1) * (1 + Z.of_nat k * Z.of_nat N)
  + (Z.of_nat N - 1) * fft_ks_noise N k ct w lt Ea D.
(** The noise of the resulting GGSW ciphertext. *)
Definition cbs_noise (N k n cp ct cs : nat) (w lp lt ls Eb Ea Es D : Z) : Z :=
  ss_noise N k cs w ls (cbs_glev_noise N k n cp ct w lp lt Eb Ea D) Es + D * (1 + Z.of_nat k * Z.of_nat N).
