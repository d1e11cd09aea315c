(** Vocabulary of the bootstrapping theorems. *)
From Verif Require Import Base PolyRing Tfhe TfheGlwe TfheBoot SpecTfhe SpecGlwe.
Open Scope Z_scope.

(** The constant polynomial [b]. *)
Definition pconst (b : Z) : poly := fun k => if (k =? 0)%nat then b else 0.

(** A floating-point error: one integer per coefficient, each of magnitude at most [D]. *)
Definition fft_err (N k : nat) (D : Z) (d : glwe) : Prop :=
  glwe_shape N k d /\ Forall (Forall (fun x => Z.abs x <= D)) (ga d) /\ Forall (fun x => Z.abs x <= D) (gb d).

(** [bsk] is a bootstrap key for the LWE key [s] under the GLWE key [sk]: entry i is a GGSW encryption of the
    constant s_i with noise at most [E]. *)
Definition bsk_enc (N k count : nat) (w log E : Z) (sk : list (list Z)) (s : list Z) (bsk : list (list (list glwe))) : Prop :=
  Forall2 (fun x g => ggsw_valid N k count g = true /\ ggsw_enc N k count w log E sk (pconst x) g) s bsk.

(** The noise one CMUX adds for binary keys: the external product of a bit ([E] is the noise of the GGSW
    ciphertext) and the floating-point error, seen through the key. *)
Definition cmux_noise (N k count : nat) (w log E D : Z) : Z :=
  Z.of_nat k * gadget_bound N count w log (Z.of_nat N) E + gadget_bound N count w log 1 E
  + D * (1 + Z.of_nat k * Z.of_nat N).

(** Randomness of one GGSW encryption. *)
Definition ggsw_rnd_ok (N k count : nat) (w E : Z) (r : list (list (list (list Z) * option (list Z)))) : Prop :=
  length r = S k /\ Forall (fun row => length row = count /\ Forall (glwe_rnd_ok N k w E) row) r.

(** The maps given to a lookup table compute the functions [vals] on 0..2^p-1 without panicking and stay in
    that range. *)
Definition maps_ok (p : Z) (maps : list (Z -> res Z)) (vals : list (Z -> Z)) : Prop :=
  Forall2 (fun f g => forall j, 0 <= j < 2 ^ p -> f j = Ok (g j) /\ 0 <= g j < 2 ^ p) maps vals.

(** The function in slot [i] of a table; unused slots hold the constant 0. *)
Definition slot (vals : list (Z -> Z)) (i : nat) : Z -> Z := nth i vals (fun _ => 0).

(** The number of slots for [n] functions: the least power of two that is at least [n]. *)
Definition log_slots (n : nat) : nat := Nat.log2_up n.
