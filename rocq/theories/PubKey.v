(** Model of LWE public keys (sunscreen_tfhe/src/entities/lwe_public_key.rs) and of one-time-pad recryption on ciphertexts
    (parasol_runtime/src/crypto/recryption.rs). *)
From Verif Require Import Base Alu Tfhe TfheGlwe Eval Serde.
Open Scope Z_scope.

(** entities/lwe_public_key.rs:53-67 [LwePublicKey::generate]: [dim] encryptions of 0, with the randomness (mask, error) of each.
    The key is the list of its ciphertexts ([enc_zeros], 75-83). *)
Fixpoint pk_rows (w : Z) (dim n : nat) (sk : list Z) (rnd : list (list Z * Z)) : res (list lwe) :=
  match n, rnd with
  | S n, (mask, e) :: rnd =>
      c <- lwe_encode_encrypt w dim (lwe_new dim) sk 0 1 mask e ;; cs <- pk_rows w dim n sk rnd ;; Ok (c :: cs)
  | _, _ => Ok []
  end.
Definition lwe_pk_generate (w : Z) (dim : nat) (sk : list Z) (rnd : list (list Z * Z)) : res (list lwe) :=
  if lwe_dim_valid dim && (length sk =? dim)%nat then pk_rows w dim dim sk rnd else Panic.

(** entities/lwe_public_key.rs:16-23 [TlwePublicEncRandomness]. *)
Record pub_rnd := { pr_r : list Z; pr_e : lwe }.
(** Lines 107-117: the sum of the selected encryptions of zero. [rs] are the values drawn by [binary], one for each. *)
Fixpoint pk_select (w : Z) (acc : lwe) (pk : list lwe) (rs : list Z) : lwe * list Z :=
  match pk, rs with
  | z :: pk, r :: rs =>
      let acc := {| lwe_a := zip_assign (fun y x => tadd w y (tmul w x r)) (lwe_a acc) (lwe_a z); lwe_b := tadd w (lwe_b acc) (tmul w (lwe_b z) r) |} in
      let '(acc, used) := pk_select w acc pk rs in (acc, r :: used)
  | _, _ => (acc, [])
  end.
(** Lines 87-132 [encrypt]: [ea], [eb] are the values drawn by [normal_torus]. The key is valid if its array has (dim+1)*dim entries. *)
Definition lwe_pk_encrypt (w : Z) (dim : nat) (pk : list lwe) (msg p : Z) (rs ea : list Z) (eb : Z) : res (lwe * pub_rnd) :=
  if lwe_dim_valid dim && (length pk =? dim)%nat && forallb (lwe_valid dim) pk && (p <? w) then
    m <- t_encode w msg p ;;
    let '(acc, used) := pk_select w (lwe_new dim) pk rs in
    let a := zip_assign (tadd w) (lwe_a acc) ea in
    let e := {| lwe_a := zip_assign (fun _ x => x) (repeat 0 dim) ea; lwe_b := eb |} in
    Ok ({| lwe_a := a; lwe_b := tadd w (tadd w (lwe_b acc) m) eb |}, {| pr_r := used; pr_e := e |})
  else Panic.

(** recryption.rs:67-83 [generate_one_time_pad]: [key] are the random bits; the public pad and the secret pad. *)
Definition generate_pad (P : params) (pk : glwe) (key : list bool) (u e0 e1 : list Z) : res (glwe * list Z) :=
  ct <- enc_rlwe1 P pk key u e0 e1 ;; Ok (ct, map Z.b2z key).
(** recryption.rs:88-100 [recrypt_one_time_pad]. *)
Definition recrypt_pad (x pad : glwe) : glwe := ev_xor x pad.
