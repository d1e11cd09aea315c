(** Vocabulary of the functional key-switching theorems. *)
From Verif Require Import Base PolyRing Tfhe TfheGlwe SpecTfhe SpecGlwe.
Open Scope Z_scope.

(** The list of [p] integers that holds [x] at position [z] and 0 elsewhere. *)
Definition unit_at (p z : nat) (x : Z) (l : list Z) : Prop :=
  length l = p /\ forall i, nth i l 0 = if (i =? z)%nat then x else 0.

(** A morphism from T^p to T[X]: additive modulo 2^w. *)
Definition morphism (N : nat) (w : Z) (p : nat) (F : list Z -> list Z) : Prop :=
  (forall x, length x = p -> toruses w x -> poly_wf w N (F x)) /\
  (forall x y z, length x = p -> length y = p -> length z = p -> toruses w x -> toruses w y -> toruses w z ->
     (forall i, (i < p)%nat -> congr w (nth i z 0) (nth i x 0 + nth i y 0)) ->
     peq N (2 ^ w) (coef (F z)) (padd (coef (F x)) (coef (F y)))).

(** R-Lipschitz: errors of at most [E] in the arguments become errors of at most [R * E]. *)
Definition lipschitz (N : nat) (w : Z) (p : nat) (R : Z) (F : list Z -> list Z) : Prop :=
  forall E x y, 0 <= E -> length x = p -> length y = p -> toruses w x -> toruses w y ->
    (forall i, (i < p)%nat -> near w E (nth i x 0) (nth i y 0)) -> pnear N w (R * E) (coef (F x)) (coef (F y)).

(** [key] is a private functional key-switch key for [F] from the LWE key [s] to the GLWE key [sk]: for input [z] and
    the i-th element x of s followed by -1, level j of GLEV ciphertext z (n+1) + i encrypts F applied to the list that
    holds x 2^(w - log (j+1)) at position z and 0 elsewhere. *)
Definition pfksk_enc (n N k p count : nat) (w log E : Z) (s : list Z) (sk : list (list Z)) (F : list Z -> list Z)
    (key : list (list glwe)) : Prop :=
  length s = n /\ length key = (p * (n + 1))%nat /\ Forall (fun g => length g = count /\ Forall (glwe_shape N k) g) key /\
  forall z i x g j c l, (z < p)%nat -> nth_error (s ++ [-1]) i = Some x -> nth_error key (z * (n + 1) + i) = Some g ->
    nth_error g j = Some c -> unit_at p z ((x * 2 ^ (w - log * (Z.of_nat j + 1))) mod 2 ^ w) l ->
    pnear N w E (glwe_phase N sk c) (coef (F l)).

(** The noise of a private functional key switch of [p] inputs with an R-Lipschitz map and a key of noise [E]. *)
Definition pfks_noise (n p count : nat) (w log R E : Z) : Z :=
  R * ((Z.of_nat n + 1) * 2 ^ (w - log * Z.of_nat count - 1)) +
  Z.of_nat p * ((Z.of_nat n + 1) * (Z.of_nat count * (2 ^ (log - 1) * E))).

(** The messages (phases) of a list of LWE ciphertexts, as machine words. *)
Definition phases (w : Z) (s : list Z) (cs : list lwe) : list Z := map (fun c => lwe_phase s c mod 2 ^ w) cs.

(** The two maps of the circuit bootstrap: x to the polynomial - x * s, and x to the constant x. *)
Definition minus_times (w : Z) (s : list Z) (x : list Z) : list Z := map (fun a => (- nth 0 x 0 * a) mod 2 ^ w) s.
Definition constant (N : nat) (x : list Z) : list Z := nth 0 x 0 :: repeat 0 (N - 1).

(** [keys] are the key-switch keys of a circuit bootstrap from the LWE key [s] to the GLWE key [sk]: key i < k is for
    x to - x * s_i, the last one for x to x. *)
Definition cbsksk_enc (n N k count : nat) (w log E : Z) (s : list Z) (sk : list (list Z)) (keys : list (list (list glwe))) : Prop :=
  length keys = S k /\
  (forall i si key, nth_error sk i = Some si -> nth_error keys i = Some key ->
     pfksk_enc n N k 1 count w log E s sk (minus_times w si) key) /\
  (forall key, nth_error keys k = Some key -> pfksk_enc n N k 1 count w log E s sk (constant N) key).

(** [key] is a public functional key-switch key from the LWE key [s] to the GLWE key [sk]. *)
Definition pufksk_enc (N k count : nat) (w log E : Z) (s : list Z) (sk : list (list Z)) (key : list (list glwe)) : Prop :=
  Forall2 (fun x g => length g = count /\ glev_enc N k w log E sk (fun i => if (i =? 0)%nat then x else 0) g) s key.
(** The noise of a public functional key switch: [n] gadget products of bits and the floating-point error. *)
Definition pufks_noise (n N k count : nat) (w log E D : Z) : Z :=
  Z.of_nat n * gadget_bound N count w log 1 E + D * (1 + Z.of_nat k * Z.of_nat N).
(** The sum of a list of integers. *)
Definition zsuml (l : list Z) : Z := fold_right Z.add 0 l.
