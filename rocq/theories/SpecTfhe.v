(** What the TFHE theorems talk about: integers modulo 2^w, polynomials modulo X^N + 1 and 2^w, phases and
    noise. No definition here refers to how /repo computes anything. *)
From Verif Require Import Base PolyRing Tfhe.
Open Scope Z_scope.

(** The two torus types: u32 and u64. *)
Definition word (w : Z) : Prop := w = 32 \/ w = 64.

(** A machine word. *)
Definition torus (w x : Z) : Prop := 0 <= x < 2 ^ w.
Definition toruses (w : Z) (l : list Z) : Prop := Forall (torus w) l.

(** Equality modulo 2^w. *)
Notation congr w a b := (zeq (2 ^ w) a b).

(** [x] is [y] up to an error of magnitude at most [E], modulo 2^w. *)
Definition near (w E x y : Z) : Prop := exists e, Z.abs e <= E /\ congr w x (y + e).

(** A key with 0/1 coefficients. *)
Definition binary (sk : list Z) : Prop := Forall (fun s => s = 0 \/ s = 1) sk.

(** Inner product. *)
Fixpoint dotz (a s : list Z) : Z :=
  match a, s with x :: a, y :: s => x * y + dotz a s | _, _ => 0 end.

(** The phase of an LWE ciphertext: what remains after removing the mask with the key (an integer, to be
    read modulo 2^w): message plus noise. *)
Definition lwe_phase (sk : list Z) (c : lwe) : Z := lwe_b c - dotz (lwe_a c) sk.

(** A ciphertext whose shape and elements fit. *)
Definition lwe_wf (w : Z) (dim : nat) (c : lwe) : Prop :=
  length (lwe_a c) = dim /\ toruses w (lwe_a c) /\ torus w (lwe_b c).

(** The value a list of signed digits (least significant first) denotes in radix 2^log. *)
Fixpoint radix_value (log : Z) (ds : list Z) : Z :=
  match ds with [] => 0 | d :: ds => d + 2 ^ log * radix_value log ds end.

(** A polynomial of the right shape. *)
Definition poly_wf (w : Z) (N : nat) (p : list Z) : Prop := length p = N /\ toruses w p.

(** The k-th coefficient (0 beyond the end). *)
Definition coef (p : list Z) : poly := fun k => nth k p 0.

(** A polynomial is [g] up to an error with coefficients of magnitude at most [E]. *)
Definition pnear (N : nat) (w E : Z) (f g : poly) : Prop :=
  exists e : poly, (forall k, (k < N)%nat -> Z.abs (e k) <= E) /\ peq N (2 ^ w) f (padd g e).

(** X^n * f modulo X^N + 1, for any integer n: coefficient k comes from position k - n, and changes sign
    each time the position wraps around. *)
Definition pmono (N : nat) (n : Z) (f : poly) : poly := fun k =>
  let m := Z.of_nat k - n in
  (if Z.even (m / Z.of_nat N) then 1 else -1) * f (Z.to_nat (m mod Z.of_nat N)).

(** [lev] is a LEV encryption of the integer [s] under [sk] with noise at most [E]: its j-th entry encrypts
    s * 2^(w - log (j+1)). *)
Definition lev_enc (w log E : Z) (dim : nat) (sk : list Z) (s : Z) (lev : list lwe) : Prop :=
  forall j c, nth_error lev j = Some c ->
    length (lwe_a c) = dim /\ near w E (lwe_phase sk c) (s * 2 ^ (w - log * (Z.of_nat j + 1))).

(** [ksk] is a key-switch key from [oldsk] to [newsk] with noise at most [E]. *)
Definition ksk_enc (w log E : Z) (count : nat) (oldsk newsk : list Z) (ksk : list (list lwe)) : Prop :=
  Forall2 (fun s lev => length lev = count /\ lev_enc w log E (length newsk) newsk s lev) oldsk ksk.

(** The randomness of a key generation: masks of the right length and errors bounded by [E]. *)
Definition ksk_rnd_ok (w E : Z) (new count : nat) (rnd : list (list (list Z * Z))) : Prop :=
  Forall (fun row => length row = count /\ Forall (fun r => length (fst r) = new /\ near w E (snd r) 0) row) rnd.
