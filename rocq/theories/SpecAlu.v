(** Specification vocabulary for the instruction theorems (not a model of code): the mathematical value each
    instruction must produce, as a function of the operand width and the operand values. *)
From Verif Require Import Base Spec Alu.

(** The unsigned value a register holds; for a ciphertext, the value it decrypts to. *)
Definition reg_value (r : reg) : Z := match r with RPlain v _ => v | RCipher _ d => uval d end.

Definition reg_enc (r : reg) : bool := match r with RPlain _ _ => false | RCipher _ _ => true end.

(** A register in a normal state: width 1 to 128, a plaintext value that fits the width, or bits encrypted as
    L1 GLWE (the form every instruction and load produces). *)
Definition reg_ok (r : reg) : Prop :=
  1 <= reg_width r <= 128 /\
  match r with RPlain v w => 0 <= v < 2 ^ w | RCipher k _ => k = KL1Glwe end.

(** Two-operand instructions: result width and value. *)
Definition binop_width (op : binop) (w : Z) : Z := match op with BCmp _ => 1 | _ => w end.

Definition binop_value (op : binop) (w a b : Z) : Z :=
  match op with
  | BAdd => (a + b) mod 2 ^ w
  | BSub => (a - b) mod 2 ^ w
  | BMul => (a * b) mod 2 ^ w
  | BAnd => Z.land a b
  | BOr => Z.lor a b
  | BXor => Z.lxor a b
  | BCmp CEq => b2z (a =? b)
  | BCmp (COrd false greater or_equal) => b2z (rel greater or_equal a b)
  | BCmp (COrd true greater or_equal) => b2z (rel greater or_equal (sint w a) (sint w b))
  end.

(** Shifts and rotations of a w-bit value v by s. *)
Definition shift_value (op : shiftop) (w v s : Z) : Z :=
  match op with
  | SShl => (v * 2 ^ s) mod 2 ^ w
  | SShr => v / 2 ^ s
  | SShra => (sint w v / 2 ^ s) mod 2 ^ w
  | SRotl => (v * 2 ^ (s mod w)) mod 2 ^ w + v / 2 ^ (w - s mod w)
  | SRotr => v / 2 ^ (s mod w) + (v * 2 ^ (w - s mod w)) mod 2 ^ w
  end.

(** The operand widths at which encrypted multiplication aborts. *)
Definition mul_gap (op : binop) (w : Z) : Prop :=
  match op with BMul => w = 33 \/ 65 <= w <= 67 | _ => False end.

(** The plaintext cases in which the instruction leaves bits set above the width. *)
Definition shift_unmasked (op : shiftop) (w v s : Z) : Prop :=
  match op with SShl => 2 ^ w <= (v * 2 ^ s) mod 2 ^ 128 | SShra => 2 ^ (w - 1) <= v | _ => False end.

(** Rotation needs a power-of-two width; the other circuits work for every width. *)
Definition rot_width_ok (op : shiftop) (n : nat) : Prop :=
  match op with SRotl | SRotr => exists e, n = (2 ^ e)%nat | _ => True end.

