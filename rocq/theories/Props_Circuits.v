(** Properties C18-C25 (circuits) and C58 (combinations).

    Reading guide: bit lists are little-endian; [uval]/[sval] are the unsigned/two's complement value of a bit list,
    [to_bits n z] the n low bits of z; [run_res c v] runs a built circuit on the input bits v (Panic if the builder or
    the arity assertion panics). Nothing else of the model appears in a statement except the builders themselves. *)
From Verif Require Import Base Spec BitsLemmas Combos Circuits CircuitsProofs ShiftProofs MulProofs MulRecProofs
  CombosProofs.

(** C18: for every pair of widths and every input, the sum circuit's outputs are the bits of a + b + carry-in. *)
Theorem adder_adds : forall (cin : option bool) (a b : list bool),
  (0 < length a)%nat -> (0 < length b)%nat ->
  run_res (ripple_carry_adder (length a) (length b) (is_some cin)) (adder_inputs cin a b)
  = Ok (to_bits (Nat.max (length a) (length b) + 1) (uval a + uval b + carry_z cin)).
Proof. exact adder_correct. Qed.
Example adder_adds_ex :
  run_res (ripple_carry_adder 3 2 true) (adder_inputs (Some true) [true; false; true] [true; true])
  = Ok [true; false; false; true] /\ uval [true; false; true] + uval [true; true] + 1 = 9.
Proof. split; reflexivity. Qed.
Print Assumptions adder_adds.

(** C19 *)
Theorem subtractor_subtracts : forall (bin : option bool) (a b : list bool),
  (0 < length a)%nat -> length b = length a ->
  run_res (full_subtractor (length a) (is_some bin)) (opt_list bin ++ interleave a b)
  = Ok (to_bits (length a) (uval a - uval b - carry_z bin) ++ [uval a <? uval b + carry_z bin]).
Proof. exact subtractor_correct. Qed.
Example subtractor_subtracts_ex :
  run_res (full_subtractor 3 true) (opt_list (Some true) ++ interleave [true; false; false] [true; true; false])
  = Ok [true; false; true; true].
Proof. reflexivity. Qed.
Print Assumptions subtractor_subtracts.

(** C20: unsigned and signed order, equality and inequality. *)
Theorem comparison_unsigned : forall (a b : list bool) (greater or_equal : bool),
  (0 < length a)%nat -> length b = length a ->
  run_res (compare_or_maybe_equal (length a) greater or_equal) (interleave a b)
  = Ok [rel greater or_equal (uval a) (uval b)].
Proof. exact cmp_correct. Qed.
Print Assumptions comparison_unsigned.

Theorem comparison_signed : forall (a b : list bool) (greater or_equal : bool),
  (0 < length a)%nat -> length b = length a ->
  run_res (compare_or_maybe_equal_signed (length a) greater or_equal) (interleave a b)
  = Ok [rel greater or_equal (sval a) (sval b)].
Proof. exact cmp_signed_correct. Qed.
Example comparison_signed_ex : (* -4 < 3 as signed, 4 > 3 as unsigned *)
  run_res (compare_or_maybe_equal_signed 3 true false) (interleave [false; false; true] [true; true; false]) = Ok [false]
  /\ run_res (compare_or_maybe_equal 3 true false) (interleave [false; false; true] [true; true; false]) = Ok [true].
Proof. split; reflexivity. Qed.
Print Assumptions comparison_signed.

Theorem comparison_equal : forall (a b : list bool),
  (0 < length a)%nat -> length b = length a ->
  run_res (compare_equal (length a)) (interleave a b) = Ok [uval a =? uval b] /\
  run_res (compare_not_equal (length a)) (interleave a b) = Ok [negb (uval a =? uval b)].
Proof. intros a b Ha Hb. split; [now apply eqb_correct|now apply neqb_correct]. Qed.
Print Assumptions comparison_equal.

(** C21: the barrel shifter (operands most significant bit first) with an encrypted amount k. *)
Theorem shift_left_logical : forall (a k : list bool),
  (0 < length a)%nat -> (0 < length k)%nat -> (length a <= 2 ^ length k)%nat ->
  run_res (bitshift (length a) (length k) DLeft MLogical) (rev a ++ rev k)
  = Ok (rev (to_bits (length a) (uval a * 2 ^ uval k))).
Proof. exact shl_circuit_correct. Qed.
Theorem shift_right_logical : forall (a k : list bool),
  (0 < length a)%nat -> (0 < length k)%nat -> (length a <= 2 ^ length k)%nat ->
  run_res (bitshift (length a) (length k) DRight MLogical) (rev a ++ rev k)
  = Ok (rev (to_bits (length a) (uval a / 2 ^ uval k))).
Proof. exact shr_circuit_correct. Qed.
Theorem shift_right_arithmetic : forall (a k : list bool),
  (0 < length a)%nat -> (0 < length k)%nat -> (length a <= 2 ^ length k)%nat ->
  run_res (bitshift (length a) (length k) DRight MArithmetic) (rev a ++ rev k)
  = Ok (rev (to_bits (length a) (sval a / 2 ^ uval k))).
Proof. exact shra_circuit_correct. Qed.
(** Bit p moves to position p + k modulo the width. *)
Theorem rotate_left_circuit : forall (a k : list bool) (e : nat),
  length a = (2 ^ e)%nat -> (0 < length k)%nat -> (length a <= 2 ^ length k)%nat ->
  exists out,
    run_res (bitshift (length a) (length k) DLeft MRotation) (rev a ++ rev k) = Ok (rev out) /\
    length out = length a /\
    forall p, (p < length a)%nat -> nth ((p + Z.to_nat (uval k)) mod length a) out false = nth p a false.
Proof. exact rotl_circuit_correct. Qed.
Theorem rotate_right_circuit : forall (a k : list bool) (e : nat),
  length a = (2 ^ e)%nat -> (0 < length k)%nat -> (length a <= 2 ^ length k)%nat ->
  exists out,
    run_res (bitshift (length a) (length k) DRight MRotation) (rev a ++ rev k) = Ok (rev out) /\
    length out = length a /\
    forall p, (p < length a)%nat -> nth p out false = nth ((p + Z.to_nat (uval k)) mod length a) a false.
Proof. exact rotr_circuit_correct. Qed.
(** The hypothesis width <= 2^(bits of the amount) is necessary: a narrower amount aborts. *)
Theorem shift_narrow_amount_panics : forall n s dir mode v,
  (0 < n)%nat -> (2 ^ s < n \/ s = 0)%nat -> run_res (bitshift n s dir mode) v = Panic.
Proof. exact bitshift_narrow_panics. Qed.
Example shift_ex : (* 0b1011 by 2 *)
  run_res (bitshift 4 2 DLeft MLogical) (rev [true; true; false; true] ++ rev [false; true]) = Ok (rev [false; false; true; true])
  /\ run_res (bitshift 4 2 DRight MArithmetic) (rev [true; true; false; true] ++ rev [false; true]) = Ok (rev [false; true; true; true])
  /\ run_res (bitshift 4 2 DLeft MRotation) (rev [true; true; false; true] ++ rev [false; true]) = Ok (rev [false; true; true; true]).
Proof. repeat split. Qed.
Print Assumptions shift_left_logical.
Print Assumptions shift_right_logical.
Print Assumptions shift_right_arithmetic.
Print Assumptions rotate_left_circuit.
Print Assumptions rotate_right_circuit.
Print Assumptions shift_narrow_amount_panics.

(** C22 *)
Theorem negator_negates : forall (a : list bool),
  (0 < length a)%nat -> run_res (negator (length a)) a = Ok (to_bits (length a) (- uval a)).
Proof. exact negator_correct. Qed.
Example negator_negates_ex : run_res (negator 3) [true; true; false] = Ok [true; false; true].
Proof. reflexivity. Qed.
Print Assumptions negator_negates.

(** Bitwise and/or circuits (used by the same API). *)
Theorem logic_circuits : forall (a b : list bool), length b = length a ->
  exists x y,
  run_circuit (make_and_circuit (length a)) (interleave a b) = Ok x /\ uval x = Z.land (uval a) (uval b) /\
  run_circuit (make_or_circuit (length a)) (interleave a b) = Ok y /\ uval y = Z.lor (uval a) (uval b).
Proof.
  intros a b H. exists (zipwith andb a b), (zipwith orb a b).
  rewrite and_correct, or_correct, uval_zipwith_and, uval_zipwith_or by exact H. repeat split.
Qed.
Print Assumptions logic_circuits.

(** C23: every output bit of the full product. *)
Theorem multiplier_multiplies : forall (a b : list bool),
  (0 < length a)%nat -> (0 < length b)%nat ->
  run_res (unsigned_multiplier (length a) (length b)) (a ++ b)
  = Ok (to_bits (length a + length b) (uval a * uval b)).
Proof. exact multiplier_correct. Qed.
Example multiplier_multiplies_ex : (* 5 * 3 *)
  run_res (unsigned_multiplier 3 2) [true; false; true; true; true] = Ok [true; true; true; true; false].
Proof. reflexivity. Qed.
Print Assumptions multiplier_multiplies.

(** C24, what is true: for operands of any two widths, if the recursive multiplication returns, then it returns the
    exact product; for equal widths it returns unless 16*2^d < width < 17*2^d for some d >= 1. *)
Theorem wide_multiply_value : forall (a b : list bool) p,
  append_uint_multiply a b = Ok p ->
  fst p ++ snd p = to_bits (length a + length b) (uval a * uval b) /\
  length (fst p) = length a /\
  uval (fst p) + 2 ^ Z.of_nat (length a) * uval (snd p) = uval a * uval b.
Proof. exact uint_mul_value. Qed.
Theorem wide_multiply_equal_widths_partial : forall (a b : list bool),
  (0 < length a)%nat -> length b = length a ->
  ((exists d, (1 <= d)%nat /\ (16 * 2 ^ d < length a < 17 * 2 ^ d)%nat) <-> append_uint_multiply a b = Panic) /\
  (~ (exists d, (1 <= d)%nat /\ (16 * 2 ^ d < length a < 17 * 2 ^ d)%nat) <->
     append_uint_multiply a b = Ok (to_bits (length a) (uval a * uval b),
                                    to_bits (length a) (uval a * uval b / 2 ^ Z.of_nat (length a)))).
Proof. exact uint_mul_total. Qed.
(** The widths the processor actually uses (8, 16, 32, 64, 128) are all supported. *)
Theorem wide_multiply_machine_widths : forall (a b : list bool) (n : nat),
  In n [1; 2; 4; 8; 16; 32; 64; 128]%nat -> length a = n -> length b = n ->
  append_uint_multiply a b = Ok (to_bits n (uval a * uval b), to_bits n (uval a * uval b / 2 ^ Z.of_nat n)).
Proof.
  intros a b n Hn Ha Hb. pose proof (uint_mul_total a b) as H. rewrite Ha in H.
  assert (H0 : (0 < n)%nat) by (cbn in Hn; lia). specialize (H H0 Hb). apply H.
  intros (d & Hd & H1 & H2).
  assert (Hc : (d <= 3 \/ 4 <= d)%nat) by lia. destruct Hc as [Hc|Hc].
  - destruct d as [|[|[|[|d]]]]; try lia; cbn [Nat.pow] in *; cbn in Hn; lia.
  - assert (2 ^ 4 <= 2 ^ d)%nat by (apply Nat.pow_le_mono_r; lia). change (2 ^ 4)%nat with 16%nat in *. cbn in Hn. lia.
Qed.
(** The unrestricted claim is false: two 33-bit operands abort the host. *)
Theorem wide_multiply_total_refuted :
  exists n, (0 < n)%nat /\ forall a b, length a = n -> length b = n -> append_uint_multiply a b = Panic.
Proof.
  exists 33%nat. split; [lia|]. intros a b Ha Hb. pose proof (uint_mul_total a b) as H. rewrite Ha in H.
  apply H; [lia|exact Hb|]. exists 1%nat. cbn [Nat.pow]. lia.
Qed.
(** Operands of different widths abort as soon as exactly one of them exceeds 16 bits. *)
Theorem wide_multiply_mixed_width_panics : forall (a b : list bool),
  (16 < length a)%nat -> (length b <= 16)%nat -> append_uint_multiply a b = Panic.
Proof.
  intros a b Ha Hb. unfold append_uint_multiply. rewrite mul_impl_spec by lia. cbn [mul_ok].
  destruct (Nat.leb_spec (Nat.max (length a) (length b)) 16); [lia|].
  destruct (Nat.leb_spec (Nat.min (length a) (length b)) 16); [reflexivity|lia].
Qed.
Example wide_multiply_ex : (* 17-bit operands, through the grade-school reduction: 131071 * 131071 *)
  append_uint_multiply (repeat true 17) (repeat true 17) = Ok (to_bits 17 1, to_bits 17 131070).
Proof. vm_compute. reflexivity. Qed.
Print Assumptions wide_multiply_value.
Print Assumptions wide_multiply_equal_widths_partial.
Print Assumptions wide_multiply_machine_widths.
Print Assumptions wide_multiply_total_refuted.
Print Assumptions wide_multiply_mixed_width_panics.

(** C25: signed multiplication, at the widths C24 supports. *)
Theorem signed_multiply_partial : forall (a b : list bool),
  (0 < length a)%nat -> length b = length a ->
  ~ (exists d, (1 <= d)%nat /\ (16 * 2 ^ d < length a < 17 * 2 ^ d)%nat) ->
  append_int_multiply a b =
    Ok (to_bits (length a) (sval a * sval b), to_bits (length a) (sval a * sval b / 2 ^ Z.of_nat (length a))).
Proof. exact int_mul_total. Qed.
Theorem signed_multiply_value : forall (a b : list bool) p,
  (0 < length a)%nat -> (0 < length b)%nat -> append_int_multiply a b = Ok p ->
  p = (to_bits (length a) (sval a * sval b), to_bits (length b) (sval a * sval b / 2 ^ Z.of_nat (length a))).
Proof.
  intros a b p Ha Hb H. rewrite int_mul_spec in H by assumption. destruct (mul_ok _ _ _); [congruence|discriminate].
Qed.
Example signed_multiply_ex : (* the minimum value: (-4) * (-4) = 16 *)
  append_int_multiply [false; false; true] [false; false; true] = Ok ([false; false; false], [false; true; false]).
Proof. reflexivity. Qed.
Print Assumptions signed_multiply_partial.
Print Assumptions signed_multiply_value.

(** C58 *)
Theorem combinations_enumeration : forall n t fuel,
  (t <= n)%nat -> binom n t < Z.of_nat fuel ->
  let l := comb_collect n t fuel None in
  (forall c, In c l <-> is_comb 0 n t c) /\ NoDup l /\ StronglySorted lex_lt l /\
  Z.of_nat (length l) = binom n t /\ number_combinations n t = binom n t.
Proof.
  intros n t fuel Ht Hf l. subst l. rewrite comb_collect_lex by assumption.
  split; [intros c; apply lex_in|]. split; [apply lex_nodup|]. split; [apply lex_sorted|].
  split; [apply lex_length|apply number_combinations_spec].
Qed.
Theorem combinations_get_index : forall n t fuel c,
  (0 < n)%nat -> (t <= n)%nat -> binom n t < Z.of_nat fuel -> is_comb 0 n t c ->
  exists r, comb_get_index n t c = Some (Z.of_nat r) /\ nth_error (comb_collect n t fuel None) r = Some c.
Proof. intros n t fuel c Hn Ht Hf Hc. rewrite comb_collect_lex by assumption. now apply get_index_spec. Qed.
Theorem combinations_at_index : forall n t fuel i,
  (t <= n)%nat -> binom n t < Z.of_nat fuel -> 0 <= i ->
  if i <? binom n t then
    exists c, comb_at_index n t i = Some (Some c) /\ nth_error (comb_collect n t fuel None) (Z.to_nat i) = Some c
  else comb_at_index n t i = None.
Proof. intros n t fuel i Ht Hf Hi. rewrite comb_collect_lex by assumption. now apply at_index_spec. Qed.
Theorem combinations_index_inverse : forall n t i c,
  (0 < n)%nat -> (t <= n)%nat -> 0 <= i < binom n t -> comb_at_index n t i = Some (Some c) ->
  comb_get_index n t c = Some i.
Proof.
  intros n t i c Hn Ht Hi Hc. pose proof (at_index_spec n t i Ht ltac:(lia)) as H.
  destruct (Z.ltb_spec i (binom n t)); [|lia]. destruct H as (c' & Hc' & Hnth). rewrite Hc in Hc'. injection Hc' as <-.
  assert (Hin : In c (lex 0 n t)) by (eapply nth_error_In; exact Hnth).
  apply lex_in in Hin. destruct (get_index_spec n t c Hn Hin) as (r & Hr & Hnr). rewrite Hr. f_equal.
  pose proof (lex_nodup n t 0) as Hnd. rewrite NoDup_nth_error in Hnd.
  assert (r = Z.to_nat i); [|lia]. apply Hnd; [|congruence]. apply nth_error_Some. congruence.
Qed.
Example combinations_ex :
  comb_collect 4 2 10 None = [[0;1];[0;2];[0;3];[1;2];[1;3];[2;3]]%nat /\
  comb_at_index 4 2 4 = Some (Some [1; 3]%nat) /\ comb_get_index 4 2 [1; 3]%nat = Some 4.
Proof. repeat split. Qed.
Print Assumptions combinations_enumeration.
Print Assumptions combinations_get_index.
Print Assumptions combinations_at_index.
Print Assumptions combinations_index_inverse.
