(** Model of the circuit builders of mux_circuits/src/{add,sub,neg,and,or,comparisons,bitshift,mul}.rs and of
    the recursive multiplier of parasol_runtime/src/circuits/mul.rs.

    Simplifications.
    - A [Bdd] is modelled by its value under a fixed assignment of the circuit's variables: the builders receive
      the assignment [v] (a bit list) and `mk_var(vars[i])` is [var v i]; the Bdd operations xor/and/or/not/and_not/
      if_then_else are the boolean connectives (biodivine_lib_bdd is trusted to implement them).
    - A vector filled in increasing index order is the list produced by the loop.
    - `as u16` truncation of the number of variables is not modelled (widths stay below 2^15).
    - The conversion Bdd -> MuxCircuit and `optimize` are modelled separately (MuxGraph.v) and proved to preserve
      the function; here they are the identity. The three prebuilt circuits loaded with include_bytes!
      (mul.rs:64-66, 394) are assumed equal in function to the builder for the same sizes. *)
From Verif Require Import Base Combos.

(** A built circuit: number of inputs and the function from inputs to outputs
    (mux_circuits/src/lib.rs:164-170 MuxCircuit). *)
Record circuit := mkC { c_arity : nat; c_fn : list bool -> list bool }.

(** parasol_runtime/src/fhe_circuit.rs:254-262 (`assert_eq!(inputs.len(), mux_circuit.inputs.len())`) and
    mux_circuits/src/lib.rs:448-456: running a circuit on a wrong number of inputs panics. *)
Definition run_circuit (c : circuit) (inputs : list bool) : res (list bool) :=
  if (length inputs =? c_arity c)%nat then Ok (c_fn c inputs) else Panic.

Definition var (v : list bool) (i : nat) : bool := nth i v false.

(** ** add.rs *)

(** add.rs:37-45, iterations i .. i+k-1. *)
Fixpoint rca_both (v : list bool) (off i k : nat) (carry : bool) : list bool * bool :=
  match k with
  | O => ([], carry)
  | S k =>
      let a := var v (off + 2 * i) in
      let b := var v (off + 2 * i + 1) in
      let a_xor_b := xorb a b in
      let s := xorb carry a_xor_b in
      let carry' := (a_xor_b && carry) || (a && b) in
      let '(l, c) := rca_both v off (S i) k carry' in (s :: l, c)
  end.

(** add.rs:47-51, iterations i .. i+k-1; [base] is 2 * min_len + cin_offset. *)
Fixpoint rca_rest (v : list bool) (base i k : nat) (carry : bool) : list bool * bool :=
  match k with
  | O => ([], carry)
  | S k =>
      let a := var v (base + i) in
      let s := xorb carry a in
      let carry' := a && carry in
      let '(l, c) := rca_rest v base (S i) k carry' in (s :: l, c)
  end.

(** add.rs:13-56 ripple_carry_adder. *)
Definition ripple_carry_adder (n m : nat) (cin : bool) : res circuit :=
  if (n =? 0)%nat || (m =? 0)%nat then Panic
  else
    let min_len := Nat.min m n in
    let max_len := Nat.max m n in
    let off := if cin then 1%nat else 0%nat in
    Ok (mkC (m + n + off) (fun v =>
      let carry := if cin then var v 0 else false in
      let '(s1, c1) := rca_both v off 0 min_len carry in
      let '(s2, c2) := rca_rest v (2 * min_len + off) 0 (max_len - min_len) c1 in
      s1 ++ s2 ++ [c2])).

(** ** sub.rs *)

(** sub.rs:35-43. *)
Fixpoint fs_loop (v : list bool) (off i k : nat) (borrow : bool) : list bool * bool :=
  match k with
  | O => ([], borrow)
  | S k =>
      let a := var v (off + 2 * i) in
      let b := var v (off + 2 * i + 1) in
      let a_xor_b := xorb a b in
      let d := xorb borrow a_xor_b in
      let borrow' := (borrow && negb a_xor_b) || (b && negb a) in
      let '(l, c) := fs_loop v off (S i) k borrow' in (d :: l, c)
  end.

(** sub.rs:12-48 full_subtractor. *)
Definition full_subtractor (n : nat) (bin : bool) : res circuit :=
  if (n =? 0)%nat then Panic
  else
    let off := if bin then 1%nat else 0%nat in
    Ok (mkC (2 * n + off) (fun v =>
      let borrow := if bin then var v 0 else false in
      let '(d, b) := fs_loop v off 0 n borrow in
      d ++ [b])).

(** ** neg.rs *)

(** neg.rs:22-25. *)
Fixpoint neg_loop (v : list bool) (i k : nat) (flip : bool) : list bool :=
  match k with
  | O => []
  | S k => xorb flip (var v i) :: neg_loop v (S i) k (flip || var v i)
  end.

(** neg.rs:7-28 negator. *)
Definition negator (n : nat) : res circuit :=
  if (n =? 0)%nat then Panic else Ok (mkC n (fun v => neg_loop v 0 n false)).

(** ** and.rs, or.rs *)

(** and.rs:6-23 make_and_circuit. *)
Definition make_and_circuit (n : nat) : circuit :=
  mkC (2 * n) (fun v => map (fun i => var v (2 * i) && var v (2 * i + 1)) (seq 0 n)).

(** or.rs:6-23 make_or_circuit. *)
Definition make_or_circuit (n : nat) : circuit :=
  mkC (2 * n) (fun v => map (fun i => var v (2 * i) || var v (2 * i + 1)) (seq 0 n)).

(** ** comparisons.rs *)

Definition bdd_equal (a b : bool) : bool := negb (xorb a b).          (* comparisons.rs:5-7 *)
Definition bdd_greater_than (a b : bool) : bool := a && negb b.      (* comparisons.rs:9-11 *)
Definition bdd_less_than (a b : bool) : bool := b && negb a.         (* comparisons.rs:13-15 *)

(** comparisons.rs:33-39 / 60-66. *)
Fixpoint eq_loop (v : list bool) (i k : nat) (result : bool) : bool :=
  match k with
  | O => result
  | S k => eq_loop v (S i) k (result && bdd_equal (var v (2 * i)) (var v (2 * i + 1)))
  end.

(** comparisons.rs:19-42 compare_equal. *)
Definition compare_equal (n : nat) : res circuit :=
  if (n =? 0)%nat then Panic else Ok (mkC (2 * n) (fun v => [eq_loop v 0 n true])).

(** comparisons.rs:46-70 compare_not_equal. *)
Definition compare_not_equal (n : nat) : res circuit :=
  if (n =? 0)%nat then Panic else Ok (mkC (2 * n) (fun v => [negb (eq_loop v 0 n true)])).

(** comparisons.rs:162-177: i runs from k-1 down to 0; returns (result, a_and_b_cumprod). *)
Fixpoint cmp_loop (v : list bool) (greater : bool) (k : nat) (result cum : bool) : bool * bool :=
  match k with
  | O => (result, cum)
  | S i =>
      let a := var v (2 * i) in
      let b := var v (2 * i + 1) in
      let a_compare_b := if greater then bdd_greater_than a b else bdd_less_than a b in
      let result := result || (a_compare_b && cum) in
      let cum := cum && bdd_equal a b in
      cmp_loop v greater i result cum
  end.

(** comparisons.rs:144-184 unsigned_comparison_impl over [k] bit pairs. *)
Definition unsigned_comparison_impl (v : list bool) (k : nat) (greater or_equal : bool) : bool :=
  let '(result, cum) := cmp_loop v greater k false true in
  if or_equal then result || cum else result.

(** comparisons.rs:127-142 compare_or_maybe_equal. *)
Definition compare_or_maybe_equal (n : nat) (greater or_equal : bool) : res circuit :=
  if (n =? 0)%nat then Panic
  else Ok (mkC (2 * n) (fun v => [unsigned_comparison_impl v n greater or_equal])).

(** comparisons.rs:79-118 compare_or_maybe_equal_signed (`&vars[..2 * n - 2]` holds n - 1 pairs). *)
Definition compare_or_maybe_equal_signed (n : nat) (greater or_equal : bool) : res circuit :=
  if (n =? 0)%nat then Panic
  else Ok (mkC (2 * n) (fun v =>
    let a := var v (2 * n - 2) in
    let b := var v (2 * n - 1) in
    let force_true := if greater then bdd_less_than a b else bdd_greater_than a b in
    let force_false := if greater then bdd_greater_than a b else bdd_less_than a b in
    let result := unsigned_comparison_impl v (n - 1) greater or_equal in
    [(result || force_true) && negb force_false])).

(** ** bitshift.rs *)

Inductive shift_dir := DLeft | DRight.                        (* bitshift.rs:18-24 *)
Inductive shift_mode := MLogical | MRotation | MArithmetic.    (* bitshift.rs:28-37 *)

(** bitshift.rs:6-14 ilog2_rounded_up. *)
Definition ilog2_rounded_up (x : nat) : nat :=
  if (x =? 0)%nat then O
  else if (x =? 2 ^ Nat.log2 x)%nat then Nat.log2 x else S (Nat.log2 x).

(** slice::rotate_left(k) / rotate_right(k), k <= len. *)
Definition rotate_left {A} (k : nat) (l : list A) : list A := skipn k l ++ firstn k l.
Definition rotate_right {A} (k : nat) (l : list A) : list A :=
  skipn (length l - k) l ++ firstn (length l - k) l.

(** bitshift.rs:90-133: one stage of the barrel shifter. *)
Definition shift_stage (inputs : nat) (dir : shift_dir) (mode : shift_mode) (old_msb : bool)
    (shift : nat) (select : bool) (result : list bool) : list bool :=
  let intermediate :=
    match dir with
    | DLeft => rotate_left (shift mod inputs) result
    | DRight => rotate_right (shift mod inputs) result
    end in
  map (fun input_index =>
    let not_shifted := nth input_index result false in
    let shifted :=
      match mode with
      | MLogical =>
          let zero_fill := match dir with
                           | DLeft => (inputs - shift <=? input_index)%nat
                           | DRight => (input_index <? shift)%nat
                           end in
          if zero_fill then false else nth input_index intermediate false
      | MRotation => nth input_index intermediate false
      | MArithmetic => if (input_index <? shift)%nat then old_msb else nth input_index intermediate false
      end in
    if select then shifted else not_shifted) (seq 0 inputs).

(** bitshift.rs:89-134: the stages, shift_log = k-1 .. 0, select = used_shift_vars[i]. *)
Fixpoint shift_stages (inputs : nat) (dir : shift_dir) (mode : shift_mode) (old_msb : bool)
    (sel : nat -> bool) (i k : nat) (result : list bool) : list bool :=
  match k with
  | O => result
  | S k' => shift_stages inputs dir mode old_msb sel (S i) k'
              (shift_stage inputs dir mode old_msb (2 ^ k') (sel i) result)
  end.

(** bitshift.rs:49-159 bitshift; input and shift are MSB first. *)
Definition bitshift (inputs shift_size : nat) (dir : shift_dir) (mode : shift_mode) : res circuit :=
  let used0 := ilog2_rounded_up inputs in
  let used := if (used0 =? 0)%nat then 1%nat else used0 in
  if negb (used <=? shift_size)%nat then Panic
  else if match mode with MRotation => negb (inputs =? 2 ^ Nat.log2 inputs)%nat || (inputs =? 0)%nat | _ => false end then Panic
  else if match mode, dir with MArithmetic, DLeft => true | _, _ => false end then Panic
  else if (inputs =? 0)%nat then Panic                                   (* result[0], line 86 *)
  else Ok (mkC (inputs + shift_size) (fun v =>
    let excess := map (fun x => var v (inputs + x)) (seq 0 (shift_size - used)) in
    let sel := fun i => var v (inputs + (shift_size - used) + i) in
    let result := map (fun i => var v i) (seq 0 inputs) in
    let old_msb := nth 0 result false in
    let result := shift_stages inputs dir mode old_msb sel 0 used result in
    match mode with
    | MRotation => result
    | _ =>
        let clear_bit := fold_left orb excess false in
        let fill := match mode with MLogical => false | _ => old_msb end in
        map (fun r => if clear_bit then fill else r) result
    end)).

(** ** mul.rs *)

(** mul.rs:163-176: the inner loop of mul_bdd_encode, [fuel] iterations available. *)
Fixpoint enc_inner (n m row col i fuel : nat) : list (nat * nat) :=
  match fuel with
  | O => []
  | S f =>
      let r := (row + i)%nat in
      let c := (col + i)%nat in
      if (m <=? r)%nat || (n <=? c)%nat then []
      else (n - c - 1, r)%nat :: enc_inner n m row col (S i) f
  end.

(** mul.rs:160-177: diagonals d = k .. 1. Yields the pairs (index into x, index into y) in push order. *)
Fixpoint enc_diags (n m k : nat) : list (nat * nat) :=
  match k with
  | O => []
  | S k' =>
      let d := k in
      let '(row, col) := if (n <? d)%nat then ((d - n)%nat, O) else (O, (n - d)%nat) in
      enc_inner n m row col 0 (n + m) ++ enc_diags n m k'
  end.

(** mul.rs:150-180 mul_bdd_encode. *)
Definition mul_bdd_encode (x y : list bool) : list bool :=
  flat_map (fun '(ix, iy) => [nth ix x false; nth iy y false])
    (enc_diags (length x) (length y) (length x + length y - 1)).

(** mul.rs:199-213: inner loop of mul_bdd_decode: the coordinates (r, c) written, in order. *)
Fixpoint dec_inner (m start_row start_col j fuel : nat) : list (nat * nat) :=
  match fuel with
  | O => []
  | S f =>
      let r := (start_row + j)%nat in
      if (start_col <? j)%nat || (m <=? r)%nat then []
      else (r, start_col - j)%nat :: dec_inner m start_row start_col (S j) f
  end.

(** mul.rs:192-222: the outer loop; [fuel] bounds the number of diagonals. *)
Fixpoint dec_outer (n m start_row start_col fuel : nat) : list (nat * nat) :=
  match fuel with
  | O => []
  | S f =>
      dec_inner m start_row start_col 0 (n + m) ++
      match start_row, start_col with
      | S r, _ => dec_outer n m r start_col f
      | O, S c => dec_outer n m O c f
      | O, O => []
      end
  end.

(** mul.rs:187-188, 208-209: writing the stream into the matrices (as functions of row and column). *)
Fixpoint dec_write (coords : list (nat * nat)) (stream : list bool)
    (xy : (nat -> nat -> bool) * (nat -> nat -> bool)) : (nat -> nat -> bool) * (nat -> nat -> bool) :=
  match coords, stream with
  | (r, c) :: cs, a :: b :: st =>
      let upd (f : nat -> nat -> bool) (z : bool) := fun r' c' => if (r' =? r)%nat && (c' =? c)%nat then z else f r' c' in
      dec_write cs st (upd (fst xy) a, upd (snd xy) b)
  | _, _ => xy
  end.

(** mul.rs:184-225 mul_bdd_decode. *)
Definition mul_bdd_decode (enc : list bool) (n m : nat) : (nat -> nat -> bool) * (nat -> nat -> bool) :=
  let z := nth 0 enc false in
  dec_write (dec_outer n m (m - 1) (n - 1) (n + m)) enc ((fun _ _ => z), (fun _ _ => z)).

(** mul.rs:102-126: one row (i >= 1) of the array, columns j .. n-1. [prev]/[prev_c] are the sums and the last
    carry of row i-1, [c] the carry of the previous column. Returns the row's sums and its last carry. *)
Fixpoint mul_row (n : nat) (ands_i : nat -> bool) (prev : list bool) (prev_c : bool) (j k : nat) (c_in : bool)
  : list bool * bool :=
  match k with
  | O => ([], c_in)
  | S k =>
      let a := ands_i j in
      let b := if (j <? n - 1)%nat then nth (j + 1) prev false else prev_c in
      let a_xor_b := xorb a b in
      let s := xorb a_xor_b c_in in
      let c := (a_xor_b && c_in) || (b && a) in
      let '(l, c') := mul_row n ands_i prev prev_c (S j) k c in (s :: l, c')
  end.

(** mul.rs:101-127: rows i .. i+k-1; collects sums[idx(i,0)] of the completed rows as they are final
    (mul.rs:131-133) and returns the last row and its carry. *)
Fixpoint mul_rows (n : nat) (ands : nat -> nat -> bool) (i k : nat) (prev : list bool) (prev_c : bool)
  : list bool * list bool * bool :=
  match k with
  | O => ([], prev, prev_c)
  | S k =>
      let '(row, c) := mul_row n (ands i) prev prev_c 0 n false in
      let '(lows, last_row, last_c) := mul_rows n ands (S i) k row c in
      (nth 0 prev false :: lows, last_row, last_c)
  end.

(** mul.rs:76-142 multiplier_bdd applied to the 2nm-bit encoded stream. *)
Definition multiplier_bdd (n m : nat) (enc : list bool) : list bool :=
  let '(x, y) := mul_bdd_decode enc n m in
  let ands := fun r c => x r c && y r c in
  let row0 := map (ands O) (seq 0 n) in
  let '(lows, last_row, last_c) := mul_rows n ands 1 (m - 1) row0 false in
  lows ++ last_row ++ [last_c].

(** mul.rs:30-59 multiplier_impl (and 62-69 unsigned_multiplier): after remap_inputs the circuit has n + m inputs,
    x = inputs 0..n, y = inputs n..n+m, duplicated by mul_bdd_encode. *)
Definition unsigned_multiplier (n m : nat) : res circuit :=
  if (n =? 0)%nat || (m =? 0)%nat then Panic
  else Ok (mkC (n + m) (fun v => multiplier_bdd n m (mul_bdd_encode (firstn n v) (skipn n v)))).

(** mul.rs:231-253 n_bits_are_true, with the Combinations iterator of sunscreen_math. *)
Definition n_bits_are_true (bits : list bool) (n : nat) : bool :=
  fold_left (fun result c =>
      let clause := fold_left (fun clause i =>
          if existsb (Nat.eqb i) c then clause && nth i bits false else clause && negb (nth i bits false))
        (seq 0 (length bits)) true in
      result || clause)
    (comb_collect (length bits) n (2 ^ length bits) None) false.

(** mul.rs:256 CIRCUIT_CUTOFF. *)
Definition CIRCUIT_CUTOFF : nat := 16.

(** mul.rs:264-273 partition_integer ((n as f64 / 2.0).floor/ceil are exact for n < 2^53). *)
Definition partition_integer (n : nat) : nat * nat :=
  if (n <=? CIRCUIT_CUTOFF)%nat then (n, O) else ((n - n / 2)%nat, (n / 2)%nat).

(** mul.rs:286-387 encode_gradeschool_reduction. *)
Definition encode_gradeschool_reduction (n m : nat) (ll lh hl hh : list bool) : res (list bool) :=
  let '(a_lo, a_hi) := partition_integer n in
  let '(b_lo, b_hi) := partition_integer m in
  if negb ((length ll =? a_lo + b_lo) && (length lh =? a_lo + b_hi) && (length hl =? a_hi + b_lo)
           && (length hh =? a_hi + b_hi) && (b_lo <=? a_lo) && (a_hi <=? a_lo) && (b_hi <=? b_lo))%nat then Panic
  else if (a_hi <? b_hi)%nat then Panic                       (* `a_hi - b_hi` underflow, line 369 *)
  else
    let g (l : list bool) i := nth i l false in
    let o2 := (a_lo - b_lo)%nat in
    (* section 1, lines 322-329 *)
    Ok (map (fun i => g ll i) (seq 0 b_lo)
    (* section 2, lines 331-340: offsets ll = b_lo, lh = 0 *)
    ++ flat_map (fun i => [g ll (b_lo + i)%nat; g lh i]) (seq 0 o2)
    (* section 3, lines 342-353: offsets ll = a_lo, hl = 0, lh = o2 *)
    ++ flat_map (fun i => [g ll (b_lo + o2 + i)%nat; g hl i; g lh (o2 + i)%nat]) (seq 0 b_lo)
    (* section 4, lines 355-366: offsets hl = b_lo, lh = o2 + b_lo, hh = 0 *)
    ++ flat_map (fun i => [g hl (b_lo + i)%nat; g lh (o2 + b_lo + i)%nat; g hh i]) (seq 0 b_hi)
    (* section 5, lines 368-377: offsets hl = b_lo + b_hi, hh = b_hi *)
    ++ flat_map (fun i => [g hl (b_lo + b_hi + i)%nat; g hh (b_hi + i)%nat]) (seq 0 (a_hi - b_hi))
    (* section 6, lines 379-384: offset hh = a_hi *)
    ++ map (fun i => g hh (b_hi + (a_hi - b_hi) + i)%nat) (seq 0 b_hi)).

(** The three carries of gradeschool_reduce_impl: mul.rs:453-457. *)
Definition carries3 := (bool * bool * bool)%type.

(** mul.rs:472-484, section 2. *)
Fixpoint gs_sec2 (v : list bool) (off i k : nat) (c : carries3) : list bool * carries3 :=
  match k with
  | O => ([], c)
  | S k =>
      let '(c0, c1, c2) := c in
      let a := var v (off + 2 * i) in
      let b := var v (off + 2 * i + 1) in
      let ops := [a; b; c0] in
      let r := xorb (xorb a b) c0 in
      let c0' := n_bits_are_true ops 2 || n_bits_are_true ops 3 in
      let '(l, c') := gs_sec2 v off (S i) k (c0', c1, c2) in (r :: l, c')
  end.

(** mul.rs:493-516, sections 3 and 4. *)
Fixpoint gs_sec34 (v : list bool) (off i k : nat) (cs : carries3) : list bool * carries3 :=
  match k with
  | O => ([], cs)
  | S k =>
      let '(c0, c1, c2) := cs in
      let a := var v (off + 3 * i) in
      let b := var v (off + 3 * i + 1) in
      let c := var v (off + 3 * i + 2) in
      let r := xorb (xorb (xorb (xorb a b) c) c0) c1 in
      let ops := [a; b; c; c0; c1] in
      let c0' := n_bits_are_true ops 2 || n_bits_are_true ops 3 in
      let c1' := c2 in
      let c2' := n_bits_are_true ops 4 || n_bits_are_true ops 5 in
      let '(l, c') := gs_sec34 v off (S i) k (c0', c1', c2') in (r :: l, c')
  end.

(** mul.rs:524-539, section 5. *)
Fixpoint gs_sec5 (v : list bool) (off i k : nat) (cs : carries3) : list bool * carries3 :=
  match k with
  | O => ([], cs)
  | S k =>
      let '(c0, c1, c2) := cs in
      let a := var v (off + 2 * i) in
      let b := var v (off + 2 * i + 1) in
      let ops := [a; b; c0; c1] in
      let r := xorb (xorb (xorb a b) c0) c1 in
      let c0' := n_bits_are_true ops 2 || n_bits_are_true ops 3 in
      let c1' := c2 in
      let c2' := n_bits_are_true ops 4 in
      let '(l, c') := gs_sec5 v off (S i) k (c0', c1', c2') in (r :: l, c')
  end.

(** mul.rs:547-580, section 6. *)
Fixpoint gs_sec6 (v : list bool) (off i k : nat) (cs : carries3) : list bool :=
  match k with
  | O => []
  | S k =>
      let '(c0, c1, c2) := cs in
      let a := var v (off + i) in
      match i with
      | O =>
          let r := xorb (xorb a c0) c1 in
          let ops := [a; c0; c1] in
          r :: gs_sec6 v off (S i) k (n_bits_are_true ops 2 || n_bits_are_true ops 3, c2, c2)
      | S O =>
          let r := xorb (xorb a c0) c1 in
          let ops := [a; c0; c1] in
          r :: gs_sec6 v off (S i) k (n_bits_are_true ops 2 || n_bits_are_true ops 3, c1, c2)
      | _ =>
          xorb a c0 :: gs_sec6 v off (S i) k (a && c0, c1, c2)
      end
  end.

(** mul.rs:428-586 gradeschool_reduce_impl (and 391-398 gradeschool_reduce). The vector `result` starts as the
    first m+n variables (lines 462-464); every position from b_lo on is overwritten by sections 2-6. *)
Definition gradeschool_reduce (n m : nat) : res circuit :=
  if negb (m <=? n)%nat then Panic
  else
    let '(a_lo, a_hi) := partition_integer n in
    let '(b_lo, b_hi) := partition_integer m in
    if (a_lo <? b_lo)%nat || (a_hi <? b_hi)%nat then Panic     (* usize underflow, lines 470, 522 *)
    else Ok (mkC (2 * (m + n)) (fun v =>
      let off2 := b_lo in
      let off3 := (off2 + 2 * (a_lo - b_lo))%nat in
      let off5 := (off3 + 3 * (b_lo + b_hi))%nat in
      let off6 := (off5 + 2 * (a_hi - b_hi))%nat in
      let s1 := map (fun i => var v i) (seq 0 b_lo) in
      let '(s2, c) := gs_sec2 v off2 0 (a_lo - b_lo) (false, false, false) in
      let '(s3, c) := gs_sec34 v off3 0 (b_lo + b_hi) c in
      let '(s5, c) := gs_sec5 v off5 0 (a_hi - b_hi) c in
      let s6 := gs_sec6 v off6 0 b_hi c in
      s1 ++ s2 ++ s3 ++ s5 ++ s6)).

(** ** parasol_runtime/src/circuits/mul.rs, on the bits the nodes carry (ciphertext conversions preserve the bit,
    see FheGraph.v) *)

Definition run_res (c : res circuit) (inputs : list bool) : res (list bool) :=
  c <- c ;; run_circuit c inputs.

(** circuits/mul.rs:90-193 mul_impl; [fuel] bounds the recursion depth, [Err EOther] = out of fuel (not a behaviour
    of the code, excluded in the theorems). *)
Fixpoint mul_impl (fuel : nat) (a0 b0 : list bool) : res (list bool) :=
  match fuel with
  | O => Err EOther
  | S f =>
      let '(a, b) := if (length a0 <? length b0)%nat then (b0, a0) else (a0, b0) in
      let '(a_lo_len, a_hi_len) := partition_integer (length a) in
      let '(b_lo_len, b_hi_len) := partition_integer (length b) in
      let a_lo := firstn a_lo_len a in let a_hi := skipn a_lo_len a in
      let b_lo := firstn b_lo_len b in let b_hi := skipn b_lo_len b in
      if (a_hi_len =? 0)%nat && (b_hi_len =? 0)%nat then
        run_res (unsigned_multiplier (length a) (length b)) (a ++ b)
      else if (b_hi_len =? 0)%nat then
        ll <- mul_impl f a_lo b_lo ;;
        hl <- mul_impl f a_hi b_lo ;;
        let lo := firstn a_lo_len ll in
        let hi := skipn a_lo_len ll in
        let adder_inputs := interleave hi (firstn a_lo_len hl) ++ skipn a_lo_len hl in
        sum_out <- run_res (ripple_carry_adder b_lo_len (a_hi_len + b_lo_len) false) adder_inputs ;;
        if (length lo + length sum_out =? length a + length b)%nat then Ok (lo ++ sum_out) else Panic
      else
        ll <- mul_impl f a_lo b_lo ;;
        lh <- mul_impl f a_lo b_hi ;;
        hl <- mul_impl f a_hi b_lo ;;
        hh <- mul_impl f a_hi b_hi ;;
        bits <- encode_gradeschool_reduction (length a) (length b) ll lh hl hh ;;
        run_res (gradeschool_reduce (length a) (length b)) bits
  end.

(** circuits/mul.rs:76-86 append_uint_multiply: (lo, hi) split at a.len(). The recursion depth is at most the
    bit length of the operand length, so a.len() + b.len() + 1 is enough fuel. *)
Definition append_uint_multiply (a b : list bool) : res (list bool * list bool) :=
  p <- mul_impl (S (length a + length b)) a b ;;
  if (length a <=? length p)%nat then Ok (firstn (length a) p, skipn (length a) p) else Panic.

(** circuits/mul.rs:199-203 neg. *)
Definition neg_bits (a : list bool) : res (list bool) := run_res (negator (length a)) a.

(** The CMux operation: High when the select bit is 1, Low otherwise (fhe_circuit.rs FheOp::CMux). *)
Definition cmux (sel low high : bool) : bool := if sel then high else low.

Fixpoint zipwith {A B C} (f : A -> B -> C) (l : list A) (l' : list B) : list C :=
  match l, l' with x :: l, y :: l' => f x y :: zipwith f l l' | _, _ => [] end.

(** circuits/mul.rs:209-242 abs (`input.last().unwrap()` panics on no bits; negator asserts n > 0 first). *)
Definition abs_bits (a : list bool) : res (list bool) :=
  na <- neg_bits a ;;
  Ok (zipwith (fun f t => cmux (last a false) f t) a na).

(** circuits/mul.rs:18-73 append_int_multiply. *)
Definition append_int_multiply (a b : list bool) : res (list bool * list bool) :=
  abs_a <- abs_bits a ;;
  abs_b <- abs_bits b ;;
  pos <- mul_impl (S (length a + length b)) abs_a abs_b ;;
  neg <- neg_bits pos ;;
  let s1 := last a false in
  let s2 := last b false in
  let result := zipwith (fun p n =>
      let cmux_11 := cmux s1 p n in
      let cmux_12 := cmux s1 n p in
      cmux s2 cmux_11 cmux_12) pos neg in
  if (length a <=? length result)%nat then Ok (firstn (length a) result, skipn (length a) result) else Panic.
