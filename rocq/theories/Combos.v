(** Model of sunscreen_math/src/combination.rs (usize is unbounded here). *)
From Verif Require Import Base.

(** combination.rs:17-47 number_combinations. The product loop of lines 41-44 is [binom_loop]. *)
Fixpoint binom_loop (n k : Z) (fuel : nat) (i result : Z) : Z :=
  match fuel with
  | O => result
  | S f => binom_loop n k f (i + 1) (result * (n - k + i) / i)
  end.
Definition number_combinations (n k : nat) : Z :=
  if (n <? k)%nat then 0
  else if (k =? 0)%nat then 1
  else if (k =? n)%nat then 1
  else let k := if (n / 2 <? k)%nat then (n - k)%nat else k in
       binom_loop (Z.of_nat n) (Z.of_nat k) k 1 1.

(** combination.rs:92-106 Combinations::new. *)
Definition comb_new_ok (n t : nat) : bool := negb (n =? 0)%nat && (t <=? n)%nat.

(** combination.rs:215-223: the scan `while i > 0 { i -= 1; if current[i] != n - t + i { break } }`;
    returns the final value of i. *)
Fixpoint comb_scan (n t : nat) (cur : list nat) (i : nat) : nat :=
  match i with
  | O => O
  | S i' => if (nth i' cur O =? n - t + i')%nat then comb_scan n t cur i' else i'
  end.

(** combination.rs:234-237: increment position i, then `current[j] = current[j-1] + 1` for j > i:
    positions i.. become v+1, v+2, ... *)
Definition comb_bump (cur : list nat) (t i : nat) : list nat :=
  firstn i cur ++ seq (S (nth i cur O)) (t - i).

(** combination.rs:198-240 Iterator::next; state [None] is "not started". [None] result = exhausted. *)
Definition comb_next (n t : nat) (st : option (list nat)) : option (list nat) :=
  match st with
  | None => Some (seq 0 t)
  | Some cur =>
      let i := comb_scan n t cur t in
      if (t =? 0)%nat || ((i =? 0)%nat && (nth i cur O =? n - t)%nat) then None
      else Some (comb_bump cur t i)
  end.

(** Everything the iterator yields, with fuel (the number of calls to next). *)
Fixpoint comb_collect (n t : nat) (fuel : nat) (st : option (list nat)) : list (list nat) :=
  match fuel with
  | O => []
  | S f => match comb_next n t st with
           | None => []
           | Some c => c :: comb_collect n t f (Some c)
           end
  end.

(** combination.rs:144-147: `while item_in_check < item { index += C(n - item_in_check, k - offset); item_in_check += 1 }` *)
Fixpoint gi_while (n kofs : nat) (cnt : nat) (item_in_check : nat) (index : Z) : Z :=
  match cnt with
  | O => index
  | S c => gi_while n kofs c (S item_in_check) (index + number_combinations (n - item_in_check) kofs)
  end.

(** combination.rs:137-149, the for loop of get_index; [n1] is self.n - 1, [off] the 0-based offset.
    None = ValueTooLarge. *)
Fixpoint gi_loop (n1 k : nat) (comb : list nat) (off item_in_check : nat) (index : Z) : option Z :=
  match comb with
  | [] => Some index
  | item :: rest =>
      if (n1 <? item)%nat then None
      else
        let index := gi_while n1 (k - (off + 1)) (item - item_in_check) item_in_check index in
        gi_loop n1 k rest (S off) (S (Nat.max item_in_check item)) index
  end.

(** combination.rs:123-152 get_index; [None] stands for either error. *)
Definition comb_get_index (n t : nat) (comb : list nat) : option Z :=
  if negb (length comb =? t)%nat then None
  else gi_loop (n - 1) (length comb) comb 0 0 0.

(** combination.rs:182-185: `a -= 1; while C(a, b) > x { a -= 1 }`, starting from the decremented a.
    [None] = usize underflow (panic). *)
Fixpoint ai_while (a b : nat) (x : Z) : option nat :=
  if number_combinations a b >? x then
    match a with O => None | S a' => ai_while a' b x end
  else Some a.

(** combination.rs:181-189 the for loop of at_index ([cnt] iterations left). *)
Fixpoint ai_loop (n cnt a b : nat) (x : Z) : option (list nat) :=
  match cnt with
  | O => Some []
  | S c =>
      match a with
      | O => None
      | S a1 =>
          match ai_while a1 b x with
          | None => None
          | Some a' =>
              match ai_loop n c a' (b - 1) (x - number_combinations a' b) with
              | None => None
              | Some l => Some ((n - 1 - a')%nat :: l)
              end
          end
      end
  end.

(** combination.rs:171-192 at_index: outer None = out of range, inner None = panic. *)
Definition comb_at_index (n t : nat) (index : Z) : option (option (list nat)) :=
  if index >=? number_combinations n t then None
  else Some (ai_loop n t n t (number_combinations n t - 1 - index)).

(** combination.rs:276-312 insert_element_into_reduced_combination; [i] is the enumerate index. *)
Fixpoint ins_loop (e : nat) (c : list nat) (i : nat) (done : bool) (index : nat) : nat * list nat * bool :=
  match c with
  | [] => (index, [], done)
  | x :: c =>
      if done then let '(ix, l, d) := ins_loop e c (S i) true index in (ix, (x + 1)%nat :: l, d)
      else if (e <=? x)%nat then
             let '(ix, l, d) := ins_loop e c (S i) true i in (ix, e :: (x + 1)%nat :: l, d)
      else let '(ix, l, d) := ins_loop e c (S i) false index in (ix, x :: l, d)
  end.
Definition insert_element (e : nat) (c : list nat) : nat * list nat :=
  let '(ix, l, d) := ins_loop e c 0 false (length c) in
  (ix, if d then l else l ++ [e]).
