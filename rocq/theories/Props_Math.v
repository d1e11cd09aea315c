(** Theorems about modular arithmetic, polynomials and the small iterators. Statement vocabulary: Spec.v, SpecMath.v. *)
From Coq Require Import ZifyBool ZifyNat.
From Verif Require Import Base Spec SpecMath Combos CombosProofs2 Math MathProofs MathProofs2.
Open Scope Z_scope.
Ltac Zify.zify_post_hook ::= Z.div_mod_to_equations.

(** * C57 Barrett multiplication *)

(** Every modulus between 2 and 2^(64 n - 1) is accepted and multiplication is then a*b mod m for all n-limb operands, reduced or not. *)
Theorem barrett_multiplication_is_modular : forall (n : nat) (m : Z), (0 < n)%nat -> 2 <= m <= 2 ^ (64 * Z.of_nat n - 1) ->
  exists c, derive_barrett n m = Ok c /\ modulus c = m /\ limbs c = n /\
    forall a b, 0 <= a < 2 ^ (64 * Z.of_nat n) -> 0 <= b < 2 ^ (64 * Z.of_nat n) -> mul_mod c a b = (a * b) mod m.
Proof.
  intros n m Hn Hm. destruct (derive_ok n m Hn Hm) as (c & E & G). exists c. split; [exact E|]. split; [apply G|]. split; [apply G|].
  intros a b Ha Hb. exact (mul_mod_ok n m c a b Hn Hm G Ha Hb).
Qed.
Print Assumptions barrett_multiplication_is_modular.
Theorem barrett_rejects_large_modulus : forall (n : nat) (m : Z), (0 < n)%nat -> 2 ^ (64 * Z.of_nat n - 1) < m -> exists e, derive_barrett n m = Err e.
Proof. exact derive_rejects. Qed.
Print Assumptions barrett_rejects_large_modulus.
(** A negative literal is accepted too, and its magnitude is then used unchecked: with q = 2^64 - 1, (q-1)*(q-1) is 0, not 1. *)
Theorem barrett_negative_modulus_refuted : exists c, derive_barrett 1 (- (2 ^ 64 - 1)) = Ok c /\ modulus c = 2 ^ 64 - 1 /\
  mul_mod c (2 ^ 64 - 2) (2 ^ 64 - 2) <> ((2 ^ 64 - 2) * (2 ^ 64 - 2)) mod (2 ^ 64 - 1).
Proof. eexists. split; [vm_compute; reflexivity|]. split; [reflexivity|]. vm_compute. discriminate. Qed.
Print Assumptions barrett_negative_modulus_refuted.
(** The configuration used by the library's tests and one at the very edge of the accepted range. *)
Example ex_barrett : exists c, derive_barrett 4 (2 ^ 252 + 27742317777372353535851937790883648493) = Ok c /\ mul_mod c (2 ^ 256 - 1) (2 ^ 256 - 1) = ((2 ^ 256 - 1) * (2 ^ 256 - 1)) mod (2 ^ 252 + 27742317777372353535851937790883648493).
Proof. eexists. split; [vm_compute; reflexivity|vm_compute; reflexivity]. Qed.
Example ex_barrett_edge : exists c, derive_barrett 2 (2 ^ 127) = Ok c /\ mul_mod c (2 ^ 128 - 1) (2 ^ 128 - 1) = 1.
Proof. eexists. split; [vm_compute; reflexivity|vm_compute; reflexivity]. Qed.

(** * C73 conversion into Zq *)

Theorem zq_from_u64_reduces : forall (n : nat) (m x : Z), (0 < n)%nat -> 2 <= m <= 2 ^ (64 * Z.of_nat n - 1) -> 0 <= x < 2 ^ 64 ->
  exists c, derive_barrett n m = Ok c /\ zq_from_u64 c x = x mod m.
Proof. intros n m x Hn Hm Hx. destruct (derive_ok n m Hn Hm) as (c & E & G). exists c. split; [exact E|]. unfold zq_from_u64. f_equal. apply G. Qed.
Print Assumptions zq_from_u64_reduces.
(** Exactly which signed integers are reduced correctly: those not below -m, or all of them if m divides the limb range. *)
Theorem zq_from_i64_correct_range : forall (n : nat) (m x : Z), (0 < n)%nat -> 2 <= m <= 2 ^ (64 * Z.of_nat n - 1) -> - 2 ^ 63 <= x < 2 ^ 63 ->
  exists c, derive_barrett n m = Ok c /\ (zq_from_i64 c x = x mod m <-> (- m <= x \/ (m | 2 ^ (64 * Z.of_nat n)))).
Proof.
  intros n m x Hn Hm Hx. destruct (derive_ok n m Hn Hm) as (c & E & G). exists c. split; [exact E|]. apply (from_i64_exact n m c x Hn Hm G).
  unfold uint_lim. assert (2 ^ 64 <= 2 ^ (64 * Z.of_nat n)) by (apply Z.pow_le_mono_r; lia). lia.
Qed.
Print Assumptions zq_from_i64_correct_range.
Theorem zq_from_i64_refuted : exists c, derive_barrett 1 5 = Ok c /\ zq_from_i64 c (-7) = 4 /\ (-7) mod 5 = 3.
Proof. eexists. split; [vm_compute; reflexivity|]. split; reflexivity. Qed.
Print Assumptions zq_from_i64_refuted.

(** * C60 rounded division *)

(** With an even divisor the result is the nearest integer, ties upwards, in both build profiles. *)
Theorem div_rounded_even_is_nearest_partial : forall (p : profile) (bits a b : Z), 0 < bits -> 0 < b -> b mod 2 = 0 -> 0 <= a < 2 ^ bits ->
  exists q, div_rounded bits p a b = Ok q /\ nearest a b q.
Proof.
  intros p bits a b Hw Hb He Ha. exists ((a + (b - b / 2)) / b). split.
  - apply div_rounded_value; [lia|lia|]. assert (2 <= b) by lia. assert (a / b <= a / 2) by (apply Z.div_le_compat_l; lia).
    assert (2 ^ 1 <= 2 ^ bits) by (apply Z.pow_le_mono_r; lia). lia.
  - unfold nearest. nia.
Qed.
Print Assumptions div_rounded_even_is_nearest_partial.
(** The rule the code implements for every divisor: one half rounded down is already enough to round up. *)
Theorem div_rounded_value_any : forall (p : profile) (bits a b : Z), 0 < bits -> 2 <= b -> 0 <= a < 2 ^ bits -> div_rounded bits p a b = Ok ((a + (b - b / 2)) / b).
Proof.
  intros p bits a b Hw Hb Ha. apply div_rounded_value; [lia|lia|]. assert (a / b <= a / 2) by (apply Z.div_le_compat_l; lia).
  assert (2 ^ 1 <= 2 ^ bits) by (apply Z.pow_le_mono_r; lia). lia.
Qed.
Print Assumptions div_rounded_value_any.
Theorem div_rounded_refuted : (div_rounded 64 Debug 1 3 = Ok 1 /\ ~ nearest 1 3 1) /\ (forall x, 0 <= x < 2 ^ 64 - 1 -> div_rounded 64 Debug x 1 = Ok (x + 1) /\ ~ nearest x 1 (x + 1)).
Proof.
  split; [split; [reflexivity|unfold nearest; lia]|]. intros x Hx. split; [|unfold nearest; lia].
  rewrite div_rounded_value by (rewrite ?Z.div_1_r; lia). f_equal. change (1 - 1 / 2) with 1. apply Z.div_1_r.
Qed.
Print Assumptions div_rounded_refuted.

(** * C59 triangular pairs *)

(** Collecting the iterator terminates, never panics, and gives row by row the pairs (items[i], items[j]) with i <= j. *)
Theorem triangular_pairs_enumerate : forall (A : Type) (items : list A) (fuel : nat), (length items * (length items + 1) < 2 * fuel)%nat ->
  tri_collect fuel items (0, 0)%nat = Some (upper_pairs items).
Proof.
  intros A items fuel H. rewrite (tri_from items items 0 eq_refl) by (pose proof (tails_pairs_length items); lia). f_equal. exact (tails_pairs_index items).
Qed.
Print Assumptions triangular_pairs_enumerate.
Theorem triangular_pairs_members : forall (A : Type) (items : list A) (a b : A),
  In (a, b) (upper_pairs items) <-> exists i j, (i <= j)%nat /\ nth_error items i = Some a /\ nth_error items j = Some b.
Proof. intros A items a b. unfold upper_pairs. rewrite <- (tails_pairs_index items). exact (tails_pairs_in items a b). Qed.
Print Assumptions triangular_pairs_members.
Theorem triangular_pairs_count : forall (A : Type) (items : list A), (2 * length (upper_pairs items) = length items * (length items + 1))%nat.
Proof. intros A items. unfold upper_pairs. rewrite <- (tails_pairs_index items). exact (tails_pairs_length items). Qed.
Print Assumptions triangular_pairs_count.
Example ex_tri : tri_collect 7 [10; 20; 30] (0, 0)%nat = Some [(10, 10); (10, 20); (10, 30); (20, 20); (20, 30); (30, 30)].
Proof. reflexivity. Qed.

(** * C70 inserting an element into a reduced combination *)

(** The result is a combination of n things containing e at the returned position, and dropping e again gives the argument back. *)
Theorem insert_element_extends : forall (n t e : nat) (c : list nat), (e < n)%nat -> is_comb 0 (n - 1) t c ->
  let (p, d) := insert_element e c in is_comb 0 n (S t) d /\ nth_error d p = Some e /\ drop_element e d = c.
Proof. exact insert_ok. Qed.
Print Assumptions insert_element_extends.
(** Every combination containing e arises. *)
Theorem insert_element_onto : forall (n t e : nat) (d : list nat), (e < n)%nat -> is_comb 0 n (S t) d -> In e d ->
  exists c, is_comb 0 (n - 1) t c /\ snd (insert_element e c) = d.
Proof. exact insert_onto. Qed.
Print Assumptions insert_element_onto.
(** Lexicographic order is kept. *)
Theorem insert_element_monotone : forall (e : nat) (a b : list nat), lex_lt a b -> lex_lt (snd (insert_element e a)) (snd (insert_element e b)).
Proof. intros e a b H. rewrite !insert_eq. exact (ins_lex e a b H). Qed.
Print Assumptions insert_element_monotone.
Example ex_insert : (insert_element 1 [0; 2; 3] = (1, [0; 1; 3; 4]))%nat.
Proof. reflexivity. Qed.
Example ex_insert_comb : is_comb 0 4 3 [0; 2; 3]%nat.
Proof. split; [reflexivity|]. split; repeat constructor; lia. Qed.

(** * C71, C72 polynomials *)

Section Poly.
(** Any commutative ring with decidable equality. *)
Context (R : Type) (rO rI : R) (radd rmul rsub : R -> R -> R) (ropp : R -> R) (req : R -> R -> bool).
Context (Rth : ring_theory rO rI radd rmul rsub ropp (@eq R)).
Context (Req : forall x y, req x y = true <-> x = y).

Theorem polynomial_add_coefficients : forall (a b : list R) (i : nat), coef rO (poly_add rO radd a b) i = radd (coef rO a i) (coef rO b i).
Proof. exact (coef_add rO rI radd rmul rsub ropp req Rth Req). Qed.
Theorem polynomial_sub_coefficients : forall (a b : list R) (i : nat), coef rO (poly_sub rO rsub a b) i = rsub (coef rO a i) (coef rO b i).
Proof. exact (coef_sub rO rI radd rmul rsub ropp req Rth Req). Qed.
Theorem polynomial_mul_coefficients : forall (a b : list R) (k : nat), coef rO (poly_mul rO radd rmul a b) k = conv rO radd rmul a b k.
Proof. exact (coef_mul rO rI radd rmul rsub ropp req Rth Req). Qed.
Theorem polynomial_neg_scale_coefficients : forall (a : list R) (c : R) (i : nat),
  coef rO (poly_neg ropp a) i = ropp (coef rO a i) /\ coef rO (poly_scale rmul a c) i = rmul (coef rO a i) c.
Proof. exact (coef_neg_scale rO rI radd rmul rsub ropp Rth). Qed.
Theorem polynomial_evaluation : forall (a : list R) (x : R), poly_eval rO rI radd rmul a x = value rO rI radd rmul a x.
Proof. exact (eval_value rO rI radd rmul rsub ropp Rth). Qed.
Theorem polynomial_evaluation_homomorphism : forall (a b : list R) (x : R),
  let ev p := poly_eval rO rI radd rmul p x in
  ev (poly_add rO radd a b) = radd (ev a) (ev b) /\ ev (poly_mul rO radd rmul a b) = rmul (ev a) (ev b).
Proof. intros a b x. split; [exact (eval_add rO rI radd rmul rsub ropp req Rth Req a b x)|exact (eval_mul rO rI radd rmul rsub ropp req Rth Req a b x)]. Qed.
Theorem polynomial_degree_is_degree : forall (a : list R),
  (forall d, poly_degree rO req a = Some d <-> has_degree rO a d) /\ (poly_degree rO req a = None <-> forall i, coef rO a i = rO).
Proof.
  intros a. split; [|exact (degree_total rO req Req a)]. intros d. split; [|exact (degree_of rO rI req Req a d)]. intros H. exact (proj2 (degree_spec rO rI req Req a d H)).
Qed.
(** Division by a monic polynomial: the division identity with a remainder of lower degree; quotient and remainder are the only such pair. *)
Theorem polynomial_division_monic : forall (a b : list R) (r : nat), has_degree rO b r -> coef rO b r = rI ->
  exists q rem, poly_div_rem rO rmul rsub req a b = Some (q, rem) /\
    same_poly rO a (poly_add rO radd (poly_mul rO radd rmul q b) rem) /\ (forall k, (r <= k)%nat -> coef rO rem k = rO).
Proof. exact (div_rem_ok rO rI radd rmul rsub ropp req Rth Req). Qed.
Theorem polynomial_division_unique : forall (b q q' rem rem' : list R) (r : nat), has_degree rO b r -> coef rO b r = rI ->
  (forall k, (r <= k)%nat -> coef rO rem k = rO) -> (forall k, (r <= k)%nat -> coef rO rem' k = rO) ->
  same_poly rO (poly_add rO radd (poly_mul rO radd rmul q b) rem) (poly_add rO radd (poly_mul rO radd rmul q' b) rem') ->
  same_poly rO q q' /\ same_poly rO rem rem'.
Proof. intros b q q' rem rem' r. exact (div_unique rO rI radd rmul rsub ropp req Rth Req b r q q' rem rem'). Qed.
(** C72, the direction that holds: vectors of the same polynomial compare equal; and what an `equal' answer is worth. *)
Theorem polynomial_equality_complete_partial : forall (a b : list R), same_poly rO a b -> poly_eq rO req a b = true.
Proof. exact (eq_complete rO rI req Req). Qed.
Theorem polynomial_equality_up_to_leading : forall (a b : list R), poly_eq rO req a b = true ->
  same_poly rO a b \/ exists d, has_degree rO a d /\ has_degree rO b d /\ forall i, i <> d -> coef rO a i = coef rO b i.
Proof. exact (eq_sound rO rI req Req). Qed.
End Poly.
Print Assumptions polynomial_add_coefficients.
Print Assumptions polynomial_sub_coefficients.
Print Assumptions polynomial_mul_coefficients.
Print Assumptions polynomial_neg_scale_coefficients.
Print Assumptions polynomial_evaluation.
Print Assumptions polynomial_evaluation_homomorphism.
Print Assumptions polynomial_degree_is_degree.
Print Assumptions polynomial_division_monic.
Print Assumptions polynomial_division_unique.
Print Assumptions polynomial_equality_complete_partial.
Print Assumptions polynomial_equality_up_to_leading.

(** Over the integers x and 2x compare equal. *)
Theorem polynomial_equality_refuted : poly_eq 0 Z.eqb [0; 1] [0; 2] = true /\ ~ same_poly 0 [0; 1] [0; 2].
Proof. split; [reflexivity|]. intros H. specialize (H 1%nat). discriminate. Qed.
Print Assumptions polynomial_equality_refuted.
(** The documented panic for a divisor whose leading coefficient is not one does not happen, and the remainder is then not reduced. *)
Theorem polynomial_division_nonmonic_refuted : exists q rem, poly_div_rem 0 Z.mul Z.sub Z.eqb [0; 1] [0; 2] = Some (q, rem) /\ coef 0 rem 1 <> 0.
Proof. eexists _, _. split; [vm_compute; reflexivity|]. discriminate. Qed.
Print Assumptions polynomial_division_nonmonic_refuted.
(** The integers are such a ring, and x^3 + 2x + 1 divided by x^2 + 1 (with a leading zero in the vector) is x, remainder x + 1. *)
Example ex_ring : ring_theory 0 1 Z.add Z.mul Z.sub Z.opp (@eq Z) /\ (forall x y, (x =? y) = true <-> x = y).
Proof. split; [exact InitialRing.Zth|exact Z.eqb_eq]. Qed.
Example ex_div : poly_div_rem 0 Z.mul Z.sub Z.eqb [1; 2; 0; 1; 0] [1; 0; 1] = Some ([0; 1], [1; 1; 0; 0; 0]).
Proof. reflexivity. Qed.
Example ex_div_hyp : has_degree 0 [1; 0; 1] 2 /\ coef 0 [1; 0; 1] 2 = 1.
Proof. split; [|reflexivity]. split; [discriminate|]. intros [|[|[|[|i]]]] H; try lia; reflexivity. Qed.
