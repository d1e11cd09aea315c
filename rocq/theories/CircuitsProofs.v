(** Lemmas about the adder, subtractor, negator, comparison and logic circuits. *)
From Verif Require Import Base Spec BitsLemmas Combos Circuits.
From Coq Require Import ZifyBool ZifyNat.
Ltac Zify.zify_post_hook ::= Z.div_mod_to_equations.

Ltac base0 := cbn [map seq uval length]; change (2 ^ Z.of_nat 0) with 1; lia.

(** ** Reading a list back through an index function *)

Lemma map_seq_shift {A} (f : nat -> A) i k : map f (seq (S i) k) = map (fun j => f (S j)) (seq i k).
Proof. rewrite <- seq_shift, map_map. reflexivity. Qed.

Lemma map_nth_seq (l : list bool) f :
  (forall i, (i < length l)%nat -> f i = nth i l false) -> map f (seq 0 (length l)) = l.
Proof.
  revert f; induction l as [|b l IH]; intros f Hf; cbn [length seq map]; [reflexivity|].
  rewrite (Hf 0%nat) by (cbn; lia). cbn [nth]. f_equal.
  rewrite map_seq_shift. apply IH. intros i Hi. rewrite Hf by (cbn; lia). reflexivity.
Qed.

Lemma map_seq_from (f : nat -> bool) i k (l : list bool) :
  length l = k -> (forall j, (j < k)%nat -> f (i + j)%nat = nth j l false) -> map f (seq i k) = l.
Proof.
  intros Hl Hf. subst k. revert i Hf.
  induction l as [|b l IH]; intros i Hf; cbn [length seq map]; [reflexivity|].
  f_equal.
  - specialize (Hf 0%nat ltac:(cbn; lia)). rewrite Nat.add_0_r in Hf. exact Hf.
  - apply IH. intros j Hj. specialize (Hf (S j) ltac:(cbn; lia)). cbn [nth] in Hf. rewrite <- Hf. f_equal. lia.
Qed.

Lemma var_app_r (p l : list bool) i : var (p ++ l) (length p + i) = nth i l false.
Proof. unfold var. rewrite app_nth2 by lia. f_equal. lia. Qed.

Lemma uval_map_snoc f k :
  uval (map f (seq 0 (S k))) = uval (map f (seq 0 k)) + 2 ^ Z.of_nat k * b2z (f k).
Proof.
  rewrite seq_S, map_app, uval_app, map_length, seq_length. cbn [map uval Nat.add]. lia.
Qed.

(** ** Adder *)

Lemma rca_both_spec v off : forall k i c,
  let '(l, c') := rca_both v off i k c in
  length l = k /\
  uval l + 2 ^ Z.of_nat k * b2z c' =
    uval (map (fun j => var v (off + 2 * j)) (seq i k)) +
    uval (map (fun j => var v (off + 2 * j + 1)) (seq i k)) + b2z c.
Proof.
  induction k as [|k IH]; intros i c; cbn [rca_both].
  - base0.
  - set (a := var v (off + 2 * i)). set (b := var v (off + 2 * i + 1)).
    specialize (IH (S i) (xorb a b && c || a && b)).
    destruct (rca_both v off (S i) k (xorb a b && c || a && b)) as [l c'].
    destruct IH as [IHl IHv]. split; [cbn [length]; lia|].
    cbn [uval seq map]. fold a b. rewrite pow2_S.
    destruct a, b, c, c'; cbn [xorb andb orb b2z] in *; lia.
Qed.

Lemma rca_rest_spec v base : forall k i c,
  let '(l, c') := rca_rest v base i k c in
  length l = k /\
  uval l + 2 ^ Z.of_nat k * b2z c' = uval (map (fun j => var v (base + j)) (seq i k)) + b2z c.
Proof.
  induction k as [|k IH]; intros i c; cbn [rca_rest].
  - base0.
  - set (a := var v (base + i)).
    specialize (IH (S i) (a && c)).
    destruct (rca_rest v base (S i) k (a && c)) as [l c'].
    destruct IH as [IHl IHv]. split; [cbn [length]; lia|].
    cbn [uval seq map]. fold a. rewrite pow2_S.
    destruct a, c, c'; cbn [xorb andb b2z] in *; lia.
Qed.

Lemma interleave_min {A} (a b : list A) :
  interleave a b = interleave (firstn (length b) a) (firstn (length a) b).
Proof.
  revert b; induction a as [|x a IH]; destruct b as [|y b]; cbn; try reflexivity.
  - rewrite <- IH. reflexivity.
Qed.

Lemma interleave_length_min {A} (a b : list A) :
  length (interleave a b) = (2 * Nat.min (length a) (length b))%nat.
Proof.
  revert b; induction a as [|x a IH]; destruct b as [|y b]; cbn; try reflexivity. rewrite IH. lia.
Qed.

Lemma interleave_nth_even' (a b : list bool) i :
  (i < Nat.min (length a) (length b))%nat -> nth (2 * i) (interleave a b) false = nth i a false.
Proof.
  revert b i; induction a as [|x a IH]; destruct b as [|y b]; cbn [length interleave]; intros i Hi; try lia.
  destruct i as [|i]; [reflexivity|].
  replace (2 * S i)%nat with (S (S (2 * i))) by lia. cbn [nth]. apply IH; lia.
Qed.

Lemma interleave_nth_odd' (a b : list bool) i :
  (i < Nat.min (length a) (length b))%nat -> nth (2 * i + 1) (interleave a b) false = nth i b false.
Proof.
  revert b i; induction a as [|x a IH]; destruct b as [|y b]; cbn [length interleave]; intros i Hi; try lia.
  destruct i as [|i]; [reflexivity|].
  replace (2 * S i + 1)%nat with (S (S (2 * i + 1))) by lia. cbn [nth]. apply IH; lia.
Qed.

Lemma nth_firstn {A} (l : list A) k i d : (i < k)%nat -> nth i (firstn k l) d = nth i l d.
Proof.
  revert k i; induction l as [|x l IH]; intros k i Hi; destruct k; try lia; cbn.
  - destruct i; reflexivity.
  - destruct i; [reflexivity|]. apply IH. lia.
Qed.

Lemma nth_skipn {A} (l : list A) k i d : nth i (skipn k l) d = nth (k + i) l d.
Proof.
  revert k; induction l as [|x l IH]; intros k; destruct k; cbn; try reflexivity.
  - destruct i; reflexivity.
  - apply IH.
Qed.

Lemma adder_correct cin a b :
  (0 < length a)%nat -> (0 < length b)%nat ->
  run_res (ripple_carry_adder (length a) (length b) (is_some cin)) (adder_inputs cin a b)
  = Ok (to_bits (Nat.max (length a) (length b) + 1) (uval a + uval b + carry_z cin)).
Proof.
  intros Ha Hb. unfold run_res, ripple_carry_adder.
  destruct (Nat.eqb_spec (length a) 0) as [Hz|Hz]; [lia|]. destruct (Nat.eqb_spec (length b) 0) as [Hz2|Hz2]; [lia|].
  cbn [orb bind]. unfold run_circuit. cbn [c_arity c_fn].
  set (off := if is_some cin then 1%nat else 0%nat).
  assert (Hoff : length (match cin with Some c => [c] | None => [] end) = off) by (destruct cin; reflexivity).
  assert (Hlen : length (adder_inputs cin a b) = (length b + length a + off)%nat).
  { unfold adder_inputs. rewrite !app_length, Hoff, interleave_length_min, !skipn_length. lia. }
  rewrite Hlen, Nat.eqb_refl. f_equal.
  set (v := adder_inputs cin a b) in *.
  set (mn := Nat.min (length b) (length a)).
  assert (Hc : b2z (if is_some cin then var v 0 else false) = carry_z cin) by (destruct cin; reflexivity).
  pose proof (rca_both_spec v off mn 0 (if is_some cin then var v 0 else false)) as H1.
  destruct (rca_both v off 0 mn (if is_some cin then var v 0 else false)) as [s1 c1].
  destruct H1 as [Hl1 Hv1].
  pose proof (rca_rest_spec v (2 * mn + off) (Nat.max (length b) (length a) - mn) 0 c1) as H2.
  destruct (rca_rest v (2 * mn + off) 0 (Nat.max (length b) (length a) - mn) c1) as [s2 c2].
  destruct H2 as [Hl2 Hv2].
  rewrite Hc in Hv1.
  assert (Hva : map (fun j => var v (off + 2 * j)) (seq 0 mn) = firstn mn a).
  { apply map_seq_from; [rewrite firstn_length; lia|].
    intros j Hj. unfold v, adder_inputs.
    rewrite <- Hoff, var_app_r, app_nth1 by (rewrite interleave_length_min; lia).
    cbn [Nat.add]. rewrite interleave_nth_even' by lia. rewrite nth_firstn by lia. reflexivity. }
  assert (Hvb : map (fun j => var v (off + 2 * j + 1)) (seq 0 mn) = firstn mn b).
  { apply map_seq_from; [rewrite firstn_length; lia|].
    intros j Hj. unfold v, adder_inputs. cbn [Nat.add].
    rewrite <- Nat.add_assoc, <- Hoff, var_app_r, app_nth1 by (rewrite interleave_length_min; lia).
    rewrite interleave_nth_odd' by lia. rewrite nth_firstn by lia. reflexivity. }
  assert (Hvr : map (fun j => var v (2 * mn + off + j)) (seq 0 (Nat.max (length b) (length a) - mn))
                = skipn (length b) a ++ skipn (length a) b).
  { apply map_seq_from; [rewrite app_length, !skipn_length; lia|].
    intros j Hj. unfold v, adder_inputs. cbn [Nat.add].
    replace (2 * mn + off + j)%nat with (off + (length (interleave a b) + j))%nat
      by (rewrite interleave_length_min; lia).
    rewrite <- Hoff, var_app_r. rewrite app_nth2 by lia. f_equal. lia. }
  rewrite Hva, Hvb in Hv1. rewrite Hvr in Hv2.
  apply bits_eq.
  - rewrite !app_length, Hl1, Hl2. cbn [length]. lia.
  - exists 0. rewrite !uval_app, Hl1, Hl2. cbn [uval].
    replace (b2z c2 + 2 * 0) with (b2z c2) by lia.
    assert (Hab : uval a + uval b = uval (firstn mn a) + uval (firstn mn b) + 2 ^ Z.of_nat mn * uval (skipn (length b) a ++ skipn (length a) b)).
    { destruct (Nat.le_ge_cases (length a) (length b)) as [Hle|Hle].
      - rewrite (skipn_all2 a) by lia. cbn [app].
        replace mn with (length a) by lia. rewrite firstn_all.
        rewrite <- (firstn_skipn (length a) b) at 1. rewrite uval_app, firstn_length.
        replace (Nat.min (length a) (length b)) with (length a) by lia. lia.
      - rewrite (skipn_all2 b) by lia. rewrite app_nil_r.
        replace mn with (length b) by lia. rewrite firstn_all.
        rewrite <- (firstn_skipn (length b) a) at 1. rewrite uval_app, firstn_length.
        replace (Nat.min (length b) (length a)) with (length b) by lia. lia. }
    nia.
Qed.

Lemma adder_correct' n m cin a b v :
  length a = n -> length b = m -> (0 < n)%nat -> (0 < m)%nat -> v = adder_inputs cin a b ->
  run_res (ripple_carry_adder n m (is_some cin)) v
  = Ok (to_bits (Nat.max n m + 1) (uval a + uval b + carry_z cin)).
Proof. intros <- <- Hn Hm ->. now apply adder_correct. Qed.

(** ** Subtractor *)

Lemma fs_loop_spec v off : forall k i c,
  let '(l, c') := fs_loop v off i k c in
  length l = k /\
  uval l - 2 ^ Z.of_nat k * b2z c' =
    uval (map (fun j => var v (off + 2 * j)) (seq i k)) -
    uval (map (fun j => var v (off + 2 * j + 1)) (seq i k)) - b2z c.
Proof.
  induction k as [|k IH]; intros i c; cbn [fs_loop].
  - base0.
  - set (a := var v (off + 2 * i)). set (b := var v (off + 2 * i + 1)).
    specialize (IH (S i) (c && negb (xorb a b) || b && negb a)).
    destruct (fs_loop v off (S i) k (c && negb (xorb a b) || b && negb a)) as [l c'].
    destruct IH as [IHl IHv]. split; [cbn [length]; lia|].
    cbn [uval seq map]. fold a b. rewrite pow2_S.
    destruct a, b, c, c'; cbn [xorb andb orb negb b2z] in *; lia.
Qed.

Lemma pairs_even (p a b : list bool) n :
  length a = n -> length b = n ->
  map (fun j => var (p ++ interleave a b) (length p + 2 * j)) (seq 0 n) = a.
Proof.
  intros Ha Hb. apply map_seq_from; [exact Ha|]. intros j Hj. cbn [Nat.add].
  rewrite var_app_r. apply interleave_nth_even'; lia.
Qed.

Lemma pairs_odd (p a b : list bool) n :
  length a = n -> length b = n ->
  map (fun j => var (p ++ interleave a b) (length p + 2 * j + 1)) (seq 0 n) = b.
Proof.
  intros Ha Hb. apply map_seq_from; [exact Hb|]. intros j Hj. cbn [Nat.add].
  rewrite <- Nat.add_assoc, var_app_r. apply interleave_nth_odd'; lia.
Qed.

Lemma subtractor_correct bin a b :
  (0 < length a)%nat -> length b = length a ->
  run_res (full_subtractor (length a) (is_some bin)) (opt_list bin ++ interleave a b)
  = Ok (to_bits (length a) (uval a - uval b - carry_z bin) ++ [uval a <? uval b + carry_z bin]).
Proof.
  intros Ha Hb. unfold run_res, full_subtractor.
  destruct (Nat.eqb_spec (length a) 0) as [Hz|Hz]; [lia|]. cbn [bind]. unfold run_circuit. cbn [c_arity c_fn].
  set (n := length a) in *.
  assert (Hoff : length (opt_list bin) = (if is_some bin then 1%nat else 0%nat)) by (destruct bin; reflexivity).
  rewrite app_length, Hoff, interleave_length_min.
  replace ((if is_some bin then 1 else 0) + 2 * Nat.min (length a) (length b))%nat
    with (2 * n + (if is_some bin then 1 else 0))%nat by (destruct (is_some bin); lia).
  rewrite Nat.eqb_refl. f_equal.
  set (v := opt_list bin ++ interleave a b).
  assert (Hc : b2z (if is_some bin then var v 0 else false) = carry_z bin) by (destruct bin; reflexivity).
  rewrite <- Hoff.
  pose proof (fs_loop_spec v (length (opt_list bin)) n 0 (if is_some bin then var v 0 else false)) as H1.
  destruct (fs_loop v (length (opt_list bin)) 0 n (if is_some bin then var v 0 else false)) as [d c'].
  destruct H1 as [Hl Hv].
  rewrite Hc in Hv. unfold v in Hv. rewrite (pairs_even _ a b n), (pairs_odd _ a b n) in Hv by (unfold n; lia).
  pose proof (uval_range a) as Ra. pose proof (uval_range b) as Rb. pose proof (uval_range d) as Rd.
  fold n in Ra. rewrite Hb in Rb. rewrite Hl in Rd.
  assert (0 <= carry_z bin <= 1) by (destruct bin as [[]|]; cbn; lia).
  f_equal.
  - apply bits_eq; [exact Hl|]. exists (b2z c'). lia.
  - f_equal. destruct c'; cbn [b2z] in Hv; destruct (Z.ltb_spec (uval a) (uval b + carry_z bin)); try reflexivity; lia.
Qed.

(** ** Negator *)

Lemma neg_loop_spec v : forall k i flip,
  length (neg_loop v i k flip) = k /\
  exists q, uval (neg_loop v i k flip) = - uval (map (var v) (seq i k)) - b2z flip + q * 2 ^ Z.of_nat k.
Proof.
  induction k as [|k IH]; intros i flip; cbn [neg_loop].
  - split; [reflexivity|]. exists (b2z flip). base0.
  - destruct (IH (S i) (flip || var v i)) as [IHl [q IHv]].
    split; [cbn [length]; lia|]. exists q.
    cbn [uval seq map]. rewrite IHv, pow2_S. destruct flip, (var v i); cbn [orb xorb b2z]; lia.
Qed.

Lemma negator_correct a :
  (0 < length a)%nat -> run_res (negator (length a)) a = Ok (to_bits (length a) (- uval a)).
Proof.
  intros Ha. unfold run_res, negator. destruct (Nat.eqb_spec (length a) 0) as [Hz|Hz]; [lia|].
  cbn [bind]. unfold run_circuit. cbn [c_arity c_fn]. rewrite Nat.eqb_refl. f_equal.
  destruct (neg_loop_spec a (length a) 0 false) as [Hl [q Hv]].
  apply bits_eq; [exact Hl|]. exists q. rewrite Hv.
  replace (map (var a) (seq 0 (length a))) with a; [cbn [b2z]; lia|].
  symmetry. apply map_nth_seq. reflexivity.
Qed.

(** ** Logic *)

Lemma pairs_fn (f : bool -> bool -> bool) a b :
  length b = length a ->
  map (fun i => f (var (interleave a b) (2 * i)) (var (interleave a b) (2 * i + 1))) (seq 0 (length a))
  = zipwith f a b.
Proof.
  intros Hb. apply map_seq_from.
  - revert b Hb; induction a as [|x a IH]; intros [|y b] Hb; cbn in *; try lia. rewrite IH; lia.
  - intros j Hj. unfold var. cbn [Nat.add]. rewrite interleave_nth_even', interleave_nth_odd' by lia.
    revert b j Hb Hj; induction a as [|x a IH]; intros [|y b] j Hb Hj; cbn in *; try lia.
    destruct j; [reflexivity|]. apply IH; lia.
Qed.

Lemma and_correct a b :
  length b = length a -> run_circuit (make_and_circuit (length a)) (interleave a b) = Ok (zipwith andb a b).
Proof.
  intros Hb. unfold run_circuit, make_and_circuit. cbn [c_arity c_fn].
  rewrite interleave_length_min. replace (2 * Nat.min (length a) (length b))%nat with (2 * length a)%nat by lia.
  rewrite Nat.eqb_refl. f_equal. apply (pairs_fn andb a b Hb).
Qed.

Lemma or_correct a b :
  length b = length a -> run_circuit (make_or_circuit (length a)) (interleave a b) = Ok (zipwith orb a b).
Proof.
  intros Hb. unfold run_circuit, make_or_circuit. cbn [c_arity c_fn].
  rewrite interleave_length_min. replace (2 * Nat.min (length a) (length b))%nat with (2 * length a)%nat by lia.
  rewrite Nat.eqb_refl. f_equal. apply (pairs_fn orb a b Hb).
Qed.

Lemma zipwith_length {A B C} (f : A -> B -> C) l l' : length (zipwith f l l') = Nat.min (length l) (length l').
Proof. revert l'; induction l; intros [|y l']; cbn; auto. Qed.

Lemma zipwith_nth (f : bool -> bool -> bool) a b i :
  (i < length a)%nat -> (i < length b)%nat -> nth i (zipwith f a b) false = f (nth i a false) (nth i b false).
Proof.
  revert b i; induction a as [|x a IH]; intros [|y b] i Ha Hb; cbn in *; try lia.
  destruct i; [reflexivity|]. apply IH; lia.
Qed.

Lemma uval_zipwith_and a b : length b = length a -> uval (zipwith andb a b) = Z.land (uval a) (uval b).
Proof.
  intros Hb. apply Z.bits_inj'. intros i Hi. rewrite Z.land_spec.
  rewrite <- (Z2Nat.id i Hi), <- !uval_nth_testbit.
  destruct (Nat.lt_ge_cases (Z.to_nat i) (length a)).
  - apply zipwith_nth; lia.
  - rewrite (nth_overflow a) by lia. rewrite nth_overflow by (rewrite zipwith_length; lia). reflexivity.
Qed.

Lemma uval_zipwith_or a b : length b = length a -> uval (zipwith orb a b) = Z.lor (uval a) (uval b).
Proof.
  intros Hb. apply Z.bits_inj'. intros i Hi. rewrite Z.lor_spec.
  rewrite <- (Z2Nat.id i Hi), <- !uval_nth_testbit.
  destruct (Nat.lt_ge_cases (Z.to_nat i) (length a)).
  - apply zipwith_nth; lia.
  - rewrite (nth_overflow a), (nth_overflow b) by lia. rewrite nth_overflow by (rewrite zipwith_length; lia). reflexivity.
Qed.

Lemma uval_zipwith_xor a b : length b = length a -> uval (zipwith xorb a b) = Z.lxor (uval a) (uval b).
Proof.
  intros Hb. apply Z.bits_inj'. intros i Hi. rewrite Z.lxor_spec.
  rewrite <- (Z2Nat.id i Hi), <- !uval_nth_testbit.
  destruct (Nat.lt_ge_cases (Z.to_nat i) (length a)).
  - apply zipwith_nth; lia.
  - rewrite (nth_overflow a), (nth_overflow b) by lia. rewrite nth_overflow by (rewrite zipwith_length; lia). reflexivity.
Qed.

(** ** Comparisons *)

Lemma eq_loop_spec v : forall k i r,
  eq_loop v i k r = r && forallb (fun j => Bool.eqb (var v (2 * j)) (var v (2 * j + 1))) (seq i k).
Proof.
  induction k as [|k IH]; intros i r; cbn [eq_loop seq forallb].
  - now rewrite andb_true_r.
  - rewrite IH, andb_assoc. f_equal. f_equal. unfold bdd_equal.
    destruct (var v (2 * i)), (var v (2 * i + 1)); reflexivity.
Qed.

Lemma forallb_eqb_lists a b :
  length b = length a ->
  forallb (fun j => Bool.eqb (var (interleave a b) (2 * j)) (var (interleave a b) (2 * j + 1))) (seq 0 (length a))
  = (uval a =? uval b).
Proof.
  intros Hb. apply Bool.eq_iff_eq_true. rewrite forallb_forall, Z.eqb_eq. split.
  - intros H. f_equal. apply nth_ext with (d := false) (d' := false); [lia|].
    intros i Hi. specialize (H i). rewrite in_seq in H. specialize (H ltac:(lia)).
    unfold var in H. rewrite interleave_nth_even', interleave_nth_odd' in H by lia.
    now apply Bool.eqb_prop in H.
  - intros H j Hj. apply in_seq in Hj. unfold var.
    rewrite interleave_nth_even', interleave_nth_odd' by lia.
    rewrite (uval_inj a b) by lia. apply Bool.eqb_reflx.
Qed.

Lemma eqb_correct a b :
  (0 < length a)%nat -> length b = length a ->
  run_res (compare_equal (length a)) (interleave a b) = Ok [uval a =? uval b].
Proof.
  intros Ha Hb. unfold run_res, compare_equal. destruct (Nat.eqb_spec (length a) 0) as [Hz|Hz]; [lia|].
  cbn [bind]. unfold run_circuit. cbn [c_arity c_fn]. rewrite interleave_length_min.
  replace (2 * Nat.min (length a) (length b))%nat with (2 * length a)%nat by lia. rewrite Nat.eqb_refl.
  rewrite eq_loop_spec, forallb_eqb_lists by exact Hb. reflexivity.
Qed.

Lemma neqb_correct a b :
  (0 < length a)%nat -> length b = length a ->
  run_res (compare_not_equal (length a)) (interleave a b) = Ok [negb (uval a =? uval b)].
Proof.
  intros Ha Hb. unfold run_res, compare_not_equal. destruct (Nat.eqb_spec (length a) 0) as [Hz|Hz]; [lia|].
  cbn [bind]. unfold run_circuit. cbn [c_arity c_fn]. rewrite interleave_length_min.
  replace (2 * Nat.min (length a) (length b))%nat with (2 * length a)%nat by lia. rewrite Nat.eqb_refl.
  rewrite eq_loop_spec, forallb_eqb_lists by exact Hb. reflexivity.
Qed.

(** The relation computed by a comparison circuit: > / >= / < / <= . *)
Lemma cmp_loop_spec v greater : forall k r cum,
  let A := uval (map (fun j => var v (2 * j)) (seq 0 k)) in
  let B := uval (map (fun j => var v (2 * j + 1)) (seq 0 k)) in
  cmp_loop v greater k r cum = (r || (cum && rel greater false A B), cum && (A =? B)).
Proof.
  induction k as [|k IH]; intros r cum A B.
  - cbn. f_equal; [destruct greater; cbn; now rewrite andb_false_r, orb_false_r|now rewrite andb_true_r].
  - unfold A, B. rewrite !uval_map_snoc. cbn [cmp_loop]. rewrite IH. clear IH A B.
    set (A := uval (map (fun j => var v (2 * j)) (seq 0 k))).
    set (B := uval (map (fun j => var v (2 * j + 1)) (seq 0 k))).
    assert (RA : 0 <= A < 2 ^ Z.of_nat k).
    { unfold A. pose proof (uval_range (map (fun j => var v (2 * j)) (seq 0 k))) as R.
      rewrite map_length, seq_length in R. exact R. }
    assert (RB : 0 <= B < 2 ^ Z.of_nat k).
    { unfold B. pose proof (uval_range (map (fun j => var v (2 * j + 1)) (seq 0 k))) as R.
      rewrite map_length, seq_length in R. exact R. }
    set (P := 2 ^ Z.of_nat k) in *.
    generalize (var v (2 * k)) (var v (2 * k + 1)); intros a b.
    unfold rel, bdd_greater_than, bdd_less_than, bdd_equal.
    f_equal; destruct greater, a, b, cum, r; cbn [b2z xorb negb andb orb]; try reflexivity; lia.
Qed.

Lemma unsigned_comparison_impl_spec v k greater or_equal :
  let A := uval (map (fun j => var v (2 * j)) (seq 0 k)) in
  let B := uval (map (fun j => var v (2 * j + 1)) (seq 0 k)) in
  unsigned_comparison_impl v k greater or_equal = rel greater or_equal A B.
Proof.
  intros A B. unfold unsigned_comparison_impl. rewrite cmp_loop_spec. fold A B.
  destruct greater, or_equal; cbn [rel andb orb]; lia.
Qed.

Lemma cmp_correct a b greater or_equal :
  (0 < length a)%nat -> length b = length a ->
  run_res (compare_or_maybe_equal (length a) greater or_equal) (interleave a b)
  = Ok [rel greater or_equal (uval a) (uval b)].
Proof.
  intros Ha Hb. unfold run_res, compare_or_maybe_equal. destruct (Nat.eqb_spec (length a) 0) as [Hz|Hz]; [lia|].
  cbn [bind]. unfold run_circuit. cbn [c_arity c_fn]. rewrite interleave_length_min.
  replace (2 * Nat.min (length a) (length b))%nat with (2 * length a)%nat by lia. rewrite Nat.eqb_refl.
  rewrite unsigned_comparison_impl_spec.
  pose proof (pairs_even [] a b (length a) eq_refl Hb) as He.
  pose proof (pairs_odd [] a b (length a) eq_refl Hb) as Ho. cbn [app length Nat.add] in He, Ho.
  rewrite He, Ho. reflexivity.
Qed.

Lemma cmp_signed_correct a b greater or_equal :
  (0 < length a)%nat -> length b = length a ->
  run_res (compare_or_maybe_equal_signed (length a) greater or_equal) (interleave a b)
  = Ok [rel greater or_equal (sval a) (sval b)].
Proof.
  intros Ha Hb. unfold run_res, compare_or_maybe_equal_signed. destruct (Nat.eqb_spec (length a) 0) as [Hz|Hz]; [lia|].
  cbn [bind]. unfold run_circuit. cbn [c_arity c_fn]. rewrite interleave_length_min.
  replace (2 * Nat.min (length a) (length b))%nat with (2 * length a)%nat by lia. rewrite Nat.eqb_refl.
  destruct (list_snoc_cases a) as (a' & sa & ->); [destruct a; cbn in *; [lia|congruence]|].
  destruct (list_snoc_cases b) as (b' & sb & ->); [destruct b; cbn in *; [rewrite app_length in Hb; cbn in Hb; lia|congruence]|].
  rewrite !app_length in *. cbn [length] in *.
  assert (Hb' : length b' = length a') by lia.
  rewrite unsigned_comparison_impl_spec.
  replace (length a' + 1 - 1)%nat with (length a') by lia.
  assert (He : map (fun j => var (interleave (a' ++ [sa]) (b' ++ [sb])) (2 * j)) (seq 0 (length a')) = a').
  { apply map_seq_from; [reflexivity|]. intros j Hj. unfold var. cbn [Nat.add].
    rewrite interleave_nth_even' by (rewrite !app_length; cbn; lia). rewrite app_nth1 by lia. reflexivity. }
  assert (Ho : map (fun j => var (interleave (a' ++ [sa]) (b' ++ [sb])) (2 * j + 1)) (seq 0 (length a')) = b').
  { apply map_seq_from; [exact Hb'|]. intros j Hj. unfold var. cbn [Nat.add].
    rewrite interleave_nth_odd' by (rewrite !app_length; cbn; lia). rewrite app_nth1 by lia. reflexivity. }
  rewrite He, Ho.
  assert (Hsa : var (interleave (a' ++ [sa]) (b' ++ [sb])) (2 * (length a' + 1) - 2) = sa).
  { unfold var. replace (2 * (length a' + 1) - 2)%nat with (2 * length a')%nat by lia.
    rewrite interleave_nth_even' by (rewrite !app_length; cbn; lia). rewrite app_nth2 by lia. now rewrite Nat.sub_diag. }
  assert (Hsb : var (interleave (a' ++ [sa]) (b' ++ [sb])) (2 * (length a' + 1) - 1) = sb).
  { unfold var. replace (2 * (length a' + 1) - 1)%nat with (2 * length a' + 1)%nat by lia.
    rewrite interleave_nth_odd' by (rewrite !app_length; cbn; lia). rewrite app_nth2 by lia.
    replace (length a' - length b')%nat with 0%nat by lia. reflexivity. }
  rewrite Hsa, Hsb, !sval_app, Hb'.
  pose proof (uval_range a') as RA. pose proof (uval_range b') as RB. rewrite Hb' in RB.
  set (P := 2 ^ Z.of_nat (length a')) in *. f_equal. f_equal.
  unfold rel, bdd_greater_than, bdd_less_than.
  destruct greater, or_equal, sa, sb; cbn [b2z negb andb orb]; lia.
Qed.
