(** Lemmas about the grade-school reduction and the recursive multiplier. *)
From Verif Require Import Base Spec BitsLemmas Combos Circuits CircuitsProofs ShiftProofs MulProofs.
From Coq Require Import ZifyBool ZifyNat.
Ltac Zify.zify_post_hook ::= Z.div_mod_to_equations.

(** ** Bit counting *)

Lemma ops3_sum a b c :
  b2z a + b2z b + b2z c =
  b2z (xorb (xorb a b) c) + 2 * b2z (n_bits_are_true [a; b; c] 2 || n_bits_are_true [a; b; c] 3).
Proof. destruct a, b, c; vm_compute; reflexivity. Qed.

Lemma ops4_sum a b c d :
  b2z a + b2z b + b2z c + b2z d =
  b2z (xorb (xorb (xorb a b) c) d)
  + 2 * b2z (n_bits_are_true [a; b; c; d] 2 || n_bits_are_true [a; b; c; d] 3)
  + 4 * b2z (n_bits_are_true [a; b; c; d] 4).
Proof. destruct a, b, c, d; vm_compute; reflexivity. Qed.

Lemma ops5_sum a b c d e :
  b2z a + b2z b + b2z c + b2z d + b2z e =
  b2z (xorb (xorb (xorb (xorb a b) c) d) e)
  + 2 * b2z (n_bits_are_true [a; b; c; d; e] 2 || n_bits_are_true [a; b; c; d; e] 3)
  + 4 * b2z (n_bits_are_true [a; b; c; d; e] 4 || n_bits_are_true [a; b; c; d; e] 5).
Proof. destruct a, b, c, d, e; vm_compute; reflexivity. Qed.

(** Value of the carries still to be added at the current position. *)
Definition pend (cs : carries3) : Z := let '(c0, c1, c2) := cs in b2z c0 + b2z c1 + 2 * b2z c2.

Lemma gs_sec2_spec v off : forall k i c0,
  let '(l, cs) := gs_sec2 v off i k (c0, false, false) in
  length l = k /\
  uval l + 2 ^ Z.of_nat k * pend cs =
    uval (map (fun j => var v (off + 2 * j)) (seq i k)) +
    uval (map (fun j => var v (off + 2 * j + 1)) (seq i k)) + b2z c0.
Proof.
  induction k as [|k IH]; intros i c0; cbn [gs_sec2].
  - cbn [map seq uval length pend b2z]. change (2 ^ Z.of_nat 0) with 1. lia.
  - set (a := var v (off + 2 * i)). set (b := var v (off + 2 * i + 1)).
    pose proof (ops3_sum a b c0) as Hs.
    set (c0' := n_bits_are_true [a; b; c0] 2 || n_bits_are_true [a; b; c0] 3) in *.
    specialize (IH (S i) c0').
    destruct (gs_sec2 v off (S i) k (c0', false, false)) as [l cs].
    destruct IH as [IHl IHv]. split; [cbn [length]; lia|].
    cbn [uval seq map]. fold a b. rewrite pow2_S. lia.
Qed.

Lemma gs_sec34_spec v off : forall k i cs,
  let '(l, cs') := gs_sec34 v off i k cs in
  length l = k /\
  uval l + 2 ^ Z.of_nat k * pend cs' =
    uval (map (fun j => var v (off + 3 * j)) (seq i k)) +
    uval (map (fun j => var v (off + 3 * j + 1)) (seq i k)) +
    uval (map (fun j => var v (off + 3 * j + 2)) (seq i k)) + pend cs.
Proof.
  induction k as [|k IH]; intros i [[c0 c1] c2]; cbn [gs_sec34].
  - cbn [map seq uval length pend b2z]. change (2 ^ Z.of_nat 0) with 1. lia.
  - set (a := var v (off + 3 * i)). set (b := var v (off + 3 * i + 1)). set (c := var v (off + 3 * i + 2)).
    pose proof (ops5_sum a b c c0 c1) as Hs.
    set (c0' := n_bits_are_true [a; b; c; c0; c1] 2 || n_bits_are_true [a; b; c; c0; c1] 3) in *.
    set (c2' := n_bits_are_true [a; b; c; c0; c1] 4 || n_bits_are_true [a; b; c; c0; c1] 5) in *.
    specialize (IH (S i) (c0', c2, c2')).
    destruct (gs_sec34 v off (S i) k (c0', c2, c2')) as [l cs].
    destruct IH as [IHl IHv]. split; [cbn [length]; lia|].
    cbn [uval seq map pend] in *. fold a b c. rewrite pow2_S. lia.
Qed.

Lemma gs_sec5_spec v off : forall k i cs,
  let '(l, cs') := gs_sec5 v off i k cs in
  length l = k /\
  uval l + 2 ^ Z.of_nat k * pend cs' =
    uval (map (fun j => var v (off + 2 * j)) (seq i k)) +
    uval (map (fun j => var v (off + 2 * j + 1)) (seq i k)) + pend cs.
Proof.
  induction k as [|k IH]; intros i [[c0 c1] c2]; cbn [gs_sec5].
  - cbn [map seq uval length pend b2z]. change (2 ^ Z.of_nat 0) with 1. lia.
  - set (a := var v (off + 2 * i)). set (b := var v (off + 2 * i + 1)).
    pose proof (ops4_sum a b c0 c1) as Hs.
    set (c0' := n_bits_are_true [a; b; c0; c1] 2 || n_bits_are_true [a; b; c0; c1] 3) in *.
    set (c2' := n_bits_are_true [a; b; c0; c1] 4) in *.
    specialize (IH (S i) (c0', c2, c2')).
    destruct (gs_sec5 v off (S i) k (c0', c2, c2')) as [l cs].
    destruct IH as [IHl IHv]. split; [cbn [length]; lia|].
    cbn [uval seq map pend] in *. fold a b. rewrite pow2_S. lia.
Qed.

(** From position 2 on only the first carry matters. *)
Lemma gs_sec6_tail v off : forall k i c0 c1 c2,
  (2 <= i)%nat ->
  let l := gs_sec6 v off i k (c0, c1, c2) in
  length l = k /\
  exists q, uval l + 2 ^ Z.of_nat k * q = uval (map (fun j => var v (off + j)) (seq i k)) + b2z c0.
Proof.
  induction k as [|k IH]; intros i c0 c1 c2 Hi; cbn [gs_sec6].
  - cbn [map seq uval length]. change (2 ^ Z.of_nat 0) with 1. split; [reflexivity|]. exists (b2z c0). lia.
  - destruct i as [|[|i]]; [lia|lia|]. cbn zeta.
    set (a := var v (off + S (S i))).
    destruct (IH (S (S (S i))) (a && c0) c1 c2 ltac:(lia)) as [IHl [q IHq]].
    split; [cbn [length]; lia|]. exists q.
    cbn [uval seq map]. fold a. rewrite pow2_S.
    destruct a, c0; cbn [andb xorb b2z] in *; lia.
Qed.

Lemma gs_sec6_spec v off k cs :
  let l := gs_sec6 v off 0 k cs in
  length l = k /\
  exists q, uval l + 2 ^ Z.of_nat k * q = uval (map (fun j => var v (off + j)) (seq 0 k)) + pend cs.
Proof.
  destruct cs as [[c0 c1] c2]. destruct k as [|[|k]]; cbn [gs_sec6 pend].
  - cbn [map seq uval length]. change (2 ^ Z.of_nat 0) with 1. split; [reflexivity|].
    exists (b2z c0 + b2z c1 + 2 * b2z c2). lia.
  - cbn [map seq uval length]. change (2 ^ Z.of_nat 1) with 2. split; [reflexivity|].
    pose proof (ops3_sum (var v (off + 0)) c0 c1) as Hs.
    set (a := var v (off + 0)) in *.
    exists (b2z (n_bits_are_true [a; c0; c1] 2 || n_bits_are_true [a; c0; c1] 3) + b2z c2). lia.
  - set (a := var v (off + 0)). set (b := var v (off + 1)).
    pose proof (ops3_sum a c0 c1) as Hs.
    set (c0' := n_bits_are_true [a; c0; c1] 2 || n_bits_are_true [a; c0; c1] 3) in *.
    pose proof (ops3_sum b c0' c2) as Hs2.
    set (c0'' := n_bits_are_true [b; c0'; c2] 2 || n_bits_are_true [b; c0'; c2] 3) in *.
    destruct (gs_sec6_tail v off k 2 c0'' c2 c2 ltac:(lia)) as [Hl [q Hq]].
    split; [cbn [length]; lia|]. exists q. cbn [uval seq map]. fold a b. rewrite !pow2_S. lia.
Qed.

(** ** Reading the sections back *)

Lemma nth_flat_map2 (f g : nat -> bool) : forall k s i d,
  (i < k)%nat ->
  nth (2 * i) (flat_map (fun j => [f j; g j]) (seq s k)) d = f (s + i)%nat /\
  nth (2 * i + 1) (flat_map (fun j => [f j; g j]) (seq s k)) d = g (s + i)%nat.
Proof.
  induction k as [|k IH]; intros s i d Hi; [lia|]. cbn [seq flat_map app].
  destruct i as [|i].
  - rewrite Nat.add_0_r. split; reflexivity.
  - replace (2 * S i)%nat with (S (S (2 * i))) by lia.
    replace (S (S (2 * i)) + 1)%nat with (S (S (2 * i + 1))) by lia. cbn [nth].
    destruct (IH (S s) i d ltac:(lia)) as [H1 H2]. rewrite H1, H2. split; f_equal; lia.
Qed.

Lemma nth_flat_map3 (f g h : nat -> bool) : forall k s i d,
  (i < k)%nat ->
  nth (3 * i) (flat_map (fun j => [f j; g j; h j]) (seq s k)) d = f (s + i)%nat /\
  nth (3 * i + 1) (flat_map (fun j => [f j; g j; h j]) (seq s k)) d = g (s + i)%nat /\
  nth (3 * i + 2) (flat_map (fun j => [f j; g j; h j]) (seq s k)) d = h (s + i)%nat.
Proof.
  induction k as [|k IH]; intros s i d Hi; [lia|]. cbn [seq flat_map app].
  destruct i as [|i].
  - rewrite Nat.add_0_r. repeat split; reflexivity.
  - replace (3 * S i)%nat with (S (S (S (3 * i)))) by lia.
    replace (S (S (S (3 * i))) + 1)%nat with (S (S (S (3 * i + 1)))) by lia.
    replace (S (S (S (3 * i))) + 2)%nat with (S (S (S (3 * i + 2)))) by lia. cbn [nth].
    destruct (IH (S s) i d ltac:(lia)) as (H1 & H2 & H3). rewrite H1, H2, H3. repeat split; f_equal; lia.
Qed.

Lemma flat_map2_length (f g : nat -> bool) k s : length (flat_map (fun j => [f j; g j]) (seq s k)) = (2 * k)%nat.
Proof. revert s; induction k as [|k IH]; intros s; [reflexivity|]. cbn [seq flat_map app length]. rewrite IH. lia. Qed.

Lemma flat_map3_length (f g h : nat -> bool) k s : length (flat_map (fun j => [f j; g j; h j]) (seq s k)) = (3 * k)%nat.
Proof. revert s; induction k as [|k IH]; intros s; [reflexivity|]. cbn [seq flat_map app length]. rewrite IH. lia. Qed.

Lemma var_mid (p l q : list bool) off i :
  length p = off -> (i < length l)%nat -> var (p ++ l ++ q) (off + i) = nth i l false.
Proof. intros <- Hi. rewrite var_app_r. now rewrite app_nth1. Qed.

(** Consecutive slices of a list recombine. *)
Definition slice (l : list bool) (s k : nat) : list bool := map (fun i => nth (s + i) l false) (seq 0 k).

Lemma slice_length l s k : length (slice l s k) = k.
Proof. unfold slice. now rewrite map_length, seq_length. Qed.

Lemma slice_eq l s k : (s + k <= length l)%nat -> slice l s k = firstn k (skipn s l).
Proof.
  intros H. unfold slice. apply map_seq_from; [rewrite firstn_length, skipn_length; lia|].
  intros j Hj. rewrite nth_firstn, nth_skipn by lia. reflexivity.
Qed.

Lemma firstn_add {A} (l : list A) s k : firstn (s + k) l = firstn s l ++ firstn k (skipn s l).
Proof.
  revert l; induction s as [|s IH]; intros l; [reflexivity|]. destruct l as [|x l]; cbn; [now rewrite firstn_nil|].
  now rewrite IH.
Qed.

Lemma uval_firstn_slice l s k : (s + k <= length l)%nat ->
  uval (firstn (s + k) l) = uval (firstn s l) + 2 ^ Z.of_nat s * uval (slice l s k).
Proof.
  intros H. rewrite firstn_add, uval_app, firstn_length, slice_eq by exact H.
  replace (Nat.min s (length l)) with s by lia. reflexivity.
Qed.

Lemma gradeschool_correct n m ll lh hl hh bits :
  encode_gradeschool_reduction n m ll lh hl hh = Ok bits -> (m <= n)%nat ->
  forall al ah bl bh, partition_integer n = (al, ah) -> partition_integer m = (bl, bh) ->
  run_res (gradeschool_reduce n m) bits =
  Ok (to_bits (m + n) (uval ll + 2 ^ Z.of_nat bl * uval lh + 2 ^ Z.of_nat al * uval hl
                       + 2 ^ Z.of_nat (al + bl) * uval hh)).
Proof.
  intros Henc Hmn al ah bl bh Hpn Hpm. unfold encode_gradeschool_reduction in Henc. rewrite Hpn, Hpm in Henc.
  destruct (_ && (bh <=? bl)%nat) eqn:Hg in Henc; cbn [negb] in Henc; [|discriminate].
  destruct (Nat.ltb_spec ah bh) as [|Hahbh]; [discriminate|].
  injection Henc as Henc.
  assert (Hsn : (al + ah = n)%nat) by (unfold partition_integer in Hpn; destruct (n <=? CIRCUIT_CUTOFF)%nat; injection Hpn; lia).
  assert (Hsm : (bl + bh = m)%nat) by (unfold partition_integer in Hpm; destruct (m <=? CIRCUIT_CUTOFF)%nat; injection Hpm; lia).
  assert (Hlens : length ll = (al + bl)%nat /\ length lh = (al + bh)%nat /\ length hl = (ah + bl)%nat /\
                  length hh = (ah + bh)%nat /\ (bl <= al)%nat /\ (ah <= al)%nat /\ (bh <= bl)%nat) by lia.
  clear Hg. destruct Hlens as (Lll & Llh & Lhl & Lhh & Hba & Haa & Hbb).
  set (o2 := (al - bl)%nat) in *.
  unfold run_res, gradeschool_reduce. destruct (Nat.leb_spec m n) as [_|]; [|lia]. cbn [negb].
  rewrite Hpn, Hpm. destruct (Nat.ltb_spec al bl) as [|_]; [lia|]. destruct (Nat.ltb_spec ah bh) as [|_]; [lia|].
  cbn [orb bind]. unfold run_circuit. cbn [c_arity c_fn]. fold o2.
  set (p1 := map (fun i => nth i ll false) (seq 0 bl)) in *.
  set (p2 := flat_map (fun i => [nth (bl + i) ll false; nth i lh false]) (seq 0 o2)) in *.
  set (p3 := flat_map (fun i => [nth (bl + o2 + i) ll false; nth i hl false; nth (o2 + i) lh false]) (seq 0 bl)) in *.
  set (p4 := flat_map (fun i => [nth (bl + i) hl false; nth (o2 + bl + i) lh false; nth i hh false]) (seq 0 bh)) in *.
  set (p5 := flat_map (fun i => [nth (bl + bh + i) hl false; nth (bh + i) hh false]) (seq 0 (ah - bh))) in *.
  set (p6 := map (fun i => nth (bh + (ah - bh) + i) hh false) (seq 0 bh)) in *.
  assert (L1 : length p1 = bl) by (unfold p1; now rewrite map_length, seq_length).
  assert (L2 : length p2 = (2 * o2)%nat) by apply flat_map2_length.
  assert (L3 : length p3 = (3 * bl)%nat) by apply flat_map3_length.
  assert (L4 : length p4 = (3 * bh)%nat) by apply flat_map3_length.
  assert (L5 : length p5 = (2 * (ah - bh))%nat) by apply flat_map2_length.
  assert (L6 : length p6 = bh) by (unfold p6; now rewrite map_length, seq_length).
  assert (Lb : length bits = (2 * (m + n))%nat) by (subst bits; rewrite !app_length, L1, L2, L3, L4, L5, L6; lia).
  rewrite Lb, Nat.eqb_refl. f_equal.
  set (off3 := (bl + 2 * o2)%nat) in *. set (off5 := (off3 + 3 * (bl + bh))%nat) in *.
  set (off6 := (off5 + 2 * (ah - bh))%nat) in *.
  (* section 1 *)
  assert (E1 : map (fun i => var bits i) (seq 0 bl) = slice ll 0 bl).
  { unfold slice. apply map_ext_in. intros i Hi. apply in_seq in Hi. subst bits. unfold var.
    rewrite app_nth1 by lia. unfold p1. rewrite nth_map_seq by lia. reflexivity. }
  rewrite E1.
  (* section 2 *)
  pose proof (gs_sec2_spec bits bl o2 0 false) as S2.
  destruct (gs_sec2 bits bl 0 o2 (false, false, false)) as [s2 cs2]. destruct S2 as [S2l S2v].
  assert (E2a : map (fun j => var bits (bl + 2 * j)) (seq 0 o2) = slice ll bl o2).
  { unfold slice. apply map_ext_in. intros i Hi. apply in_seq in Hi. subst bits.
    rewrite var_mid by lia. apply nth_flat_map2. lia. }
  assert (E2b : map (fun j => var bits (bl + 2 * j + 1)) (seq 0 o2) = slice lh 0 o2).
  { unfold slice. apply map_ext_in. intros i Hi. apply in_seq in Hi. subst bits.
    rewrite <- Nat.add_assoc. rewrite var_mid by lia.
    destruct (nth_flat_map2 (fun i => nth (bl + i) ll false) (fun i => nth i lh false) o2 0 i false ltac:(lia)) as [_ H].
    exact H. }
  rewrite E2a, E2b in S2v.
  (* sections 3 and 4 *)
  pose proof (gs_sec34_spec bits off3 (bl + bh) 0 cs2) as S3.
  destruct (gs_sec34 bits off3 0 (bl + bh) cs2) as [s3 cs3]. destruct S3 as [S3l S3v].
  assert (Hb34 : forall e i, (e < 3)%nat -> (i < bl + bh)%nat ->
            var bits (off3 + 3 * i + e) =
            nth e (if (i <? bl)%nat then [nth (bl + o2 + i) ll false; nth i hl false; nth (o2 + i) lh false]
                   else [nth i hl false; nth (o2 + i) lh false; nth (i - bl) hh false]) false).
  { intros e i He Hi. subst bits.
    replace (p1 ++ p2 ++ p3 ++ p4 ++ p5 ++ p6) with ((p1 ++ p2) ++ (p3 ++ p4) ++ (p5 ++ p6)) by (now rewrite <- !app_assoc).
    rewrite <- Nat.add_assoc. rewrite var_mid by (rewrite app_length; lia).
    destruct (Nat.ltb_spec i bl) as [Hib|Hib].
    - rewrite app_nth1 by lia.
      destruct (nth_flat_map3 (fun i => nth (bl + o2 + i) ll false) (fun i => nth i hl false)
                  (fun i => nth (o2 + i) lh false) bl 0 i false Hib) as (H0 & H1 & H2).
      fold p3 in H0, H1, H2. destruct e as [|[|[|e]]]; [| | |lia]; cbn [nth].
      + rewrite Nat.add_0_r. exact H0.
      + exact H1.
      + exact H2.
    - rewrite app_nth2 by lia. rewrite L3. replace (3 * i + e - 3 * bl)%nat with (3 * (i - bl) + e)%nat by lia.
      destruct (nth_flat_map3 (fun i => nth (bl + i) hl false) (fun i => nth (o2 + bl + i) lh false)
                  (fun i => nth i hh false) bh 0 (i - bl) false ltac:(lia)) as (H0 & H1 & H2).
      fold p4 in H0, H1, H2. destruct e as [|[|[|e]]]; [| | |lia]; cbn [nth].
      + rewrite Nat.add_0_r. rewrite H0. f_equal. lia.
      + rewrite H1. f_equal. lia.
      + exact H2. }
  assert (E3 : uval (map (fun j => var bits (off3 + 3 * j)) (seq 0 (bl + bh))) +
               uval (map (fun j => var bits (off3 + 3 * j + 1)) (seq 0 (bl + bh))) +
               uval (map (fun j => var bits (off3 + 3 * j + 2)) (seq 0 (bl + bh))) =
               uval (slice ll al bl) + uval (slice hl 0 (bl + bh)) + uval (slice lh o2 (bl + bh)) +
               2 ^ Z.of_nat bl * uval (slice hh 0 bh)).
  { assert (G : forall (F : nat -> bool), uval (map F (seq 0 (bl + bh))) =
               uval (map F (seq 0 bl)) + 2 ^ Z.of_nat bl * uval (map (fun i => F (bl + i)%nat) (seq 0 bh))).
    { intros F. rewrite seq_app, map_app, uval_app, map_length, seq_length. cbn [Nat.add]. f_equal. f_equal. f_equal.
      clear. assert (forall s k b, map F (seq (b + s) k) = map (fun i => F (b + i)%nat) (seq s k)).
      { intros s k b. revert s; induction k as [|k IH]; intros s; [reflexivity|]. cbn [seq map]. f_equal.
        rewrite <- IH. f_equal. f_equal. lia. }
      specialize (H 0%nat bh bl). rewrite Nat.add_0_r in H. exact H. }
    unfold slice. rewrite !G. cbn [Nat.add].
    assert (M1 : forall (F F' : nat -> bool) k, (forall i, (i < k)%nat -> F i = F' i) -> uval (map F (seq 0 k)) = uval (map F' (seq 0 k))).
    { intros F F' k HF. f_equal. apply map_ext_in. intros i Hi. apply in_seq in Hi. apply HF. lia. }
    assert (X : forall e i, (e < 3)%nat -> (i < bl)%nat -> var bits (off3 + 3 * i + e) =
         nth e [nth (bl + o2 + i) ll false; nth i hl false; nth (o2 + i) lh false] false).
    { intros e i He Hi. rewrite Hb34 by lia. destruct (Nat.ltb_spec i bl); [reflexivity|lia]. }
    assert (Y : forall e i, (e < 3)%nat -> (i < bh)%nat -> var bits (off3 + 3 * (bl + i) + e) =
         nth e [nth (bl + i) hl false; nth (o2 + (bl + i)) lh false; nth i hh false] false).
    { intros e i He Hi. rewrite Hb34 by lia. destruct (Nat.ltb_spec (bl + i) bl); [lia|].
      replace (bl + i - bl)%nat with i by lia. reflexivity. }
    rewrite (M1 (fun j => var bits (off3 + 3 * j)) (fun j => nth (al + j) ll false) bl)
      by (intros i Hi; specialize (X 0%nat i ltac:(lia) Hi); rewrite Nat.add_0_r in X; rewrite X; cbn [nth]; f_equal; lia).
    rewrite (M1 (fun j => var bits (off3 + 3 * j + 1)) (fun j => nth j hl false) bl)
      by (intros i Hi; apply (X 1%nat i); lia).
    rewrite (M1 (fun j => var bits (off3 + 3 * j + 2)) (fun j => nth (o2 + j) lh false) bl)
      by (intros i Hi; apply (X 2%nat i); lia).
    rewrite (M1 (fun j => var bits (off3 + 3 * (bl + j))) (fun j => nth (bl + j) hl false) bh)
      by (intros i Hi; specialize (Y 0%nat i ltac:(lia) Hi); rewrite Nat.add_0_r in Y; exact Y).
    rewrite (M1 (fun j => var bits (off3 + 3 * (bl + j) + 1)) (fun j => nth (o2 + (bl + j)) lh false) bh)
      by (intros i Hi; apply (Y 1%nat i); lia).
    rewrite (M1 (fun j => var bits (off3 + 3 * (bl + j) + 2)) (fun j => nth j hh false) bh)
      by (intros i Hi; apply (Y 2%nat i); lia).
    lia. }
  rewrite E3 in S3v. clear E3 Hb34.
  (* section 5 *)
  pose proof (gs_sec5_spec bits off5 (ah - bh) 0 cs3) as S5.
  destruct (gs_sec5 bits off5 0 (ah - bh) cs3) as [s5 cs5]. destruct S5 as [S5l S5v].
  assert (E5a : map (fun j => var bits (off5 + 2 * j)) (seq 0 (ah - bh)) = slice hl (bl + bh) (ah - bh)).
  { unfold slice. apply map_ext_in. intros i Hi. apply in_seq in Hi. subst bits.
    replace (p1 ++ p2 ++ p3 ++ p4 ++ p5 ++ p6) with ((p1 ++ p2 ++ p3 ++ p4) ++ p5 ++ p6) by (now rewrite <- !app_assoc).
    rewrite var_mid by (rewrite ?app_length; lia). apply nth_flat_map2. lia. }
  assert (E5b : map (fun j => var bits (off5 + 2 * j + 1)) (seq 0 (ah - bh)) = slice hh bh (ah - bh)).
  { unfold slice. apply map_ext_in. intros i Hi. apply in_seq in Hi. subst bits.
    replace (p1 ++ p2 ++ p3 ++ p4 ++ p5 ++ p6) with ((p1 ++ p2 ++ p3 ++ p4) ++ p5 ++ p6) by (now rewrite <- !app_assoc).
    rewrite <- Nat.add_assoc. rewrite var_mid by (rewrite ?app_length; lia).
    destruct (nth_flat_map2 (fun i => nth (bl + bh + i) hl false) (fun i => nth (bh + i) hh false) (ah - bh) 0 i false ltac:(lia)) as [_ H].
    exact H. }
  rewrite E5a, E5b in S5v.
  (* section 6 *)
  destruct (gs_sec6_spec bits off6 bh cs5) as [S6l [q S6v]].
  assert (E6 : map (fun j => var bits (off6 + j)) (seq 0 bh) = slice hh ah bh).
  { unfold slice. apply map_ext_in. intros i Hi. apply in_seq in Hi. subst bits.
    replace (p1 ++ p2 ++ p3 ++ p4 ++ p5 ++ p6) with ((p1 ++ p2 ++ p3 ++ p4 ++ p5) ++ p6 ++ []) by (now rewrite <- !app_assoc, app_nil_r).
    rewrite var_mid by (rewrite ?app_length; lia). unfold p6. rewrite nth_map_seq by lia. f_equal. lia. }
  rewrite E6 in S6v.
  set (s6 := gs_sec6 bits off6 0 bh cs5) in *.
  apply bits_eq.
  - rewrite !app_length, slice_length. lia.
  - exists (- q).
    rewrite !uval_app, slice_length, S2l, S3l, S5l.
    (* recombine the four products *)
    assert (Vll : uval ll = uval (slice ll 0 bl) + 2 ^ Z.of_nat bl * uval (slice ll bl o2) + 2 ^ Z.of_nat al * uval (slice ll al bl)).
    { rewrite <- (firstn_all ll) at 1. rewrite Lll. rewrite uval_firstn_slice by lia.
      replace al with (bl + o2)%nat at 1 by lia. rewrite uval_firstn_slice by lia.
      rewrite (slice_eq ll 0) by lia. cbn [skipn]. replace (bl + o2)%nat with al by lia. lia. }
    assert (Vlh : uval lh = uval (slice lh 0 o2) + 2 ^ Z.of_nat o2 * uval (slice lh o2 (bl + bh))).
    { rewrite <- (firstn_all lh) at 1. rewrite Llh. replace (al + bh)%nat with (o2 + (bl + bh))%nat by lia.
      rewrite uval_firstn_slice by lia. rewrite (slice_eq lh 0) by lia. reflexivity. }
    assert (Vhl : uval hl = uval (slice hl 0 (bl + bh)) + 2 ^ Z.of_nat (bl + bh) * uval (slice hl (bl + bh) (ah - bh))).
    { rewrite <- (firstn_all hl) at 1. rewrite Lhl. replace (ah + bl)%nat with ((bl + bh) + (ah - bh))%nat by lia.
      rewrite uval_firstn_slice by lia. rewrite (slice_eq hl 0) by lia. reflexivity. }
    assert (Vhh : uval hh = uval (slice hh 0 bh) + 2 ^ Z.of_nat bh * uval (slice hh bh (ah - bh)) + 2 ^ Z.of_nat ah * uval (slice hh ah bh)).
    { rewrite <- (firstn_all hh) at 1. rewrite Lhh. rewrite uval_firstn_slice by lia.
      replace ah with (bh + (ah - bh))%nat at 1 by lia. rewrite uval_firstn_slice by lia.
      rewrite (slice_eq hh 0) by lia. cbn [skipn]. replace (bh + (ah - bh))%nat with ah by lia. lia. }
    rewrite Vll, Vlh, Vhl, Vhh.
    assert (P : forall x y, 2 ^ Z.of_nat (x + y) = 2 ^ Z.of_nat x * 2 ^ Z.of_nat y)
      by (intros; rewrite Nat2Z.inj_add, Z.pow_add_r; lia).
    replace (m + n)%nat with (bl + (o2 + ((bl + bh) + ((ah - bh) + bh))))%nat by lia.
    replace (al + bl)%nat with (bl + (o2 + bl))%nat by lia.
    assert (Pal : 2 ^ Z.of_nat al = 2 ^ Z.of_nat bl * 2 ^ Z.of_nat o2) by (rewrite <- P; f_equal; lia).
    assert (Pah : 2 ^ Z.of_nat ah = 2 ^ Z.of_nat bh * 2 ^ Z.of_nat (ah - bh)) by (rewrite <- P; f_equal; lia).
    rewrite Pal, Pah. rewrite !P. rewrite !P in S3v.
    replace (uval s6) with (uval (slice hh ah bh) + pend cs5 - 2 ^ Z.of_nat bh * q) by lia.
    replace (uval s5) with (uval (slice hl (bl + bh) (ah - bh)) + uval (slice hh bh (ah - bh)) + pend cs3 - 2 ^ Z.of_nat (ah - bh) * pend cs5) by lia.
    replace (uval s3) with (uval (slice ll al bl) + uval (slice hl 0 (bl + bh)) + uval (slice lh o2 (bl + bh)) +
               2 ^ Z.of_nat bl * uval (slice hh 0 bh) + pend cs2 - 2 ^ Z.of_nat bl * 2 ^ Z.of_nat bh * pend cs3) by lia.
    replace (uval s2) with (uval (slice ll bl o2) + uval (slice lh 0 o2) - 2 ^ Z.of_nat o2 * pend cs2) by (cbn [b2z] in S2v; lia).
    ring.
Qed.

(** ** The recursive multiplier *)

Lemma partition_large n al ah : partition_integer n = (al, ah) ->
  (n <= 16 /\ al = n /\ ah = 0 \/ 16 < n /\ al = n - n / 2 /\ ah = n / 2)%nat.
Proof.
  unfold partition_integer, CIRCUIT_CUTOFF. destruct (Nat.leb_spec n 16) as [Hn|Hn]; intros E; injection E as <- <-; [left|right]; repeat split; try assumption; reflexivity.
Qed.

(** Which operand lengths the recursion accepts (used only in the proofs; [x] is at least [y]). *)
Fixpoint mul_ok (fuel x y : nat) : bool :=
  match fuel with
  | O => false
  | S f =>
      let n := Nat.max x y in let m := Nat.min x y in
      if (n <=? 16)%nat then (0 <? m)%nat
      else if (m <=? 16)%nat then false
      else mul_ok f (n - n / 2) (m - m / 2) && mul_ok f (n - n / 2) (m / 2) &&
           mul_ok f (n / 2) (m - m / 2) && mul_ok f (n / 2) (m / 2)
  end.

Lemma mul_ok_sym f x y : mul_ok f x y = mul_ok f y x.
Proof. destruct f; [reflexivity|]. cbn [mul_ok]. now rewrite (Nat.max_comm x y), (Nat.min_comm x y). Qed.

Lemma uval_split (l : list bool) k : (k <= length l)%nat ->
  uval l = uval (firstn k l) + 2 ^ Z.of_nat k * uval (skipn k l).
Proof.
  intros H. rewrite <- (firstn_skipn k l) at 1. rewrite uval_app, firstn_length.
  replace (Nat.min k (length l)) with k by lia. reflexivity.
Qed.

Lemma adder_len n m v out : run_res (ripple_carry_adder n m false) v = Ok out -> length out = (Nat.max n m + 1)%nat.
Proof.
  unfold run_res, ripple_carry_adder. destruct ((n =? 0)%nat || (m =? 0)%nat); [discriminate|]. cbn [bind].
  unfold run_circuit. destruct (_ =? _)%nat; [|discriminate]. cbn [c_fn].
  pose proof (rca_both_spec v 0 (Nat.min m n) 0 false) as H1.
  destruct (rca_both v 0 0 (Nat.min m n) false) as [s1 c1].
  pose proof (rca_rest_spec v (2 * Nat.min m n + 0) (Nat.max m n - Nat.min m n) 0 c1) as H2.
  destruct (rca_rest v (2 * Nat.min m n + 0) 0 (Nat.max m n - Nat.min m n) c1) as [s2 c2].
  intros E; injection E as <-. rewrite !app_length. cbn [length]. lia.
Qed.

Lemma adder_no_err n m v e : run_res (ripple_carry_adder n m false) v <> Err e.
Proof.
  unfold run_res, ripple_carry_adder. destruct ((n =? 0)%nat || (m =? 0)%nat); [discriminate|]. cbn [bind].
  unfold run_circuit. destruct (_ =? _)%nat; discriminate.
Qed.

Lemma mul_impl_spec : forall fuel a b,
  (length a + length b < fuel)%nat ->
  mul_impl fuel a b =
  if mul_ok fuel (length a) (length b) then Ok (to_bits (length a + length b) (uval a * uval b)) else Panic.
Proof.
  induction fuel as [|f IH]; intros a0 b0 Hf; [lia|].
  cbn [mul_impl].
  assert (Hsw : exists a b, (if (length a0 <? length b0)%nat then (b0, a0) else (a0, b0)) = (a, b) /\
     length a = Nat.max (length a0) (length b0) /\ length b = Nat.min (length a0) (length b0) /\
     uval a * uval b = uval a0 * uval b0).
  { destruct (Nat.ltb_spec (length a0) (length b0)); [exists b0, a0|exists a0, b0]; repeat split; lia. }
  destruct Hsw as (a & b & -> & La & Lb & Hab).
  replace (to_bits (length a0 + length b0) (uval a0 * uval b0)) with (to_bits (length a + length b) (uval a * uval b))
    by (rewrite Hab; f_equal; lia).
  cbn [mul_ok]. rewrite <- La, <- Lb.
  assert (Hle : (length b <= length a)%nat) by lia.
  assert (Hf' : (length a + length b <= f)%nat) by lia.
  clear La Lb Hab Hf a0 b0.
  destruct (partition_integer (length a)) as [al ah] eqn:Ha.
  destruct (partition_integer (length b)) as [bl bh] eqn:Hb.
  pose proof (partition_large _ _ _ Ha) as Ca. pose proof (partition_large _ _ _ Hb) as Cb.
  destruct (Nat.leb_spec (length a) 16) as [Hsm|Hbig].
  { (* single circuit *)
    assert (ah = 0%nat /\ bh = 0%nat) as [-> ->] by lia. cbn [Nat.eqb andb].
    destruct (Nat.ltb_spec 0 (length b)) as [Hp|Hp].
    - apply multiplier_correct; lia.
    - unfold run_res, unsigned_multiplier. replace (length b) with 0%nat by lia. now rewrite orb_true_r. }
  assert (Hah : (ah =? 0)%nat = false) by (apply Nat.eqb_neq; lia). rewrite Hah. cbn [andb].
  assert (Lal : length (firstn al a) = al) by (rewrite firstn_length; lia).
  assert (Lah : length (skipn al a) = ah) by (rewrite skipn_length; lia).
  assert (Lbl : length (firstn bl b) = bl) by (rewrite firstn_length; lia).
  assert (Lbh : length (skipn bl b) = bh) by (rewrite skipn_length; lia).
  destruct (Nat.leb_spec (length b) 16) as [Hbs|Hbb].
  { (* the broken branch *)
    assert (bh = 0%nat /\ bl = length b) as [-> Ebl] by lia. cbn [Nat.eqb].
    rewrite (IH (firstn al a) (firstn bl b)) by lia. rewrite Lal, Lbl.
    destruct (mul_ok f al bl); [|reflexivity]. cbn [bind].
    rewrite (IH (skipn al a) (firstn bl b)) by lia. rewrite Lah, Lbl.
    destruct (mul_ok f ah bl); [|reflexivity]. cbn [bind].
    match goal with |- bind ?r _ = _ => destruct r as [out|e|] eqn:Er end; cbn [bind].
    - apply adder_len in Er. rewrite Er, firstn_length, to_bits_length.
      destruct (Nat.eqb_spec (Nat.min al (al + bl) + (Nat.max bl (ah + bl) + 1)) (length a + length b)); [lia|reflexivity].
    - exfalso. eapply adder_no_err. exact Er.
    - reflexivity. }
  assert (Hbh : (bh =? 0)%nat = false) by (apply Nat.eqb_neq; lia). rewrite Hbh.
  assert (Eal : (length a - length a / 2 = al)%nat) by lia.
  assert (Eah : (length a / 2 = ah)%nat) by lia.
  assert (Ebl : (length b - length b / 2 = bl)%nat) by lia.
  assert (Ebh : (length b / 2 = bh)%nat) by lia.
  rewrite Eal, Ebl, Eah, Ebh.
  rewrite (IH (firstn al a) (firstn bl b)) by lia. rewrite Lal, Lbl.
  destruct (mul_ok f al bl); [|reflexivity]. cbn [bind andb].
  rewrite (IH (firstn al a) (skipn bl b)) by lia. rewrite Lal, Lbh.
  destruct (mul_ok f al bh); [|reflexivity]. cbn [bind andb].
  rewrite (IH (skipn al a) (firstn bl b)) by lia. rewrite Lah, Lbl.
  destruct (mul_ok f ah bl); [|reflexivity]. cbn [bind andb].
  rewrite (IH (skipn al a) (skipn bl b)) by lia. rewrite Lah, Lbh.
  destruct (mul_ok f ah bh); [|reflexivity]. cbn [bind andb].
  set (ll := to_bits (al + bl) _). set (lh := to_bits (al + bh) _).
  set (hl := to_bits (ah + bl) _). set (hh := to_bits (ah + bh) _).
  destruct (encode_gradeschool_reduction (length a) (length b) ll lh hl hh) as [bits|e|] eqn:Henc.
  - cbn [bind]. rewrite (gradeschool_correct _ _ _ _ _ _ _ Henc Hle _ _ _ _ Ha Hb). f_equal.
    rewrite (Nat.add_comm (length b)). f_equal.
    pose proof (uval_range (firstn al a)) as R1. pose proof (uval_range (skipn al a)) as R2.
    pose proof (uval_range (firstn bl b)) as R3. pose proof (uval_range (skipn bl b)) as R4.
    rewrite Lal in R1. rewrite Lah in R2. rewrite Lbl in R3. rewrite Lbh in R4.
    assert (P : forall x y, 2 ^ Z.of_nat (x + y) = 2 ^ Z.of_nat x * 2 ^ Z.of_nat y)
      by (intros; rewrite Nat2Z.inj_add, Z.pow_add_r; lia).
    assert (M : forall x y (u v : Z), 0 <= u < 2 ^ Z.of_nat x -> 0 <= v < 2 ^ Z.of_nat y ->
                 uval (to_bits (x + y) (u * v)) = u * v).
    { intros x y u v Hu Hv. rewrite uval_to_bits. apply Z.mod_small. rewrite P. nia. }
    unfold ll, lh, hl, hh. rewrite !M by assumption. rewrite P.
    rewrite (uval_split a al), (uval_split b bl) by lia. ring.
  - exfalso. unfold encode_gradeschool_reduction in Henc. rewrite Ha, Hb in Henc.
    destruct (negb _); [discriminate|]. destruct (ah <? bh)%nat; discriminate.
  - exfalso. unfold encode_gradeschool_reduction in Henc. rewrite Ha, Hb in Henc.
    unfold ll, lh, hl, hh in Henc. rewrite !to_bits_length, !Nat.eqb_refl in Henc.
    destruct (Nat.leb_spec bl al); [|lia]. destruct (Nat.leb_spec ah al); [|lia].
    destruct (Nat.leb_spec bh bl); [|lia]. cbn [andb negb] in Henc.
    destruct (Nat.ltb_spec ah bh); [lia|discriminate].
Qed.

(** The lengths at which the recursion aborts, for operands of (nearly) equal width. *)
Definition bad0 (n : nat) : Prop := exists d, (1 <= d)%nat /\ (16 * 2 ^ d < n < 17 * 2 ^ d)%nat.
Definition bad1 (m : nat) : Prop := exists d, (16 * 2 ^ d <= m < 17 * 2 ^ d)%nat.

Lemma bad0_small n : (n <= 32)%nat -> ~ bad0 n.
Proof.
  intros H (d & Hd & H1 & _). assert (2 ^ 1 <= 2 ^ d)%nat by (apply Nat.pow_le_mono_r; lia).
  change (2 ^ 1)%nat with 2%nat in *. lia.
Qed.

Lemma bad1_small m : (m < 16)%nat -> ~ bad1 m.
Proof. intros H (d & H1 & _). pose proof (Nat.pow_nonzero 2 d ltac:(lia)). lia. Qed.

Lemma bad0_even k : (16 < 2 * k)%nat -> (bad0 (2 * k) <-> bad0 k).
Proof.
  intros Hk. split.
  - intros (d & Hd & H). destruct d as [|d]; [lia|]. cbn [Nat.pow] in H.
    destruct d as [|d]; [cbn [Nat.pow] in H; lia|]. exists (S d). split; [lia|]. cbn [Nat.pow] in *. lia.
  - intros (d & Hd & H). exists (S d). split; [lia|]. cbn [Nat.pow] in *. lia.
Qed.

Lemma bad0_odd k : (16 < 2 * k + 1)%nat -> (bad0 (2 * k + 1) <-> bad1 k).
Proof.
  intros Hk. split.
  - intros (d & Hd & H). destruct d as [|d]; [lia|]. exists d. cbn [Nat.pow] in H. lia.
  - intros (d & H). exists (S d). split; [lia|]. cbn [Nat.pow] in *. lia.
Qed.

Lemma bad1_even k : (16 < 2 * k)%nat -> (bad1 (2 * k) <-> bad1 k).
Proof.
  intros Hk. split.
  - intros (d & H). destruct d as [|d]; [cbn [Nat.pow] in H; lia|]. exists d. cbn [Nat.pow] in H. lia.
  - intros (d & H). exists (S d). cbn [Nat.pow] in *. lia.
Qed.

Lemma bad1_odd k : (16 < 2 * k + 1)%nat -> (bad1 (2 * k + 1) <-> bad1 k).
Proof.
  intros Hk. split.
  - intros (d & H). destruct d as [|d]; [cbn [Nat.pow] in H; lia|]. exists d. cbn [Nat.pow] in H. lia.
  - intros (d & H). exists (S d). cbn [Nat.pow] in *. lia.
Qed.

(** bad0 of a neighbour implies bad1. *)
Lemma bad0_bad1_l k : bad0 k -> bad1 k.
Proof. intros (d & Hd & H). exists d. lia. Qed.

Lemma bad0_bad1_r k : bad0 (k + 1) -> bad1 k.
Proof. intros (d & Hd & H). exists d. lia. Qed.

Lemma mul_ok_char : forall n,
  (forall f, (2 * n < f)%nat -> (0 < n)%nat -> (mul_ok f n n = true <-> ~ bad0 n)) /\
  (forall f, (2 * n + 1 < f)%nat -> (0 < n)%nat -> (mul_ok f (n + 1) n = true <-> ~ bad1 n)).
Proof.
  intros n. induction n as [n IHn] using (well_founded_induction lt_wf). split; intros f Hf Hn.
  - destruct f as [|f]; [lia|]. cbn [mul_ok]. rewrite Nat.max_id, Nat.min_id.
    destruct (Nat.leb_spec n 16) as [Hs|Hb].
    { destruct (Nat.ltb_spec 0 n); [|lia]. split; [intros _; apply bad0_small; lia|reflexivity]. }
    destruct (Nat.Even_or_Odd n) as [[k Hk]|[k Hk]].
    + replace (n - n / 2)%nat with k by lia. replace (n / 2)%nat with k by lia.
      destruct (IHn k ltac:(lia)) as [IH0 _]. specialize (IH0 f ltac:(lia) ltac:(lia)).
      rewrite Hk. rewrite bad0_even by lia. destruct (mul_ok f k k); cbn [andb]; exact IH0.
    + replace (n - n / 2)%nat with (k + 1)%nat by lia. replace (n / 2)%nat with k by lia.
      destruct (IHn k ltac:(lia)) as [IH0 IH1]. specialize (IH0 f ltac:(lia) ltac:(lia)).
      specialize (IH1 f ltac:(lia) ltac:(lia)).
      destruct (IHn (k + 1)%nat ltac:(lia)) as [IH2 _]. specialize (IH2 f ltac:(lia) ltac:(lia)).
      rewrite (mul_ok_sym f k (k + 1)). rewrite Hk, bad0_odd by lia.
      rewrite !andb_true_iff, IH0, IH1, IH2. pose proof (bad0_bad1_l k). pose proof (bad0_bad1_r k). tauto.
  - destruct f as [|f]; [lia|]. cbn [mul_ok].
    replace (Nat.max (n + 1) n) with (n + 1)%nat by lia. replace (Nat.min (n + 1) n) with n by lia.
    destruct (Nat.leb_spec (n + 1) 16) as [Hs|Hb].
    { destruct (Nat.ltb_spec 0 n); [|lia]. split; [intros _; apply bad1_small; lia|reflexivity]. }
    destruct (Nat.leb_spec n 16) as [Hs2|Hb2].
    { split; [discriminate|]. intros H. exfalso. apply H. exists 0%nat. cbn [Nat.pow]. lia. }
    destruct (Nat.Even_or_Odd n) as [[k Hk]|[k Hk]].
    + replace (n + 1 - (n + 1) / 2)%nat with (k + 1)%nat by lia. replace ((n + 1) / 2)%nat with k by lia.
      replace (n - n / 2)%nat with k by lia. replace (n / 2)%nat with k by lia.
      destruct (IHn k ltac:(lia)) as [IH0 IH1]. specialize (IH0 f ltac:(lia) ltac:(lia)).
      specialize (IH1 f ltac:(lia) ltac:(lia)).
      rewrite Hk, bad1_even by lia. rewrite !andb_true_iff, IH0, IH1. pose proof (bad0_bad1_l k). tauto.
    + replace (n + 1 - (n + 1) / 2)%nat with (k + 1)%nat by lia. replace ((n + 1) / 2)%nat with (k + 1)%nat by lia.
      replace (n - n / 2)%nat with (k + 1)%nat by lia. replace (n / 2)%nat with k by lia.
      destruct (IHn k ltac:(lia)) as [IH0 IH1]. specialize (IH1 f ltac:(lia) ltac:(lia)).
      destruct (IHn (k + 1)%nat ltac:(lia)) as [IH2 _]. specialize (IH2 f ltac:(lia) ltac:(lia)).
      rewrite Hk, bad1_odd by lia. rewrite !andb_true_iff, IH1, IH2. pose proof (bad0_bad1_r k). tauto.
Qed.

Lemma uint_mul_value a b p :
  append_uint_multiply a b = Ok p ->
  fst p ++ snd p = to_bits (length a + length b) (uval a * uval b) /\
  length (fst p) = length a /\ uval (fst p) + 2 ^ Z.of_nat (length a) * uval (snd p) = uval a * uval b.
Proof.
  unfold append_uint_multiply. rewrite mul_impl_spec by lia.
  destruct (mul_ok _ _ _); [|discriminate]. cbn [bind]. rewrite to_bits_length.
  destruct (Nat.leb_spec (length a) (length a + length b)); [|lia]. intros E. injection E as <-. cbn [fst snd].
  rewrite firstn_skipn. rewrite firstn_length, to_bits_length. repeat split; [lia|].
  rewrite <- (uval_split (to_bits (length a + length b) (uval a * uval b))) by (rewrite to_bits_length; lia).
  rewrite uval_to_bits. apply Z.mod_small.
  pose proof (uval_range a). pose proof (uval_range b). rewrite Nat2Z.inj_add, Z.pow_add_r by lia. nia.
Qed.

Lemma uint_mul_total a b :
  (0 < length a)%nat -> length b = length a ->
  ((exists d, (1 <= d)%nat /\ (16 * 2 ^ d < length a < 17 * 2 ^ d)%nat) <-> append_uint_multiply a b = Panic) /\
  (~ (exists d, (1 <= d)%nat /\ (16 * 2 ^ d < length a < 17 * 2 ^ d)%nat) <->
     append_uint_multiply a b = Ok (to_bits (length a) (uval a * uval b),
                                    to_bits (length a) (uval a * uval b / 2 ^ Z.of_nat (length a)))).
Proof.
  intros Ha Hb. destruct (mul_ok_char (length a)) as [H0 _].
  specialize (H0 (S (length a + length b)) ltac:(lia) Ha). fold (bad0 (length a)).
  unfold append_uint_multiply. rewrite mul_impl_spec by lia. rewrite Hb in *.
  destruct (mul_ok (S (length a + length a)) (length a) (length a)).
  - assert (~ bad0 (length a)) by (apply H0; reflexivity).
    cbn [bind]. rewrite to_bits_length. destruct (Nat.leb_spec (length a) (length a + length a)); [|lia].
    split; [split; [tauto|discriminate]|]. split; [intros _|tauto]. f_equal.
    rewrite to_bits_app.
    rewrite firstn_app, to_bits_length, Nat.sub_diag. cbn [firstn]. rewrite app_nil_r.
    rewrite skipn_app, to_bits_length, Nat.sub_diag. cbn [skipn].
    rewrite firstn_all2 by (rewrite to_bits_length; lia).
    rewrite skipn_all2 by (rewrite to_bits_length; lia). reflexivity.
  - assert (H1 : ~ ~ bad0 (length a)) by (intros H; apply H0 in H; discriminate).
    assert (Hdec : bad0 (length a)).
    { (* bounded search for the witness *)
      set (N := length a) in *.
      assert (Hd : forall k, (exists d, (d < k)%nat /\ (1 <= d)%nat /\ (16 * 2 ^ d < N < 17 * 2 ^ d)%nat) \/
                   ~ (exists d, (d < k)%nat /\ (1 <= d)%nat /\ (16 * 2 ^ d < N < 17 * 2 ^ d)%nat)).
      { induction k as [|k [IH|IH]].
        - right. intros (d & Hd & _). lia.
        - left. destruct IH as (d & H2 & H3). exists d. split; [lia|exact H3].
        - destruct (Nat.le_gt_cases 1 k) as [G1|G1];
            [destruct (Nat.lt_ge_cases (16 * 2 ^ k) N) as [G2|G2];
              [destruct (Nat.lt_ge_cases N (17 * 2 ^ k)) as [G3|G3]|]|].
          + left. exists k. lia.
          + right. intros (d & H2 & H3). apply IH. exists d. split; [|exact H3].
            destruct (Nat.eq_dec d k) as [->|]; [lia|lia].
          + right. intros (d & H2 & H3). apply IH. exists d. split; [|exact H3].
            destruct (Nat.eq_dec d k) as [->|]; [lia|lia].
          + right. intros (d & H2 & H3). apply IH. exists d. split; [|exact H3].
            destruct (Nat.eq_dec d k) as [->|]; [lia|lia]. }
      destruct (Hd N) as [(d & _ & H2)|Hn]; [exists d; exact H2|].
      exfalso. apply H1. intros (d & H2 & H3). apply Hn. exists d. split; [|tauto].
      pose proof (Nat.pow_gt_lin_r 2 d ltac:(lia)). lia. }
    cbn [bind]. split; [tauto|]. split; [tauto|discriminate].
Qed.

(** ** Signed multiplication *)

Lemma abs_bits_correct a : (0 < length a)%nat ->
  abs_bits a = Ok (to_bits (length a) (Z.abs (sval a))).
Proof.
  intros Ha. unfold abs_bits, neg_bits. rewrite negator_correct by exact Ha. cbn [bind]. f_equal.
  assert (Hz : forall (l l' : list bool), length l = length l' ->
      zipwith (fun f t => cmux (last a false) f t) l l' = if last a false then l' else l).
  { induction l as [|x l IH]; destruct l' as [|y l']; cbn [length zipwith]; intros H; try lia.
    - destruct (last a false); reflexivity.
    - rewrite IH by lia. unfold cmux. destruct (last a false); reflexivity. }
  rewrite Hz by (now rewrite to_bits_length).
  pose proof (uval_range a) as R.
  assert (Hs : sval a = uval a - (if last a false then 2 ^ Z.of_nat (length a) else 0)) by reflexivity.
  pose proof (pow2_pos (Z.of_nat (length a)) ltac:(lia)) as Hp.
  destruct (last a false).
  - rewrite Z.abs_neq by lia. rewrite Hs.
    rewrite <- (to_bits_mod (length a) (- uval a)), <- (to_bits_mod (length a) (- (uval a - _))). f_equal.
    replace (- (uval a - 2 ^ Z.of_nat (length a))) with (- uval a + 1 * 2 ^ Z.of_nat (length a)) by lia.
    symmetry. apply Z.mod_add. lia.
  - rewrite Z.abs_eq by lia. rewrite Hs, Z.sub_0_r. symmetry. apply to_bits_uval.
Qed.

Lemma to_bits_eq_mod n x y : x mod 2 ^ Z.of_nat n = y mod 2 ^ Z.of_nat n -> to_bits n x = to_bits n y.
Proof. intros H. rewrite <- (to_bits_mod n x), <- (to_bits_mod n y). now rewrite H. Qed.

Lemma sval_range a : (0 < length a)%nat ->
  - 2 ^ (Z.of_nat (length a) - 1) <= sval a < 2 ^ (Z.of_nat (length a) - 1).
Proof.
  intros Ha. destruct (list_snoc_cases a) as (l & b & ->); [destruct a; cbn in *; [lia|congruence]|].
  rewrite sval_app, app_length. cbn [length]. replace (Z.of_nat (length l + 1) - 1) with (Z.of_nat (length l)) by lia.
  pose proof (uval_range l). destruct b; cbn [b2z]; lia.
Qed.

Lemma uval_abs a : (0 < length a)%nat -> uval (to_bits (length a) (Z.abs (sval a))) = Z.abs (sval a).
Proof.
  intros Ha. rewrite uval_to_bits. apply Z.mod_small. pose proof (sval_range a Ha) as R.
  assert (2 ^ Z.of_nat (length a) = 2 * 2 ^ (Z.of_nat (length a) - 1)).
  { rewrite <- Z.pow_succ_r by lia. f_equal. lia. }
  pose proof (pow2_pos (Z.of_nat (length a) - 1) ltac:(lia)). lia.
Qed.

Lemma zipwith_select s1 s2 (l l' : list bool) : length l = length l' ->
  zipwith (fun p n => cmux s2 (cmux s1 p n) (cmux s1 n p)) l l' = if xorb s1 s2 then l' else l.
Proof.
  revert l'. induction l as [|x l IH]; destruct l' as [|y l']; cbn [length zipwith]; intros H; try lia.
  - destruct s1, s2; reflexivity.
  - rewrite IH by lia. destruct s1, s2; reflexivity.
Qed.

Lemma last_neg a : (0 < length a)%nat -> last a false = (sval a <? 0).
Proof.
  intros Ha. pose proof (uval_range a). 
  assert (Hs : sval a = uval a - (if last a false then 2 ^ Z.of_nat (length a) else 0)) by reflexivity.
  destruct (last a false); lia.
Qed.

Lemma int_mul_spec a b :
  (0 < length a)%nat -> (0 < length b)%nat ->
  append_int_multiply a b =
  if mul_ok (S (length a + length b)) (length a) (length b) then
    Ok (to_bits (length a) (sval a * sval b), to_bits (length b) (sval a * sval b / 2 ^ Z.of_nat (length a)))
  else Panic.
Proof.
  intros Ha Hb. unfold append_int_multiply. rewrite !abs_bits_correct by assumption. cbn [bind].
  rewrite mul_impl_spec by (rewrite !to_bits_length; lia). rewrite !to_bits_length, !uval_abs by assumption.
  destruct (mul_ok _ _ _); [|reflexivity]. cbn [bind].
  set (P := Z.abs (sval a) * Z.abs (sval b)).
  assert (Hn : neg_bits (to_bits (length a + length b) P) = Ok (to_bits (length a + length b) (- P))).
  { unfold neg_bits. rewrite negator_correct by (rewrite to_bits_length; lia). f_equal. rewrite to_bits_length.
    apply to_bits_eq_mod. rewrite uval_to_bits.
    pose proof (pow2_pos (Z.of_nat (length a + length b)) ltac:(lia)) as Hp.
    rewrite <- (Z.sub_0_l (P mod _)), <- (Z.sub_0_l P), Zminus_mod_idemp_r. reflexivity. }
  rewrite Hn. cbn [bind].
  rewrite zipwith_select by (now rewrite !to_bits_length).
  rewrite !last_neg by assumption.
  assert (Hr : (if xorb (sval a <? 0) (sval b <? 0) then to_bits (length a + length b) (- P)
                else to_bits (length a + length b) P) = to_bits (length a + length b) (sval a * sval b)).
  { unfold P. destruct (Z.ltb_spec (sval a) 0), (Z.ltb_spec (sval b) 0); cbn [xorb]; f_equal.
    - rewrite !Z.abs_neq by lia. lia.
    - rewrite (Z.abs_neq (sval a)), (Z.abs_eq (sval b)) by lia. lia.
    - rewrite (Z.abs_eq (sval a)), (Z.abs_neq (sval b)) by lia. lia.
    - rewrite !Z.abs_eq by lia. lia. }
  rewrite Hr, to_bits_length.
  destruct (Nat.leb_spec (length a) (length a + length b)); [|lia]. f_equal.
  rewrite to_bits_app.
  rewrite firstn_app, to_bits_length, Nat.sub_diag. cbn [firstn]. rewrite app_nil_r.
  rewrite skipn_app, to_bits_length, Nat.sub_diag. cbn [skipn].
  rewrite firstn_all2 by (rewrite to_bits_length; lia).
  rewrite skipn_all2 by (rewrite to_bits_length; lia). reflexivity.
Qed.

Lemma int_mul_total a b :
  (0 < length a)%nat -> length b = length a ->
  ~ (exists d, (1 <= d)%nat /\ (16 * 2 ^ d < length a < 17 * 2 ^ d)%nat) ->
  append_int_multiply a b =
    Ok (to_bits (length a) (sval a * sval b), to_bits (length a) (sval a * sval b / 2 ^ Z.of_nat (length a))).
Proof.
  intros Ha Hb Hbad. rewrite int_mul_spec by lia. rewrite Hb.
  destruct (mul_ok_char (length a)) as [H0 _]. specialize (H0 (S (length a + length a)) ltac:(lia) Ha).
  destruct (mul_ok (S (length a + length a)) (length a) (length a)) eqn:E; [reflexivity|].
  exfalso. assert (true <> true); [|congruence]. apply H0 in Hbad. discriminate.
Qed.
