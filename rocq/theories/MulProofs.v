(** Lemmas about the array multiplier, the grade-school reduction and the recursive multiplier. *)
From Verif Require Import Base Spec BitsLemmas Combos Circuits CircuitsProofs ShiftProofs.
From Coq Require Import ZifyBool ZifyNat.
Ltac Zify.zify_post_hook ::= Z.div_mod_to_equations.

(** ** The duplicated variable stream *)

Definition swap (p : nat * nat) : nat * nat := (snd p, fst p).

Lemma enc_inner_dec_inner_0 n m row : forall fuel i,
  (0 < n)%nat ->
  map swap (enc_inner n m row 0 i fuel) = dec_inner m row (n - 1) i fuel.
Proof.
  induction fuel as [|f IH]; intros i Hn; cbn [enc_inner dec_inner]; [reflexivity|].
  replace ((n - 1 <? i)%nat || (m <=? row + i)%nat) with ((m <=? row + i)%nat || (n <=? 0 + i)%nat) by lia.
  destruct ((m <=? row + i)%nat || (n <=? 0 + i)%nat) eqn:E; [reflexivity|].
  cbn [map]. rewrite IH by exact Hn. unfold swap. cbn [fst snd]. f_equal. f_equal. lia.
Qed.

Lemma enc_inner_dec_inner_1 n m d : forall fuel i,
  (0 < d)%nat -> (d <= n)%nat ->
  map swap (enc_inner n m 0 (n - d) i fuel) = dec_inner m 0 (d - 1) i fuel.
Proof.
  induction fuel as [|f IH]; intros i Hd Hn; cbn [enc_inner dec_inner]; [reflexivity|].
  replace ((d - 1 <? i)%nat || (m <=? 0 + i)%nat) with ((m <=? 0 + i)%nat || (n <=? n - d + i)%nat) by lia.
  destruct ((m <=? 0 + i)%nat || (n <=? n - d + i)%nat) eqn:E; [reflexivity|].
  cbn [map]. rewrite IH by lia. unfold swap. cbn [fst snd]. f_equal. f_equal. lia.
Qed.

Lemma enc_dec_low n m : forall d fuel,
  (0 < d)%nat -> (d <= n)%nat -> (d <= fuel)%nat ->
  map swap (enc_diags n m d) = dec_outer n m 0 (d - 1) fuel.
Proof.
  induction d as [|d IH]; intros fuel Hd Hn Hf; [lia|].
  destruct fuel as [|f]; [lia|]. cbn [enc_diags dec_outer].
  destruct (Nat.ltb_spec n (S d)); [lia|]. rewrite map_app, enc_inner_dec_inner_1 by lia.
  replace (S d - 1)%nat with d by lia. destruct d as [|d]; [reflexivity|].
  rewrite (IH f) by lia. replace (S d - 1)%nat with d by lia. reflexivity.
Qed.

Lemma enc_dec n m : forall r fuel,
  (0 < n)%nat -> (n + r <= fuel)%nat ->
  map swap (enc_diags n m (n + r)) = dec_outer n m r (n - 1) fuel.
Proof.
  induction r as [|r IH]; intros fuel Hn Hf.
  - rewrite Nat.add_0_r. apply enc_dec_low; lia.
  - destruct fuel as [|f]; [lia|]. replace (n + S r)%nat with (S (n + r)) by lia.
    cbn [enc_diags dec_outer]. destruct (Nat.ltb_spec n (S (n + r))); [|lia].
    rewrite map_app. replace (S (n + r) - n)%nat with (S r) by lia.
    rewrite enc_inner_dec_inner_0 by exact Hn. rewrite (IH f) by lia. reflexivity.
Qed.

(** Every cell is visited. *)
Lemma dec_inner_in m sr sc : forall fuel i j,
  (i <= j)%nat -> (j < i + fuel)%nat -> (j <= sc)%nat -> (sr + j < m)%nat ->
  In (sr + j, sc - j)%nat (dec_inner m sr sc i fuel).
Proof.
  induction fuel as [|f IH]; intros i j H1 H2 H3 H4; [lia|]. cbn [dec_inner].
  destruct (Nat.ltb_spec sc i); [lia|]. destruct (Nat.leb_spec m (sr + i)); [lia|]. cbn [orb].
  destruct (Nat.eq_dec i j) as [->|Hne]; [now left|]. right. apply IH; lia.
Qed.

Lemma dec_outer_in_col n m : forall sc fuel c j,
  (c <= sc)%nat -> (sc < fuel)%nat -> (j <= c)%nat -> (j < m)%nat -> (c < n)%nat ->
  In (j, c - j)%nat (dec_outer n m 0 sc fuel).
Proof.
  induction sc as [|sc IH]; intros fuel c j H1 H2 H3 H4 H5; (destruct fuel as [|f]; [lia|]); cbn [dec_outer];
    apply in_or_app.
  - left. replace c with 0%nat by lia. apply (dec_inner_in m 0 0 (n + m) 0 j); lia.
  - destruct (Nat.eq_dec c (S sc)) as [->|Hne].
    + left. apply (dec_inner_in m 0 (S sc) (n + m) 0 j); lia.
    + right. apply IH; lia.
Qed.

Lemma dec_outer_in n m : forall sr fuel r c,
  (0 < n)%nat -> (sr + n <= fuel)%nat -> (sr < m)%nat -> (r < m)%nat -> (c < n)%nat -> (r + c <= sr + (n - 1))%nat ->
  In (r, c) (dec_outer n m sr (n - 1) fuel).
Proof.
  induction sr as [|sr IH]; intros fuel r c Hn Hf Hm Hr Hc Hle.
  - replace (r, c) with (r, r + c - r)%nat by (f_equal; lia). apply dec_outer_in_col; lia.
  - destruct fuel as [|f]; [lia|]. cbn [dec_outer]. apply in_or_app.
    destruct (Nat.eq_dec (r + c) (S sr + (n - 1))) as [He|Hne].
    + left. replace (r, c) with (S sr + (n - 1 - c), n - 1 - (n - 1 - c))%nat by (f_equal; lia).
      apply dec_inner_in; lia.
    + right. apply IH; lia.
Qed.

Lemma dec_write_spec (X Y : nat -> bool) : forall cs xy r c,
  In (r, c) cs \/ (fst xy r c = X c /\ snd xy r c = Y r) ->
  let '(x, y) := dec_write cs (flat_map (fun '(r, c) => [X c; Y r]) cs) xy in
  x r c = X c /\ y r c = Y r.
Proof.
  induction cs as [|[r0 c0] cs IH]; intros [x y] r c H; cbn [flat_map dec_write app fst snd] in *.
  - destruct H as [[]|H]. exact H.
  - apply IH. cbn [fst snd]. destruct (Nat.eqb_spec r r0) as [->|Hr]; [destruct (Nat.eqb_spec c c0) as [->|Hc]|].
    + right. split; reflexivity.
    + cbn [andb]. destruct H as [[He|H]|H]; [congruence|now left|now right].
    + cbn [andb]. destruct H as [[He|H]|H]; [congruence|now left|now right].
Qed.

Lemma mul_decode_encode x y n m :
  length x = n -> length y = m -> (0 < n)%nat -> (0 < m)%nat ->
  let '(dx, dy) := mul_bdd_decode (mul_bdd_encode x y) n m in
  forall r c, (r < m)%nat -> (c < n)%nat -> dx r c = nth c x false /\ dy r c = nth r y false.
Proof.
  intros Hx Hy Hn Hm. unfold mul_bdd_decode, mul_bdd_encode. rewrite Hx, Hy.
  set (z := nth 0 _ false).
  assert (Hs : flat_map (fun '(ix, iy) => [nth ix x false; nth iy y false]) (enc_diags n m (n + m - 1)) =
               flat_map (fun '(r, c) => [nth c x false; nth r y false]) (dec_outer n m (m - 1) (n - 1) (n + m))).
  { replace (n + m - 1)%nat with (n + (m - 1))%nat by lia.
    rewrite <- (enc_dec n m (m - 1) (n + m)) by lia.
    induction (enc_diags n m (n + (m - 1))) as [|[ix iy] l IH]; [reflexivity|].
    cbn [flat_map map swap fst snd app]. now rewrite IH. }
  rewrite Hs.
  set (cs := dec_outer n m (m - 1) (n - 1) (n + m)).
  pose proof (dec_write_spec (fun c => nth c x false) (fun r => nth r y false) cs ((fun _ _ => z), (fun _ _ => z))) as H.
  destruct (dec_write cs _ _) as [dx dy]. intros r c Hr Hc. apply H. left.
  apply dec_outer_in; lia.
Qed.

(** ** The array multiplier *)

Lemma mul_row_spec n ands_i prev pc :
  length prev = n -> (0 < n)%nat -> forall k j c,
  (j + k = n)%nat ->
  let '(l, c') := mul_row n ands_i prev pc j k c in
  length l = k /\
  uval l + 2 ^ Z.of_nat k * b2z c' =
    uval (map ands_i (seq j k)) + uval (map (fun t => nth t (tl prev ++ [pc]) false) (seq j k)) + b2z c.
Proof.
  intros Hp Hn. induction k as [|k IH]; intros j c Hj; cbn [mul_row].
  - base0.
  - set (b := if (j <? n - 1)%nat then nth (j + 1) prev false else pc).
    assert (Hb : b = nth j (tl prev ++ [pc]) false).
    { unfold b. destruct prev as [|p0 prev]; [cbn in Hp; lia|]. cbn [tl length] in *.
      destruct (Nat.ltb_spec j (n - 1)).
      - rewrite app_nth1 by lia. replace (j + 1)%nat with (S j) by lia. reflexivity.
      - rewrite app_nth2 by lia. replace (j - length prev)%nat with 0%nat by lia. reflexivity. }
    set (a := ands_i j).
    specialize (IH (S j) (xorb a b && c || b && a) ltac:(lia)).
    destruct (mul_row n ands_i prev pc (S j) k (xorb a b && c || b && a)) as [l c'].
    destruct IH as [IHl IHv]. split; [cbn [length]; lia|].
    cbn [uval seq map]. rewrite <- Hb. fold a. rewrite pow2_S.
    destruct a, b, c, c'; cbn [xorb andb orb b2z] in *; lia.
Qed.

Lemma mul_rows_spec n ands x Y :
  length x = n -> (0 < n)%nat -> (forall i, Y i = true -> map (ands i) (seq 0 n) = x) ->
  (forall i, Y i = false -> uval (map (ands i) (seq 0 n)) = 0) ->
  forall k i prev pc,
  length prev = n ->
  let '(lows, last_row, lc) := mul_rows n ands i k prev pc in
  length lows = k /\ length last_row = n /\
  uval (lows ++ last_row ++ [lc]) = uval prev + 2 ^ Z.of_nat n * b2z pc + 2 * uval x * uval (map Y (seq i k)).
Proof.
  intros Hx Hn HY1 HY0. induction k as [|k IH]; intros i prev pc Hp; cbn [mul_rows].
  - cbn [app length seq map uval]. rewrite uval_app, Hp. cbn [uval]. repeat split; lia.
  - pose proof (mul_row_spec n (ands i) prev pc Hp Hn n 0 false ltac:(lia)) as Hr.
    destruct (mul_row n (ands i) prev pc 0 n false) as [row c]. destruct Hr as [Hrl Hrv].
    specialize (IH (S i) row c Hrl).
    destruct (mul_rows n ands (S i) k row c) as [[lows last_row] lc]. destruct IH as (IH1 & IH2 & IH3).
    cbn [length app uval seq map]. repeat split; [lia|lia|].
    rewrite IH3. clear IH3.
    assert (Ha : uval (map (ands i) (seq 0 n)) = uval x * b2z (Y i)).
    { destruct (Y i) eqn:E; cbn [b2z]; [rewrite HY1 by exact E; lia|rewrite HY0 by exact E; lia]. }
    rewrite Ha in Hrv. clear Ha.
    assert (Hb : uval prev + 2 ^ Z.of_nat n * b2z pc =
                 b2z (nth 0 prev false) + 2 * uval (map (fun t => nth t (tl prev ++ [pc]) false) (seq 0 n))).
    { destruct prev as [|p0 prev]; [cbn in Hp; lia|]. cbn [tl nth].
      replace (map (fun t => nth t (prev ++ [pc]) false) (seq 0 n)) with (prev ++ [pc]).
      - cbn [length] in Hp. rewrite uval_app. cbn [uval]. rewrite <- Hp, pow2_S. lia.
      - symmetry. apply map_seq_from; [rewrite app_length; cbn in *; lia|]. reflexivity. }
    cbn [b2z] in Hrv. nia.
Qed.

Lemma multiplier_correct a b :
  (0 < length a)%nat -> (0 < length b)%nat ->
  run_res (unsigned_multiplier (length a) (length b)) (a ++ b)
  = Ok (to_bits (length a + length b) (uval a * uval b)).
Proof.
  intros Ha Hb. unfold run_res, unsigned_multiplier.
  destruct (Nat.eqb_spec (length a) 0) as [Hz|Hz]; [lia|]. destruct (Nat.eqb_spec (length b) 0) as [Hz2|Hz2]; [lia|].
  cbn [orb bind]. unfold run_circuit. cbn [c_arity c_fn]. rewrite app_length, Nat.eqb_refl. f_equal.
  rewrite firstn_app, Nat.sub_diag, firstn_all, app_nil_r.
  rewrite skipn_app, Nat.sub_diag, skipn_all. cbn [skipn firstn app].
  unfold multiplier_bdd.
  pose proof (mul_decode_encode a b (length a) (length b) eq_refl eq_refl Ha Hb) as Hd.
  destruct (mul_bdd_decode (mul_bdd_encode a b) (length a) (length b)) as [dx dy].
  cbv zeta. set (n := length a) in *. set (m := length b) in *.
  set (ands := fun r c => dx r c && dy r c) in *.
  (* replace ands by its intended value on the cells in range *)
  assert (Hand : forall r, (r < m)%nat -> map (ands r) (seq 0 n) = map (fun c => nth c a false && nth r b false) (seq 0 n)).
  { intros r Hr. apply map_ext_in. intros c Hc. apply in_seq in Hc. destruct (Hd r c Hr ltac:(lia)) as [E1 E2].
    unfold ands. now rewrite E1, E2. }
  set (ands' := fun r c => nth c a false && nth r b false).
  assert (Hrow : forall i prev pc k j c, (i < m)%nat -> (j + k <= n)%nat ->
      mul_row n (ands i) prev pc j k c = mul_row n (ands' i) prev pc j k c).
  { intros i prev pc. induction k as [|k IH]; intros j c Hi Hj; cbn [mul_row]; [reflexivity|].
    assert (E : ands i j = ands' i j).
    { destruct (Hd i j Hi ltac:(lia)) as [E1 E2]. unfold ands, ands'. now rewrite E1, E2. }
    rewrite E. rewrite IH by lia. reflexivity. }
  assert (Hrows : forall k i prev pc, (i + k <= m)%nat -> mul_rows n ands i k prev pc = mul_rows n ands' i k prev pc).
  { induction k as [|k IH]; intros i prev pc Hi; cbn [mul_rows]; [reflexivity|].
    rewrite Hrow by lia. destruct (mul_row n (ands' i) prev pc 0 n false) as [row c]. now rewrite IH by lia. }
  rewrite Hrows by lia. change (fun c => dx 0%nat c && dy 0%nat c) with (ands 0%nat). rewrite (Hand 0%nat) by lia.
  change (map (fun c => nth c a false && nth 0 b false) (seq 0 n)) with (map (ands' 0%nat) (seq 0 n)).
  assert (H1 : forall i, nth i b false = true -> map (ands' i) (seq 0 n) = a).
  { intros i E. unfold ands'. apply map_seq_from; [reflexivity|]. intros j Hj. rewrite E. apply andb_true_r. }
  assert (H0 : forall i, nth i b false = false -> uval (map (ands' i) (seq 0 n)) = 0).
  { intros i E. unfold ands'. rewrite E. rewrite <- (uval_repeat_false n). f_equal.
    apply map_seq_from; [apply repeat_length|]. intros j Hj. rewrite andb_false_r.
    symmetry. apply nth_repeat. }
  pose proof (mul_rows_spec n ands' a (fun i => nth i b false) eq_refl Ha H1 H0 (m - 1) 1
                (map (ands' 0%nat) (seq 0 n)) false ltac:(rewrite map_length, seq_length; reflexivity)) as Hm.
  destruct (mul_rows n ands' 1 (m - 1) (map (ands' 0%nat) (seq 0 n)) false) as [[lows last_row] lc].
  destruct Hm as (Hl1 & Hl2 & Hv).
  apply bits_eq.
  - rewrite !app_length, Hl1, Hl2. cbn [length]. lia.
  - exists 0. rewrite Hv.
    assert (E0 : uval (map (ands' 0%nat) (seq 0 n)) = uval a * b2z (nth 0 b false)).
    { destruct (nth 0 b false) eqn:E; cbn [b2z]; [rewrite H1 by exact E|rewrite H0 by exact E]; lia. }
    rewrite E0.
    assert (Eb : uval b = b2z (nth 0 b false) + 2 * uval (map (fun i => nth i b false) (seq 1 (m - 1)))).
    { destruct b as [|b0 b']; [cbn in Hb; lia|]. cbn [nth uval]. f_equal. f_equal. f_equal. symmetry.
      apply map_seq_from; [cbn [length] in *; unfold m; lia|]. intros j Hj. reflexivity. }
    rewrite Eb. cbn [b2z]. nia.
Qed.
