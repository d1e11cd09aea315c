(** A library of mux circuits that satisfies [lib_ok]: Shannon expansion of each output, then the code's own conversion from decision
    diagrams. It shows that the hypothesis of the theorems about the fluent API can be met. *)
From Verif Require Import Base BitsLemmas Graph MuxGraph SpecMux MuxGraphProofs2 Circuits FheGraph SpecFhe FheProofs5 FluentInt Fluent SpecFluent Spec Props_Circuits.
Ltac Zify.zify_post_hook ::= idtac.
Open Scope nat_scope.

(** ** Shannon expansion *)
Fixpoint shannon (j v : nat) (f : list bool -> bool) (d : bdd) : nat * bdd :=
  match j with
  | O => (if f [] then 1 else 0, d)
  | S j =>
      let '(lo, d) := shannon j (S v) (fun l => f (false :: l)) d in
      let '(hi, d) := shannon j (S v) (fun l => f (true :: l)) d in
      if lo =? hi then (lo, d) else (length d, d ++ [(v, lo, hi)])
  end.
Definition bdd_of (nv : nat) (f : list bool -> bool) : bdd :=
  let '(r, d) := shannon nv 0 f [(nv, 0, 0); (nv, 1, 1)] in
  if r =? 0 then [(nv, 0, 0)] else d.

Lemma bdd_node_ext : forall nv d ext ins, bdd_wf nv d -> forall fuel fuel' k, k < length d -> k <= fuel -> k <= fuel' -> bdd_node fuel d ins k = bdd_node fuel' (d ++ ext) ins k.
Proof.
  intros nv d ext ins [_ W]. induction fuel as [|fuel IH]; intros fuel' k K F F'.
  - assert (k = 0) as -> by lia. now destruct fuel'.
  - destruct k as [|[|k]]; [now destruct fuel'|now destruct fuel'|]. destruct fuel' as [|fuel']; [lia|]. cbn [bdd_node]. rewrite nth_error_app1 by auto.
    destruct (nth_error d (S (S k))) as [[[v lo] hi]|] eqn:E; [|reflexivity]. destruct (W _ _ _ _ E) as (V & Lo & Hi & _).
    rewrite (IH fuel' lo), (IH fuel' hi) by lia. reflexivity.
Qed.
Lemma bdd_wf_snoc : forall nv d v lo hi, bdd_wf nv d -> 2 <= length d -> v < nv -> lo < length d -> hi < length d -> lo <> hi -> bdd_wf nv (d ++ [(v, lo, hi)]).
Proof.
  intros nv d v lo hi [NE W] L V Lo Hi N. split; [now destruct d|]. intros k v' lo' hi' E. destruct (Nat.lt_ge_cases k (length d)) as [K|K].
  - rewrite nth_error_app1 in E by auto. exact (W _ _ _ _ E).
  - rewrite nth_error_app2 in E by auto. destruct (k - length d) as [|x] eqn:Ex; [|destruct x; discriminate]. cbn in E. injection E as <- <- <-. assert (k = length d) as -> by lia.
    destruct (length d) as [|[|n]] eqn:El; try lia; auto.
Qed.
Lemma bdd_node_step : forall fuel d ins k, bdd_node (S fuel) d ins (S (S k)) = match nth_error d (S (S k)) with Some (v, lo, hi) => if nth v ins false then bdd_node fuel d ins hi else bdd_node fuel d ins lo | None => false end.
Proof. reflexivity. Qed.
Lemma shannon_ok : forall nv j v f d r d', shannon j v f d = (r, d') -> v + j = nv -> bdd_wf nv d -> 2 <= length d ->
  bdd_wf nv d' /\ (exists ext, d' = d ++ ext) /\ r < length d' /\ (r <= 1 /\ d' = d \/ length d <= r /\ r = length d' - 1) /\
  forall ins, length ins = nv -> bdd_node r d' ins r = f (skipn v ins).
Proof.
  intros nv. induction j as [|j IH]; intros v f d r d' E V W LD; cbn [shannon] in E.
  - injection E as <- <-. split; [auto|]. split; [exists []; now rewrite app_nil_r|]. split; [destruct (f []); lia|]. split; [left; split; [destruct (f []); lia|auto]|].
    intros ins LI. rewrite skipn_all2 by lia. now destruct (f []).
  - destruct (shannon j (S v) (fun l => f (false :: l)) d) as [lo d1] eqn:E1. destruct (shannon j (S v) (fun l => f (true :: l)) d1) as [hi d2] eqn:E2.
    destruct (IH _ _ _ _ _ E1) as (W1 & (x1 & X1) & R1 & S1 & V1); auto; try lia.
    assert (LD1 : length d <= length d1) by (rewrite X1, app_length; lia).
    destruct (IH _ _ _ _ _ E2) as (W2 & (x2 & X2) & R2 & S2 & V2); auto; try lia.
    assert (LD2 : length d1 <= length d2) by (rewrite X2, app_length; lia).
    assert (SK : forall ins, length ins = nv -> skipn v ins = nth v ins false :: skipn (S v) ins).
    { intros ins LI. clear - LI V. assert (HV : v < length ins) by lia. clear LI V. revert v HV. induction ins as [|b ins IHi]; intros [|v] HV; cbn [length] in HV; try lia; [reflexivity|]. cbn [skipn nth]. rewrite IHi by lia. reflexivity. }
    assert (VL : forall ins, length ins = nv -> bdd_node lo d2 ins lo = f (false :: skipn (S v) ins)).
    { intros ins LI. rewrite <- V1 by auto. symmetry. rewrite X2. apply (bdd_node_ext nv); auto. }
    destruct (Nat.eqb_spec lo hi) as [Q|Q]; injection E as <- <-.
    + split; [auto|]. split; [exists (x1 ++ x2); rewrite X2, X1, app_assoc; reflexivity|]. split; [lia|].
      assert (D : d2 = d /\ lo <= 1). { destruct S1 as [[A ->]|[A B]], S2 as [[A' ->]|[A' B']]; try lia. auto. } destruct D as [D Lo]. split; [left; auto|].
      intros ins LI. rewrite SK by auto. pose proof (VL ins LI) as P1. pose proof (V2 ins LI) as P2. rewrite <- Q in P2. rewrite P1 in P2. destruct (nth v ins false); [rewrite P1; exact P2|exact P1].
    + split; [apply bdd_wf_snoc; auto; lia|]. split; [exists (x1 ++ x2 ++ [(v, lo, hi)]); rewrite X2, X1, <- !app_assoc; reflexivity|]. rewrite app_length. cbn [length]. split; [lia|]. split; [right; lia|].
      intros ins LI. rewrite SK by auto. destruct (length d2) as [|[|k]] eqn:Ek; try lia.
      rewrite bdd_node_step. rewrite nth_error_app2 by lia. rewrite Ek, Nat.sub_diag. cbn [nth_error].
      destruct (nth v ins false).
      * rewrite <- V2 by auto. symmetry. apply (bdd_node_ext nv); auto; lia.
      * rewrite <- VL by auto. symmetry. apply (bdd_node_ext nv); auto; lia.
Qed.
Lemma bdd_of_ok : forall nv f, bdd_wf nv (bdd_of nv f) /\ forall ins, length ins = nv -> bdd_value (bdd_of nv f) ins = f ins.
Proof.
  intros nv f. unfold bdd_of. destruct (shannon nv 0 f _) as [r d] eqn:E.
  assert (W0 : bdd_wf nv [(nv, 0, 0); (nv, 1, 1)]).
  { split; [discriminate|]. intros [|[|k]] v lo hi H; cbn in H; [injection H as <- <- <-; auto|injection H as <- <- <-; auto|destruct k; discriminate]. }
  destruct (shannon_ok nv _ _ _ _ _ _ E eq_refl W0 (le_n 2)) as (W & _ & R & S & V). destruct (Nat.eqb_spec r 0) as [->|N].
  - split.
    + split; [discriminate|]. intros [|k] v lo hi H; cbn in H; [injection H as <- <- <-; auto|destruct k; discriminate].
    + intros ins LI. pose proof (V ins LI) as VI; cbn [skipn] in VI; rewrite <- VI. reflexivity.
  - split; [auto|]. intros ins LI. pose proof (V ins LI) as VI; cbn [skipn] in VI; rewrite <- VI. unfold bdd_value. assert (K : length d - 1 = r) by (destruct S as [[A ->]|[A B]]; [cbn [length] in *; lia|lia]). rewrite K.
    pose proof (bdd_node_ext nv d [] ins W (length d) r r) as Q. rewrite app_nil_r in Q. apply Q; lia.
Qed.

(** ** The number of outputs of each builder's circuit *)
Definition out_len (b : blk) : nat :=
  match b with
  | BAdd n m => Nat.max m n + 1 | BSub n => n + 1 | BNeg n => n | BAnd n => n | BCmp _ _ _ _ | BEq _ | BNeq _ => 1
  | BMul n m | BReduce n m => n + m
  end.
Lemma rca_both_len : forall v off k i c, length (fst (rca_both v off i k c)) = k.
Proof. intros v off. induction k as [|k IH]; intros i c; cbn [rca_both]; [reflexivity|]. specialize (IH (S i) ((xorb (var v (off + 2 * i)) (var v (off + 2 * i + 1)) && c) || (var v (off + 2 * i) && var v (off + 2 * i + 1)))). destruct (rca_both _ _ _ _ _). cbn in *. congruence. Qed.
Lemma rca_rest_len : forall v base k i c, length (fst (rca_rest v base i k c)) = k.
Proof. intros v base. induction k as [|k IH]; intros i c; cbn [rca_rest]; [reflexivity|]. specialize (IH (S i) (var v (base + i) && c)). destruct (rca_rest _ _ _ _ _). cbn in *. congruence. Qed.
Lemma fs_loop_len : forall v off k i c, length (fst (fs_loop v off i k c)) = k.
Proof. intros v off. induction k as [|k IH]; intros i c; cbn [fs_loop]; [reflexivity|]. match goal with |- context [fs_loop v off (S i) k ?x] => specialize (IH (S i) x); destruct (fs_loop v off (S i) k x) end. cbn in *. congruence. Qed.
Lemma neg_loop_len : forall v k i c, length (neg_loop v i k c) = k.
Proof. intros v. induction k as [|k IH]; intros i c; cbn [neg_loop length]; congruence. Qed.
Lemma gs2_len : forall v off k i c, length (fst (gs_sec2 v off i k c)) = k.
Proof. intros v off. induction k as [|k IH]; intros i [[c0 c1] c2]; cbn [gs_sec2]; [reflexivity|]. match goal with |- context [gs_sec2 v off (S i) k ?x] => specialize (IH (S i) x); destruct (gs_sec2 v off (S i) k x) end. cbn in *. congruence. Qed.
Lemma gs34_len : forall v off k i c, length (fst (gs_sec34 v off i k c)) = k.
Proof. intros v off. induction k as [|k IH]; intros i [[c0 c1] c2]; cbn [gs_sec34]; [reflexivity|]. match goal with |- context [gs_sec34 v off (S i) k ?x] => specialize (IH (S i) x); destruct (gs_sec34 v off (S i) k x) end. cbn in *. congruence. Qed.
Lemma gs5_len : forall v off k i c, length (fst (gs_sec5 v off i k c)) = k.
Proof. intros v off. induction k as [|k IH]; intros i [[c0 c1] c2]; cbn [gs_sec5]; [reflexivity|]. match goal with |- context [gs_sec5 v off (S i) k ?x] => specialize (IH (S i) x); destruct (gs_sec5 v off (S i) k x) end. cbn in *. congruence. Qed.
Lemma gs6_len : forall v off k i c, length (gs_sec6 v off i k c) = k.
Proof. intros v off. induction k as [|k IH]; intros i [[c0 c1] c2]; cbn [gs_sec6]; [reflexivity|]. destruct i as [|[|i]]; cbn [length]; now rewrite IH. Qed.
Lemma partition_sum : forall n, fst (partition_integer n) + snd (partition_integer n) = n.
Proof. intros n. unfold partition_integer. destruct (n <=? CIRCUIT_CUTOFF); cbn [fst snd]; [lia|]. pose proof (Nat.div_le_upper_bound n 2 n). lia. Qed.
Lemma out_len_ok : forall b c, builder b = Ok c -> forall v, length v = c_arity c -> length (c_fn c v) = out_len b.
Proof.
  intros b c B v LV. destruct b; cbn [builder out_len] in *.
  - unfold ripple_carry_adder in B. destruct (_ || _); [discriminate|]. injection B as <-. cbn [c_fn]. pose proof (rca_both_len v 0 (Nat.min m n) 0 false) as Q1. destruct (rca_both _ _ _ _ _) as [s1 c1].
    pose proof (rca_rest_len v (2 * Nat.min m n + 0) (Nat.max m n - Nat.min m n) 0 c1) as Q2. destruct (rca_rest _ _ _ _ _) as [s2 c2]. cbn [fst] in *. rewrite !app_length. cbn [length]. lia.
  - unfold full_subtractor in B. destruct (_ =? _); [discriminate|]. injection B as <-. cbn [c_fn]. pose proof (fs_loop_len v 0 n 0 false) as Q1. destruct (fs_loop _ _ _ _ _) as [s1 c1]. cbn [fst] in *. rewrite app_length. cbn [length]. lia.
  - unfold negator in B. destruct (_ =? _); [discriminate|]. injection B as <-. cbn [c_fn]. apply neg_loop_len.
  - injection B as <-. cbn [c_fn make_and_circuit]. now rewrite map_length, seq_length.
  - destruct sg; cbn in B; [unfold compare_or_maybe_equal in B|unfold compare_or_maybe_equal_signed in B]; (destruct (_ =? _); [discriminate|]; injection B as <-; reflexivity).
  - unfold compare_equal in B. destruct (_ =? _); [discriminate|]. now injection B as <-.
  - unfold compare_not_equal in B. destruct (_ =? _); [discriminate|]. now injection B as <-.
  - assert (0 < n /\ 0 < m /\ c_arity c = n + m) as (Hn & Hm & A).
    { unfold unsigned_multiplier in B. destruct (Nat.eqb_spec n 0), (Nat.eqb_spec m 0); cbn [orb] in B; try discriminate. injection B as <-. cbn. lia. }
    rewrite A in LV. pose proof (multiplier_multiplies (firstn n v) (skipn n v)) as Q. rewrite firstn_length, skipn_length, firstn_skipn in Q. replace (Nat.min n (length v)) with n in Q by lia. replace (length v - n) with m in Q by lia.
    specialize (Q Hn Hm). rewrite B in Q. cbn [run_res bind] in Q. unfold run_circuit in Q. destruct (_ =? _); [|discriminate]. injection Q as ->. apply to_bits_length.
  - unfold gradeschool_reduce in B. destruct (negb (m <=? n)); [discriminate|]. pose proof (partition_sum n) as Pn. pose proof (partition_sum m) as Pm.
    destruct (partition_integer n) as [a_lo a_hi]. destruct (partition_integer m) as [b_lo b_hi]. cbn [fst snd] in *.
    destruct (Nat.ltb_spec a_lo b_lo), (Nat.ltb_spec a_hi b_hi); cbn [orb] in B; try discriminate. injection B as <-. cbn [c_fn].
    match goal with |- context [gs_sec2 v ?o ?i ?k ?c] => pose proof (gs2_len v o k i c) as Q2; destruct (gs_sec2 v o i k c) as [s2 c2] end.
    match goal with |- context [gs_sec34 v ?o ?i ?k ?c] => pose proof (gs34_len v o k i c) as Q3; destruct (gs_sec34 v o i k c) as [s3 c3] end.
    match goal with |- context [gs_sec5 v ?o ?i ?k ?c] => pose proof (gs5_len v o k i c) as Q5; destruct (gs_sec5 v o i k c) as [s5 c5] end.
    cbn [fst] in *. rewrite !app_length, map_length, seq_length, gs6_len. lia.
Qed.
Lemma out_len_zero : forall b c, builder b = Ok c -> out_len b = 0 -> c_arity c = 0.
Proof.
  intros b c B Z. destruct b; cbn [builder out_len] in *; try lia.
  - unfold negator in B. destruct (Nat.eqb_spec n 0); [discriminate|lia].
  - injection B as <-. cbn. lia.
  - unfold unsigned_multiplier in B. destruct (Nat.eqb_spec n 0), (Nat.eqb_spec m 0); cbn [orb] in B; try discriminate; lia.
  - assert (n = 0) as -> by lia. assert (m = 0) as -> by lia. now injection B as <-.
Qed.

(** ** The library *)
Definition compile (k : nat) (c : circuit) : res (mgraph * list nat) :=
  match k with
  | O => Ok (gempty, [])
  | _ => from_bdds (map (fun o => bdd_of (c_arity c) (fun v => nth o (c_fn c v) false)) (seq 0 k))
  end.
Definition shannon_lib (b : blk) : res (mgraph * list nat) := match builder b with Ok c => compile (out_len b) c | _ => Panic end.
Theorem shannon_lib_ok : lib_ok shannon_lib.
Proof.
  intros b. unfold shannon_lib. destruct (builder b) as [c| |] eqn:B; auto. pose proof (out_len_ok b c B) as LO. unfold compile. destruct (out_len b) as [|k'] eqn:Ek.
  - exists gempty, []. split; [reflexivity|]. assert (NN : forall n, @node muxop medge gempty n = None) by (intros [|n]; reflexivity). constructor.
    + constructor; cbn [gempty gedges]; try (intros; contradiction).
      * constructor.
      * intros n N. rewrite NN in N. discriminate.
      * intros n i N. rewrite NN in N. discriminate.
      * auto.
      * exists (fun n => n). intros s t l [].
    + symmetry. now apply (out_len_zero b).
    + exists 0. split.
      * constructor.
        -- intros n x. rewrite NN. destruct x; cbn; split; congruence.
        -- intros s t l [].
        -- intros o. split; [lia|]. intros [n N]. rewrite NN in N. discriminate.
        -- intros n n' o N. rewrite NN in N. discriminate.
      * intros v LV. split; [now rewrite LO|]. intros n o N. rewrite NN in N. discriminate.
  - set (k := S k') in *. set (ds := map _ _). assert (NE : ds <> []) by discriminate. assert (LD : length ds = k) by (unfold ds; now rewrite map_length, seq_length).
    assert (FW : Forall (bdd_wf (c_arity c)) ds) by (apply Forall_forall; intros d Hd; apply in_map_iff in Hd; destruct Hd as (o & <- & _); apply bdd_of_ok).
    destruct (from_bdds_ok (c_arity c) ds NE FW) as (g & inputs & E & W & LI & I & O & OB). exists g, inputs. split; [exact E|]. constructor; [exact W|exact LI|].
    exists k. split; [rewrite <- LD; eapply from_bdds_shaped; eauto|]. intros v LV. split; [now rewrite LO|]. intros n o N. pose proof (OB n o N) as Ho. rewrite LD in Ho.
    assert (Ed : nth_error ds o = Some (bdd_of (c_arity c) (fun v => nth o (c_fn c v) false))).
    { unfold ds. erewrite map_nth_error; [reflexivity|]. rewrite (nth_error_nth' _ 0) by (rewrite seq_length; auto). now rewrite seq_nth. }
    destruct (O o _ Ed) as (n' & N' & V & U). rewrite (U n N). rewrite <- (proj2 (bdd_of_ok (c_arity c) (fun v => nth o (c_fn c v) false)) v LV). now apply V.
Qed.
