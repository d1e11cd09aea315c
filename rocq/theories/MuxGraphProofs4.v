(** Proofs: compacting the node indices and recomputing the input list. *)
From Coq Require Import ZifyBool ZifyNat Permutation Sorted.
From Verif Require Import Base Graph MuxGraph SpecMux MuxGraphProofs MuxGraphProofs2 MuxGraphProofs3.
Open Scope nat_scope.

Definition opt_list {A} (o : option A) : list A := match o with Some w => [w] | None => [] end.

Lemma compact_index_firstn : forall (g : mgraph) n, n <= length (gnodes g) -> compact_index g n = length (flat_map opt_list (firstn n (gnodes g))).
Proof.
  intros g. unfold compact_index. induction n as [|n IH]; intros H; [reflexivity|].
  rewrite seq_S, filter_app, app_length, IH by lia. cbn [filter Nat.add].
  destruct (nth_error (gnodes g) n) as [o|] eqn:E.
  2:{ apply nth_error_None in E. lia. }
  assert (F : firstn (S n) (gnodes g) = firstn n (gnodes g) ++ [o]).
  { clear - E. revert n E. generalize (gnodes g). induction l as [|x l IH]; intros n E; [destruct n; discriminate|].
    destruct n; cbn in E |- *; [congruence|]. f_equal. exact (IH n E). }
  rewrite F, flat_map_app, app_length. f_equal. unfold contains, node. rewrite E. destruct o; reflexivity.
Qed.

Lemma compact_node : forall g n w, node g n = Some w -> node (compact g) (compact_index g n) = Some w.
Proof.
  intros g n w H. apply node_lt in H as L. rewrite compact_index_firstn by lia. unfold node in *. cbn [compact gnodes].
  destruct (nth_error (gnodes g) n) as [[w'|]|] eqn:E; try discriminate. injection H as ->.
  apply nth_error_split in E. destruct E as (l1 & l2 & E & EL). rewrite E. rewrite <- EL, firstn_app, firstn_all, Nat.sub_diag, firstn_O, app_nil_r.
  fold (@opt_list muxop). rewrite nth_error_map. rewrite flat_map_app, nth_error_app2, Nat.sub_diag by lia. reflexivity.
Qed.
Lemma compact_index_mono : forall g a b, a <= b -> compact_index g a <= compact_index g b.
Proof.
  intros g a b H. unfold compact_index. replace b with (a + (b - a)) by lia. rewrite seq_app, filter_app, app_length. lia.
Qed.
Lemma compact_index_strict : forall g a b, a < b -> contains g a = true -> compact_index g a < compact_index g b.
Proof.
  intros g a b H C. apply Nat.lt_le_trans with (compact_index g (S a)); [|apply compact_index_mono; lia].
  unfold compact_index. rewrite seq_S, filter_app, app_length. cbn [filter Nat.add]. rewrite C. cbn. lia.
Qed.
Lemma compact_index_inj : forall g a b, contains g a = true -> contains g b = true -> compact_index g a = compact_index g b -> a = b.
Proof.
  intros g a b Ha Hb H. destruct (Nat.lt_trichotomy a b) as [L|[L|L]]; auto.
  - apply (compact_index_strict g) in L; auto. lia.
  - apply (compact_index_strict g) in L; auto. lia.
Qed.
Lemma compact_surj_list : forall A (l : list (option A)) m w, nth_error (flat_map opt_list l) m = Some w ->
  exists n, nth_error l n = Some (Some w) /\ length (flat_map opt_list (firstn n l)) = m.
Proof.
  induction l as [|o l IH]; intros m w H; [destruct m; discriminate|]. cbn [flat_map] in H. destruct o as [x|]; cbn [opt_list app] in H.
  - destruct m; cbn in H.
    + injection H as ->. exists 0. auto.
    + destruct (IH m w H) as (n & H1 & H2). exists (S n). cbn. rewrite H2. auto.
  - destruct (IH m w H) as (n & H1 & H2). exists (S n). cbn. auto.
Qed.
Lemma compact_surj : forall g m w, node (compact g) m = Some w -> exists n, node g n = Some w /\ compact_index g n = m.
Proof.
  intros g m w H. unfold node in H. cbn [compact gnodes] in H. rewrite nth_error_map in H. fold (@opt_list muxop) in H.
  destruct (nth_error (flat_map _ _) m) as [w'|] eqn:E; [|discriminate]. cbn in H. injection H as ->.
  apply compact_surj_list in E. destruct E as (n & H1 & H2). exists n.
  assert (Hn : node g n = Some w) by (unfold node; now rewrite H1). split; auto. apply node_lt in Hn. rewrite compact_index_firstn by lia. exact H2.
Qed.
Lemma compact_all : forall g n, n < length (gnodes (compact g)) -> contains (compact g) n = true.
Proof.
  intros g n H. unfold contains, node. cbn [compact gnodes] in *. rewrite map_length in H. rewrite nth_error_map.
  destruct (nth_error _ n) eqn:E; [reflexivity|]. apply nth_error_None in E. lia.
Qed.
Lemma compact_edges : forall g, ends g -> forall s t l, contains g s = true -> contains g t = true ->
  (In (compact_index g s, compact_index g t, l) (gedges (compact g)) <-> In (s, t, l) (gedges g)).
Proof.
  intros g EN s t l Hs Ht. cbn [compact gedges]. rewrite in_map_iff. split.
  - intros ([[s' t'] l'] & H1 & H2). cbn [fst snd] in H1. assert (A : compact_index g s' = compact_index g s /\ compact_index g t' = compact_index g t /\ l' = l) by (repeat split; congruence).
    destruct A as (A1 & A2 & ->). destruct (EN _ _ _ H2). apply compact_index_inj in A1; auto. apply compact_index_inj in A2; auto. now subst.
  - intros H. exists (s, t, l). auto.
Qed.
Lemma value_contains : forall g ins n b, value g ins n b -> contains g n = true.
Proof. intros g ins n b V. unfold contains. inversion V; subst; rewrite H; reflexivity. Qed.

Lemma compact_value : forall g, ends g -> forall ins n b, contains g n = true -> (value g ins n b <-> value (compact g) ins (compact_index g n) b).
Proof.
  intros g EN ins n b C. split.
  - intros V. clear C. induction V as [n x b Hn Hx|n Hn|n Hn|n s l h bs bl bh Hn Hs Hl Hh Vs IHs Vl IHl Vh IHh|n i0 m b Hn Hm V IH];
      apply compact_node in Hn as Hn'.
    + eapply value_var; eauto.
    + now apply value_zero.
    + now apply value_one.
    + apply (value_mux (compact g) ins _ (compact_index g s) (compact_index g l) (compact_index g h)); auto.
      * apply compact_edges; auto; apply EN in Hs; tauto.
      * apply compact_edges; auto; apply EN in Hl; tauto.
      * apply compact_edges; auto; apply EN in Hh; tauto.
    + apply (value_out (compact g) ins _ i0 (compact_index g m)); auto. apply compact_edges; auto; apply EN in Hm; tauto.
  - intros V0.
    assert (Inv : forall m n w l s', node (compact g) m = Some w -> m = compact_index g n -> contains g n = true -> In (s', m, l) (gedges (compact g)) ->
      node g n = Some w /\ exists s, contains g s = true /\ s' = compact_index g s /\ In (s, n, l) (gedges g)).
    { intros m n1 w l s' Hm -> C1 Hi. apply contains_node in C1 as C'. destruct C' as [w' C']. pose proof (compact_node _ _ _ C') as X. split; [congruence|].
      cbn [compact gedges] in Hi. apply in_map_iff in Hi. destruct Hi as ([[s t] l'] & H1 & H2). cbn [fst snd] in H1.
      assert (A : compact_index g s = s' /\ compact_index g t = compact_index g n1 /\ l' = l) by (repeat split; congruence).
      destruct A as (A1 & A2 & ->). destruct (EN _ _ _ H2). apply compact_index_inj in A2; auto. subst t. exists s. auto. }
    assert (Nd : forall m n w, node (compact g) m = Some w -> m = compact_index g n -> contains g n = true -> node g n = Some w).
    { intros m n1 w Hm -> C1. apply contains_node in C1. destruct C1 as [w' C']. pose proof (compact_node _ _ _ C') as X. congruence. }
    remember (compact_index g n) as m0 eqn:Em. revert n Em C. induction V0 as [m x b Hn Hx|m Hn|m Hn|m s l h bs bl bh Hn Hs Hl Hh Vs IHs Vl IHl Vh IHh|m i0 q b Hn Hm V IH]; intros n Em C; cbn in Em.
    + eapply value_var; eauto.
    + apply value_zero; eauto.
    + apply value_one; eauto.
    + destruct (Inv _ _ _ _ _ Hn Em C Hs) as (N1 & s1 & S1 & S2 & S3). destruct (Inv _ _ _ _ _ Hn Em C Hl) as (_ & l1 & L1 & L2 & L3).
      destruct (Inv _ _ _ _ _ Hn Em C Hh) as (_ & h1 & H1 & H2 & H3). eapply (value_mux g ins n s1 l1 h1); eauto.
    + destruct (Inv _ _ _ _ _ Hn Em C Hm) as (N1 & s1 & S1 & S2 & S3). eapply value_out; eauto.
Qed.

(** ** Sorting the inputs *)
Lemma insert_perm : forall x l, Permutation (x :: l) (insert_by x l).
Proof.
  intros x. induction l as [|y l IH]; cbn [insert_by]; [auto|]. destruct (fst x <? fst y); [auto|].
  eapply perm_trans; [apply perm_swap|]. now apply perm_skip.
Qed.
Definition le_fst (a b : nat * nat) : Prop := fst a <= fst b.
Lemma insert_sorted : forall x l, Sorted le_fst l -> Sorted le_fst (insert_by x l).
Proof.
  intros x. induction l as [|y l IH]; intros H; cbn [insert_by]; [repeat constructor|].
  destruct (fst x <? fst y) eqn:E.
  - constructor; auto. constructor. unfold le_fst. lia.
  - inversion H; subst. constructor; auto. destruct l as [|z l]; cbn [insert_by]; [constructor; unfold le_fst; lia|].
    destruct (fst x <? fst z) eqn:E2; constructor; unfold le_fst; [lia|]. inversion H3; auto.
Qed.
Lemma sort_by_spec : forall l, Permutation l (sort_by l) /\ Sorted le_fst (sort_by l).
Proof.
  intros l. unfold sort_by.
  assert (G : forall l acc, Sorted le_fst acc -> Permutation (l ++ acc) (fold_left (fun acc x => insert_by x acc) l acc) /\ Sorted le_fst (fold_left (fun acc x => insert_by x acc) l acc)).
  { clear l. induction l as [|x l IH]; intros acc H; cbn [fold_left]; [auto|].
    destruct (IH (insert_by x acc) (insert_sorted x acc H)) as [A B]. split; auto. eapply perm_trans; [|exact A].
    cbn [app]. eapply perm_trans; [apply Permutation_middle|]. apply Permutation_app_head, insert_perm. }
  destruct (G l [] (Sorted_nil _)) as [A B]. rewrite app_nil_r in A. auto.
Qed.

Lemma strongly : forall l, Sorted le_fst l -> forall x, In x l -> forall y, In y l -> fst x < fst y -> exists l1 l2 l3, l = l1 ++ x :: l2 ++ y :: l3.
Proof.
  intros l H. assert (SS : StronglySorted le_fst l) by (apply Sorted_StronglySorted; auto; intros a b c; unfold le_fst; lia). clear H.
  induction SS as [|a l S IH F]; intros x Hx y Hy L; [destruct Hx|].
  rewrite Forall_forall in F. destruct Hx as [->|Hx]; destruct Hy as [->|Hy].
  - lia.
  - apply in_split in Hy. destruct Hy as (l2 & l3 & ->). exists [], l2, l3. reflexivity.
  - apply F in Hx. unfold le_fst in Hx. lia.
  - destruct (IH x Hx y Hy L) as (l1 & l2 & l3 & ->). exists (a :: l1), l2, l3. reflexivity.
Qed.

(** A sorted list whose first components are, without repetition, 0..k-1. *)
Lemma sorted_iota : forall (l : list (nat * nat)) a, Sorted le_fst l -> NoDup (map fst l) -> (forall x, In x (map fst l) <-> a <= x < a + length l) -> map fst l = seq a (length l).
Proof.
  induction l as [|[x n] l IH]; intros a S ND H; [reflexivity|]. cbn [map length seq fst] in *.
  inversion ND as [|? ? Hx ND']; subst. assert (SS : StronglySorted le_fst ((x, n) :: l)) by (apply Sorted_StronglySorted; auto; intros u v w; unfold le_fst; lia).
  inversion SS as [|? ? SS' F]; subst. rewrite Forall_forall in F.
  assert (x = a).
  { assert (Ha : In a (x :: map fst l)) by (apply H; lia). destruct Ha as [Ha|Ha]; auto. apply in_map_iff in Ha. destruct Ha as ([y m] & H1 & H2).
    cbn in H1. subst y. apply F in H2. unfold le_fst in H2. cbn in H2. assert (a <= x) by (apply H; now left). lia. }
  subst x. f_equal. apply IH; auto.
  - inversion S; auto.
  - intros y. split.
    + intros Hy. assert (a <= y < a + Datatypes.S (length l)) by (apply H; now right). assert (y <> a) by (intros ->; auto). lia.
    + intros Hy. assert (Hy' : In y (a :: map fst l)) by (apply H; lia). destruct Hy'; [lia|auto].
Qed.

Lemma inputs_of_spec : forall g k, (forall x, x < k <-> exists n, node g n = Some (MVar x)) -> (forall n n' x, node g n = Some (MVar x) -> node g n' = Some (MVar x) -> n = n') ->
  length (inputs_of g) = k /\ forall x n, nth_error (inputs_of g) x = Some n <-> node g n = Some (MVar x).
Proof.
  intros g k Hk Hu. unfold inputs_of. set (l := flat_map _ _).
  assert (Il : forall x n, In (x, n) l <-> node g n = Some (MVar x)).
  { intros x n. unfold l. rewrite in_flat_map. split.
    - intros (m & H1 & H2). destruct (node g m) as [w|] eqn:E; [|destruct H2]. destruct w; try destruct H2 as [].
      + injection H as <- <-. auto.
      + destruct H.
    - intros H. exists n. split; [apply node_indices_spec; unfold contains; now rewrite H|]. rewrite H. now left. }
  assert (NDl : NoDup (map fst l)).
  { unfold l. assert (NDi : NoDup (node_indices g)) by (unfold node_indices; apply NoDup_filter, seq_NoDup).
    revert NDi. generalize (node_indices g). induction l0 as [|m l0 IH]; intros ND; [constructor|]. inversion ND as [|? ? Hm ND']; subst. cbn [flat_map].
    destruct (node g m) as [w|] eqn:E; [|auto]. destruct w; auto. cbn [app map fst]. constructor; auto.
    intros C. apply in_map_iff in C. destruct C as ([x n] & C1 & C2). cbn in C1. subst x. apply in_flat_map in C2. destruct C2 as (m' & M1 & M2).
    destruct (node g m') as [w|] eqn:E'; [|destruct M2]. destruct w; try destruct M2 as [].
    + injection H as -> ->. assert (m = n) by eauto. subst. auto.
    + destruct H. }
  destruct (sort_by_spec l) as [P S]. set (sl := sort_by l) in *.
  assert (NDs : NoDup (map fst sl)) by (eapply Permutation_NoDup; [apply Permutation_map; exact P|exact NDl]).
  assert (Is : forall x, In x (map fst sl) <-> x < k).
  { intros x. rewrite Hk. rewrite in_map_iff. split.
    - intros ([y n] & <- & H). exists n. apply Il. eapply Permutation_in; [apply Permutation_sym; exact P|exact H].
    - intros [n H]. exists (x, n). split; auto. eapply Permutation_in; [exact P|]. now apply Il. }
  assert (Len : length sl = k).
  { assert (A : length (map fst sl) <= length (seq 0 k)).
    { apply NoDup_incl_length; auto. intros x Hx. apply in_seq. apply Is in Hx. lia. }
    assert (B : length (seq 0 k) <= length (map fst sl)).
    { apply NoDup_incl_length; [apply seq_NoDup|]. intros x Hx. apply in_seq in Hx. apply Is. lia. }
    rewrite map_length, seq_length in *. lia. }
  assert (M : map fst sl = seq 0 k).
  { rewrite <- Len. apply sorted_iota; auto. intros x. rewrite Is, Len. lia. }
  split; [now rewrite map_length|]. intros x n. rewrite nth_error_map.
  assert (Fst : forall i p, nth_error sl i = Some p -> fst p = i).
  { intros i p Hp. assert (X : nth_error (map fst sl) i = Some (fst p)) by (rewrite nth_error_map, Hp; reflexivity).
    rewrite M in X. assert (i < k). { rewrite <- (seq_length k 0). apply nth_error_Some. congruence. }
    rewrite seq_nth_error in X by auto. injection X as X. congruence. }
  split.
  - destruct (nth_error sl x) as [[y m]|] eqn:E; [|discriminate]. intros H. cbn in H. injection H as ->. apply Fst in E as E'. cbn in E'. subst y.
    apply Il. eapply Permutation_in; [apply Permutation_sym; exact P|]. eapply nth_error_In; eauto.
  - intros H. apply Il in H. eapply Permutation_in in H; [|exact P]. apply In_nth_error in H. destruct H as [i H]. apply Fst in H as H'. cbn in H'. subst i.
    rewrite H. reflexivity.
Qed.

Lemma length_filter_le' : forall A (f : A -> bool) l, length (filter f l) <= length l.
Proof. induction l; cbn; [lia|]. destruct (f a); cbn; lia. Qed.
Lemma compact_size : forall g, length (gnodes (compact g)) = length (node_indices g).
Proof.
  intros g. cbn [compact gnodes]. rewrite map_length. fold (@opt_list muxop).
  pose proof (compact_index_firstn g (length (gnodes g)) (le_n _)) as H. rewrite firstn_all in H. symmetry. exact H.
Qed.

Lemma optimize_ok : forall g g' inputs, ends g -> optimize g = Ok (g', inputs) ->
  (exists ren, (forall n w, node g n = Some w -> w <> MMux -> node g' (ren n) = Some w) /\
     (forall m w, node g' m = Some w -> exists n, node g n = Some w /\ m = ren n) /\
     (forall n n', contains g n = true -> contains g n' = true -> contains g' (ren n) = true -> ren n = ren n' -> node g n <> Some MMux -> node g n' <> Some MMux -> n = n') /\
     (forall m, contains g' m = true -> exists n, ren n = m /\ forall ins b, value g ins n b <-> value g' ins m b) /\
     (forall n w, node g n = Some w -> w <> MMux -> forall ins b, value g ins n b <-> value g' ins (ren n) b)) /\
  length (gnodes g') <= length (node_indices g) /\ ends g' /\
  (forall k, (forall x, x < k <-> exists n, node g n = Some (MVar x)) -> (forall n n' x, node g n = Some (MVar x) -> node g n' = Some (MVar x) -> n = n') ->
     length inputs = k /\ forall x n, nth_error inputs x = Some n <-> node g' n = Some (MVar x)).
Proof.
  intros g g' inputs EN H. unfold optimize in H. destruct (cse g) as [g1| |] eqn:E; [|discriminate|discriminate]. cbn [bind] in H. injection H as <- <-.
  apply cse_correct in E. destruct E as (C1 & C2 & C3 & C4). specialize (C3 EN).
  assert (CC : forall n w, node g n = Some w -> w <> MMux -> contains g1 n = true) by (intros n w Hn Hw; apply contains_node; eauto).
  split; [|split; [|split]].
  - exists (compact_index g1). split; [|split; [|split; [|split]]].
    + intros n w Hn Hw. apply compact_node. auto.
    + intros m w Hm. apply compact_surj in Hm. destruct Hm as (n & Hn & <-). eauto.
    + intros n n' H1 H2 _ H3 H4 H5. apply contains_node in H1, H2. destruct H1 as [w H1], H2 as [w' H2].
      apply (compact_index_inj g1); auto; [apply (CC n w)|apply (CC n' w')]; auto; congruence.
    + intros m Hm. apply contains_node in Hm. destruct Hm as [w Hm]. apply compact_surj in Hm. destruct Hm as (n & Hn & <-). exists n. split; auto.
      intros ins b. assert (contains g1 n = true) by (apply contains_node; eauto). rewrite C4 by auto. now apply compact_value.
    + intros n w Hn Hw ins b. rewrite C4 by eauto. apply compact_value; eauto.
  - rewrite compact_size. apply NoDup_incl_length; [unfold node_indices; apply NoDup_filter, seq_NoDup|].
    intros n Hn. apply node_indices_spec in Hn. apply node_indices_spec. apply contains_node in Hn. destruct Hn as [w Hn]. apply contains_node. eauto.
  - intros s t l Hs. cbn [compact gedges] in Hs. apply in_map_iff in Hs. destruct Hs as ([[s' t'] l'] & H1 & H2). cbn [fst snd] in H1.
    assert (A : compact_index g1 s' = s /\ compact_index g1 t' = t) by (split; congruence). destruct A as [<- <-].
    destruct (C3 _ _ _ H2) as [H3 H4]. apply contains_node in H3, H4. destruct H3 as [w H3], H4 as [w' H4].
    split; apply contains_node; eexists; apply compact_node; eauto.
  - intros k Hk Hu. apply inputs_of_spec.
    + intros x. rewrite Hk. split; intros [n Hn].
      * exists (compact_index g1 n). apply compact_node, C1; auto. discriminate.
      * apply compact_surj in Hn. destruct Hn as (m & Hm & _). eauto.
    + intros n n' x H1 H2. apply compact_surj in H1, H2. destruct H1 as (m & H1 & <-), H2 as (m' & H2 & <-). f_equal. eapply Hu; eauto.
Qed.
