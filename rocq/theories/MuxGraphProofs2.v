(** Proofs: end of the BDD translation; meaning of well-formed circuits. *)
From Coq Require Import ZifyBool ZifyNat.
From Verif Require Import Base Graph MuxGraph SpecMux MuxGraphProofs.
Open Scope nat_scope.

(** ** Well-formed circuits have exactly one value per node *)

Lemma once_src : forall (es : list (nat * nat * medge)) a b t l, NoDup (map (fun e => (snd (fst e), snd e)) es) ->
  In (a, t, l) es -> In (b, t, l) es -> a = b.
Proof.
  induction es as [|[[s' t'] l'] es IH]; intros a b t l H Ha Hb; [destruct Ha|].
  cbn [map fst snd] in H. inversion H as [|? ? H1 H2]; subst.
  assert (K : forall x, In (x, t', l') es -> False).
  { intros x Hx. apply H1. apply in_map_iff. now exists (x, t', l'). }
  destruct Ha as [Ha|Ha], Hb as [Hb|Hb].
  - congruence.
  - injection Ha as -> -> ->. now apply K in Hb.
  - injection Hb as -> -> ->. now apply K in Ha.
  - eapply IH; eauto.
Qed.

Lemma value_fun : forall g ins n b1 b2, NoDup (map (fun e => (snd (fst e), snd e)) (gedges g)) ->
  value g ins n b1 -> value g ins n b2 -> b1 = b2.
Proof.
  intros g ins n b1 b2 U H. revert b2. induction H as [n x b Hn Hx|n Hn|n Hn|n s l h bs bl bh Hn Hs Hl Hh Vs IHs Vl IHl Vh IHh|n i m b Hn Hm V IH];
    intros b2 V2; inversion V2; subst; try congruence.
  - assert (s = s0) by eauto using once_src. assert (l = l0) by eauto using once_src. assert (h = h0) by eauto using once_src. subst.
    rewrite (IHs bs0), (IHl bl0), (IHh bh0) by auto. reflexivity.
  - assert (m = m0) by eauto using once_src. subst. auto.
Qed.

Lemma value_total : forall g ins, mux_wf g -> (forall n x, node g n = Some (MVar x) -> x < length ins) ->
  forall n, contains g n = true -> exists b, value g ins n b.
Proof.
  intros g ins W Hin. destruct (wf_acyclic g W) as [rank R].
  assert (A : forall k n, rank n < k -> contains g n = true -> exists b, value g ins n b).
  { induction k as [|k IH]; intros n Hr Hc; [lia|]. apply contains_node in Hc. destruct Hc as [w Hw].
    assert (P : forall s l, In (s, n, l) (gedges g) -> exists b, value g ins s b).
    { intros s l H. apply IH; [apply R in H; lia|]. apply (wf_ends g W) in H. tauto. }
    destruct w.
    - exists true. now constructor.
    - exists false. now constructor.
    - destruct (proj2 (wf_mux g W n Hw Select)) as [s Hs]; [discriminate|].
      destruct (proj2 (wf_mux g W n Hw Low)) as [l Hl]; [discriminate|].
      destruct (proj2 (wf_mux g W n Hw High)) as [h Hh]; [discriminate|].
      destruct (P _ _ Hs) as [bs Vs]. destruct (P _ _ Hl) as [bl Vl]. destruct (P _ _ Hh) as [bh Vh].
      eexists. eapply value_mux; eauto.
    - destruct (nth_error ins i) as [b|] eqn:E.
      + exists b. eapply value_var; eauto.
      + apply nth_error_None in E. apply Hin in Hw. lia.
    - destruct (proj2 (wf_out g W n i Hw OutEdge) eq_refl) as [m Hm]. destruct (P _ _ Hm) as [b V].
      exists b. eapply value_out; eauto. }
  intros n. apply (A (S (rank n))). lia.
Qed.

(** ** Input nodes and select lines *)

Lemma add_variables_spec : forall k i g, add_variables k i g =
  (seq (length (gnodes g)) k, {| gnodes := gnodes g ++ map (fun j => Some (MVar j, 0)) (seq i k); gedges := gedges g |}).
Proof.
  induction k as [|k IH]; intros i g.
  - cbn [add_variables seq map]. rewrite app_nil_r. destruct g; reflexivity.
  - cbn [add_variables]. unfold add_node. rewrite IH. cbn [gnodes gedges]. rewrite app_length. cbn [length seq map].
    rewrite Nat.add_1_r. rewrite <- app_assoc. reflexivity.
Qed.

Lemma add_select_ok : forall inputs nv (g0 : tgraph),
  (forall n v, node g0 n = Some (MMux, v) -> v < nv) -> length inputs = nv ->
  (forall v s, nth_error inputs v = Some s -> exists w, node g0 s = Some w) ->
  forall ns es, NoDup ns ->
  exists es', foldM (add_select inputs) ns {| gnodes := gnodes g0; gedges := es |} = Ok {| gnodes := gnodes g0; gedges := es' |} /\
    (forall s t l, In (s, t, l) es' <-> In (s, t, l) es \/ (l = Select /\ In t ns /\ exists v, node g0 t = Some (MMux, v) /\ nth_error inputs v = Some s)) /\
    ((forall s t, In (s, t, Select) es -> ~ In t ns) -> NoDup (map (fun e => (snd (fst e), snd e)) es) -> NoDup (map (fun e => (snd (fst e), snd e)) es')).
Proof.
  intros inputs nv g0 Hm Hl Hi. induction ns as [|n ns IH]; intros es Hnd.
  - exists es. split; [reflexivity|]. split; [|auto]. intros s t l. cbn. tauto.
  - inversion Hnd as [|? ? Hn Hnd']; subst. cbn [foldM]. unfold add_select at 1.
    change (node {| gnodes := gnodes g0; gedges := es |} n) with (node g0 n).
    destruct (node g0 n) as [[w v]|] eqn:En.
    2:{ destruct (IH es Hnd') as (es' & E & A & B). exists es'. cbn [bind]. split; [exact E|]. split.
        - intros s t l. rewrite A. split; [intros [H|(H1 & H2 & H3)]; [auto|right; cbn; auto]|].
          intros [H|(H1 & [H2|H2] & v & H3 & H4)]; [auto| |right; eauto 6]. subst t. congruence.
        - intros H. apply B. intros s t Hs Ht. apply (H s t Hs). now right. }
    assert (C : w = MMux \/ w <> MMux) by (destruct w; auto; right; discriminate). destruct C as [->|C].
    + destruct (nth_error inputs v) as [s0|] eqn:Ev.
      2:{ apply nth_error_None in Ev. apply Hm in En. lia. }
      rewrite (get_Some _ _ _ _ Ev). cbn [bind]. destruct (Hi v s0 Ev) as [w Hw].
      rewrite (add_edge_ok _ s0 n Select w (MMux, v)) by auto. cbn [bind gnodes gedges].
      destruct (IH ((s0, n, Select) :: es) Hnd') as (es' & E & A & B). exists es'. split; [exact E|]. split.
      * intros s t l. rewrite A. cbn [In]. split.
        -- intros [[H|H]|(H1 & H2 & v' & H3)]; [|auto|right; eauto]. assert (s0 = s /\ n = t /\ Select = l) as (<- & <- & <-) by (repeat split; congruence). right. eauto 7.
        -- intros [H|(H1 & [H2|H2] & v' & H3 & H4)]; [auto| |right; eauto]. subst t l. left. left. congruence.
      * intros H U. apply B.
        -- intros s t [Hs|Hs] Ht; [injection Hs as <- <-; auto|]. apply (H s t Hs). now right.
        -- cbn [map fst snd]. constructor; [|exact U]. intros Hc. apply in_map_iff in Hc. destruct Hc as ([[s t] l] & H1 & H2).
           cbn in H1. injection H1 as -> ->. apply (H s n H2). now left.
    + destruct (IH es Hnd') as (es' & E & A & B). exists es'. split.
      * destruct w; try exact E. congruence.
      * split.
        -- intros s t l. rewrite A. split; [intros [H|(H1 & H2 & H3)]; [auto|right; cbn; auto]|].
           intros [H|(H1 & [H2|H2] & v' & H3 & H4)]; [auto| |right; eauto]. subst t. congruence.
        -- intros H. apply B. intros s t Hs Ht. apply (H s t Hs). now right.
Qed.

Lemma node_untag : forall (g : tgraph) n, node (untag g) n = option_map fst (node g n).
Proof. intros. unfold node, untag. cbn [gnodes]. rewrite nth_error_map. destruct (nth_error (gnodes g) n) as [[x|]|]; reflexivity. Qed.

Lemma tval_value : forall (g : tgraph) (u : mgraph) ins inputs n b,
  (forall n w v, node g n = Some (w, v) -> node u n = Some w) -> incl (gedges g) (gedges u) ->
  (forall n v, node g n = Some (MMux, v) -> exists s, nth_error inputs v = Some s /\ In (s, n, Select) (gedges u)) ->
  (forall v s, nth_error inputs v = Some s -> node u s = Some (MVar v)) ->
  tval g ins n b -> value u ins n b.
Proof.
  intros g u ins inputs n b H1 H2 H3 H4 T. induction T as [n v Hn|n v Hn|n v l h bs bl bh Hn Hv Hl Hh Tl IHl Th IHh|n v i m b Hn Hm T IH].
  - apply value_zero. eauto.
  - apply value_one. eauto.
  - destruct (H3 n v Hn) as (s & Hs & He). apply (value_mux u ins n s l h); eauto. apply (value_var u ins s v); eauto.
  - eapply value_out; eauto.
Qed.

Lemma seq_nth_error : forall k a i, i < k -> nth_error (seq a k) i = Some (a + i).
Proof.
  intros. rewrite nth_error_nth' with (d := 0) by (rewrite seq_length; lia). now rewrite seq_nth by lia.
Qed.

Lemma node_app_vars : forall (g : tgraph) nv n,
  node {| gnodes := gnodes g ++ map (fun j => Some (MVar j, 0)) (seq 0 nv); gedges := gedges g |} n =
  if n <? length (gnodes g) then node g n else if n - length (gnodes g) <? nv then Some (MVar (n - length (gnodes g)), 0) else None.
Proof.
  intros g nv n. unfold node at 1. cbn [gnodes].
  destruct (n <? length (gnodes g)) eqn:E1.
  - rewrite nth_error_app1 by lia. reflexivity.
  - rewrite nth_error_app2 by lia. rewrite nth_error_map. destruct (n - length (gnodes g) <? nv) eqn:E2.
    + rewrite seq_nth_error by lia. reflexivity.
    + rewrite (proj2 (nth_error_None _ _)) by (rewrite seq_length; lia). reflexivity.
Qed.

Lemma from_bdds_ok : forall nv ds, ds <> [] -> Forall (bdd_wf nv) ds ->
  exists g inputs, from_bdds ds = Ok (g, inputs) /\ mux_wf g /\
    length inputs = nv /\ (forall n x, node g n = Some (MVar x) <-> nth_error inputs x = Some n) /\
    (forall j d, nth_error ds j = Some d -> exists n, node g n = Some (MOut j) /\
       (forall ins, length ins = nv -> value g ins n (bdd_value d ins)) /\ forall n', node g n' = Some (MOut j) -> n' = n) /\
    (forall n j, node g n = Some (MOut j) -> j < length ds).
Proof.
  intros nv ds Hne W.
  set (b0 := {| bgraph := gempty; bmax := 0; bzero := None; bone := None |}).
  assert (B0 : b_ok nv b0).
  { assert (NE : forall n, @node (muxop * nat) medge gempty n = None) by (intros n; destruct n; reflexivity).
    constructor.
    - constructor; cbn [b0 bgraph].
      + intros n Hn. cbn in Hn. lia.
      + intros s t l Hs. destruct Hs.
      + constructor.
      + intros n v Hn. rewrite NE in Hn. discriminate.
      + intros n i v Hn. rewrite NE in Hn. discriminate.
      + intros n w v Hn. rewrite NE in Hn. discriminate.
      + intros n i v Hn. rewrite NE in Hn. discriminate.
    - intros z Hz. discriminate.
    - intros z Hz. discriminate.
    - cbn. lia. }
  assert (O0 : forall ins, outs_ok [] ins (bgraph b0)).
  { intros ins. split; [intros [|j] d H; discriminate|]. intros n j v H. unfold node in H. cbn in H. destruct n; discriminate. }
  destruct (add_bdds_ok nv (repeat false nv) (repeat_length _ _) ds [] b0 W B0 (O0 _) (or_introl eq_refl)) as (b & E & B & O & M).
  cbn [app length Nat.add] in *. destruct M as [M|M]; [congruence|].
  assert (OA : forall ins, length ins = nv -> outs_ok ds ins (bgraph b)).
  { intros ins Hins. destruct (add_bdds_ok nv ins Hins ds [] b0 W B0 (O0 _) (or_introl eq_refl)) as (b' & E' & _ & O' & _).
    cbn [app length Nat.add] in *. assert (b' = b) by congruence. now subst b'. }
  unfold from_bdds. fold b0. rewrite E. cbn [bind]. rewrite add_variables_spec, M.
  set (L := length (gnodes (bgraph b))).
  set (g1 := {| gnodes := gnodes (bgraph b) ++ map (fun j => Some (MVar j, 0)) (seq 0 nv); gedges := gedges (bgraph b) |}).
  pose proof (node_app_vars (bgraph b) nv) as NG. fold g1 L in NG. pose proof (bk_graph nv b B) as G.
  assert (Nin : forall v s, nth_error (seq L nv) v = Some s <-> v < nv /\ s = L + v).
  { intros v s. split.
    - intros H. assert (v < nv). { rewrite <- (seq_length nv L). apply nth_error_Some. congruence. }
      rewrite seq_nth_error in H by auto. injection H as <-. auto.
    - intros [H ->]. now apply seq_nth_error. }
  destruct (add_select_ok (seq L nv) nv g1) with (ns := node_indices g1) (es := gedges g1) as (es' & Es & A & U).
  { intros n v H. rewrite NG in H. destruct (n <? L); [now apply (bo_mux nv _ G) in H|]. destruct (_ <? nv); discriminate. }
  { apply seq_length. }
  { intros v s H. apply Nin in H. destruct H as [H ->]. rewrite NG. replace (L + v <? L) with false by lia.
    replace (L + v - L <? nv) with true by lia. eauto. }
  { unfold node_indices. apply NoDup_filter, seq_NoDup. }
  change {| gnodes := gnodes g1; gedges := gedges g1 |} with g1 in Es. rewrite Es. cbn [bind].
  set (g2 := {| gnodes := gnodes g1; gedges := es' |}) in *.
  exists (untag g2), (seq L nv). split; [reflexivity|].
  assert (NU : forall n, node (untag g2) n = option_map fst (if n <? L then node (bgraph b) n else if n - L <? nv then Some (MVar (n - L), 0) else None)).
  { intros n. rewrite node_untag. change (node g2 n) with (node g1 n). now rewrite NG. }
  assert (NOld : forall n w v, node (bgraph b) n = Some (w, v) -> node (untag g2) n = Some w).
  { intros n w v H. rewrite NU. apply node_lt in H as Lt. fold L in Lt. replace (n <? L) with true by lia. now rewrite H. }
  assert (NInv : forall n w, node (untag g2) n = Some w -> (exists v, node (bgraph b) n = Some (w, v)) \/ (exists j, j < nv /\ n = L + j /\ w = MVar j)).
  { intros n w H. rewrite NU in H. destruct (n <? L) eqn:E1.
    - destruct (node (bgraph b) n) as [[w' v]|]; [|discriminate]. injection H as <-. eauto.
    - destruct (n - L <? nv) eqn:E2; [|discriminate]. injection H as <-. right. exists (n - L). split; [lia|]. split; [lia|reflexivity]. }
  assert (EU : forall s t l, In (s, t, l) (gedges (untag g2)) <-> In (s, t, l) (gedges (bgraph b)) \/
             (l = Select /\ exists v, node (bgraph b) t = Some (MMux, v) /\ v < nv /\ s = L + v)).
  { intros s t l. change (gedges (untag g2)) with es'. rewrite A. change (gedges g1) with (gedges (bgraph b)). split.
    - intros [H|(H1 & H2 & v & H3 & H4)]; [auto|]. right. split; auto. exists v. rewrite NG in H3. apply Nin in H4.
      destruct (t <? L) eqn:Et; [tauto|]. destruct (_ <? nv); discriminate.
    - intros [H|(H1 & v & H2 & H3 & H4)]; [auto|]. right. split; auto. apply node_lt in H2 as Lt. fold L in Lt.
      assert (node g1 t = Some (MMux, v)) by (rewrite NG; now replace (t <? L) with true by lia).
      split; [apply node_indices_spec; unfold contains; now rewrite H|]. exists v. split; [auto|]. apply Nin. auto. }
  assert (NoSel : forall s t, ~ In (s, t, Select) (gedges (bgraph b))).
  { intros s t H. destruct (bo_all nv _ G t) as (w & v & Hw). { now apply (bo_edge nv _ G) in H. }
    destruct w.
    - eapply (bo_src nv _ G); eauto; discriminate.
    - eapply (bo_src nv _ G); eauto; discriminate.
    - destruct (proj1 (proj2 (bo_mux nv _ G t v Hw) Select)); eauto; discriminate.
    - eapply (bo_novar nv _ G); eauto.
    - pose proof (proj1 (bo_out nv _ G t i v Hw Select)) as X. discriminate X. eauto. }
  split; [constructor|].
  - intros s t l H. apply EU in H. destruct H as [H|(-> & v & H & Hv & ->)].
    + apply (bo_edge nv _ G) in H. split; apply contains_node.
      * destruct (bo_all nv _ G s) as (w & v & Hw); [lia|]. eauto.
      * destruct (bo_all nv _ G t) as (w & v & Hw); [lia|]. eauto.
    + split; apply contains_node; [|eauto]. exists (MVar v). rewrite NU. replace (L + v <? L) with false by lia.
      replace (L + v - L) with v by lia. now replace (v <? nv) with true by lia.
  - apply U; [|apply (bo_once nv _ G)]. intros s t H. now apply NoSel in H.
  - intros n Hn l. apply NInv in Hn. destruct Hn as [[v Hn]|(j & _ & _ & Hn)]; [|discriminate].
    destruct (bo_mux nv _ G n v Hn) as [Hv Hl]. split.
    + intros [s Hs] ->. apply EU in Hs. destruct Hs as [Hs|[Hs _]]; [|discriminate].
      destruct (proj1 (Hl OutEdge)); eauto; discriminate.
    + intros Ho. destruct l; try congruence.
      * destruct (proj2 (Hl Low)) as [s Hs]; auto. exists s. apply EU. auto.
      * destruct (proj2 (Hl High)) as [s Hs]; auto. exists s. apply EU. auto.
      * exists (L + v). apply EU. right. eauto.
  - intros n i Hn l. apply NInv in Hn. destruct Hn as [[v Hn]|(j & _ & _ & Hn)]; [|discriminate].
    rewrite <- (bo_out nv _ G n i v Hn l). split; intros [s Hs]; exists s.
    + apply EU in Hs. destruct Hs as [Hs|(-> & v' & Hs & _)]; [auto|congruence].
    + apply EU. auto.
  - intros n w Hn N1 N2 s l Hs. apply NInv in Hn. apply EU in Hs. destruct Hn as [[v Hn]|(j & Hj & -> & ->)].
    + destruct Hs as [Hs|(-> & v' & Hs & _)]; [|congruence]. eapply (bo_src nv _ G); eauto.
    + destruct Hs as [Hs|(-> & v' & Hs & _)]; [apply (bo_edge nv _ G) in Hs; fold L in Hs; lia|apply node_lt in Hs; fold L in Hs; lia].
  - exists (fun n => if n <? L then S n else 0). intros s t l H. apply EU in H. destruct H as [H|(-> & v & H & Hv & ->)].
    + apply (bo_edge nv _ G) in H. fold L in H. replace (s <? L) with true by lia. replace (t <? L) with true by lia. lia.
    + apply node_lt in H. fold L in H. replace (t <? L) with true by lia. replace (L + v <? L) with false by lia. lia.
  - split; [apply seq_length|]. split; [|split].
    + intros n x. rewrite Nin. split.
      * intros H. apply NInv in H. destruct H as [[v H]|(j & Hj & -> & H)]; [now apply (bo_novar nv _ G) in H|]. injection H as <-. auto.
      * intros [H ->]. rewrite NU. replace (L + x <? L) with false by lia. replace (L + x - L) with x by lia. now replace (x <? nv) with true by lia.
    + intros j d Hj. destruct (proj1 O j d Hj) as (n & N1 & _ & N3). exists n. split; [eauto|]. split.
      * intros ins Hins. destruct (proj1 (OA ins Hins) j d Hj) as (n' & N1' & T & _). assert (n' = n) by eauto. subst n'.
        eapply (tval_value (bgraph b) (untag g2) ins (seq L nv)); eauto.
        -- intros e He. destruct e as [[s t] l]. apply EU. auto.
        -- intros n' v Hn'. destruct (bo_mux nv _ G n' v Hn') as [Hv _]. exists (L + v). split; [apply Nin; auto|]. apply EU. right. eauto.
        -- intros v s Hs. apply Nin in Hs. destruct Hs as [Hv ->]. rewrite NU. replace (L + v <? L) with false by lia.
           replace (L + v - L) with v by lia. now replace (v <? nv) with true by lia.
      * intros n' Hn'. apply NInv in Hn'. destruct Hn' as [[v Hn']|(q & _ & _ & Hq)]; [|discriminate]. eauto.
    + intros n j H. apply NInv in H. destruct H as [[v H]|(q & _ & _ & Hq)]; [|discriminate]. eapply (proj2 O); eauto.
Qed.
