(** Proofs: circuits built from ordered decision diagrams are levelled; the optimised circuit. *)
From Coq Require Import Permutation ZifyBool ZifyNat.
From Verif Require Import Base Alu AluProofs Graph MuxGraph SpecMux SpecMuxOpt MuxGraphProofs MuxGraphProofs2 MuxGraphProofs3 MuxGraphProofs4 MuxEval MuxEvalProofs MuxOptProofs MuxOptProofs2.
Open Scope nat_scope.

(** ** The builder *)
Definition bord (g : tgraph) : Prop := forall s t l, In (s, t, l) (gedges g) ->
  (exists v, node g s = Some (MZero, v)) \/ (exists v, node g s = Some (MOne, v)) \/ exists vs, node g s = Some (MMux, vs) /\ forall vt, node g t = Some (MMux, vt) -> vt < vs.
Definition onum (o : option muxop) : list nat := match o with Some (MOut i) => [i] | _ => [] end.
Definition touts (l : list (option (muxop * nat))) : list nat := flat_map (fun o => onum (option_map fst o)) l.
Definition tagged (d : bdd) (g : tgraph) (added : list nat) : Prop := forall k n, nth_error added k = Some n ->
  match k with 0 => exists v, node g n = Some (MZero, v) | 1 => exists v, node g n = Some (MOne, v)
  | _ => exists v lo hi, nth_error d k = Some (v, lo, hi) /\ node g n = Some (MMux, v) end.
Lemma tagged_ext d g g' added : ext g g' -> tagged d g added -> tagged d g' added.
Proof.
  intros [X _] H k n Hk. specialize (H k n Hk). destruct k as [|[|k]]; [destruct H as (v & H); eauto..|]. destruct H as (v & lo & hi & H1 & H2). exists v, lo, hi. auto.
Qed.
Lemma tagged_snoc d g added n : tagged d g added -> 
  match length added with 0 => exists v, node g n = Some (MZero, v) | 1 => exists v, node g n = Some (MOne, v)
  | k => exists v lo hi, nth_error d k = Some (v, lo, hi) /\ node g n = Some (MMux, v) end -> tagged d g (added ++ [n]).
Proof.
  intros H K k m Hm. destruct (Nat.lt_ge_cases k (length added)) as [Lt|Ge]; [rewrite nth_error_app1 in Hm by lia; now apply H|].
  rewrite nth_error_app2 in Hm by lia. destruct (k - length added) as [|j] eqn:Ej; [|destruct j; discriminate]. injection Hm as <-. assert (k = length added) as -> by lia. destruct (length added) as [|[|q]]; exact K.
Qed.
Lemma bord_add nv g w v : bld_ok nv g -> bord g -> bord (snd (add_node g (w, v))).
Proof.
  intros B H s t l Hs. change (gedges (snd (add_node g (w, v)))) with (gedges g) in Hs. pose proof (bo_edge nv g B _ _ _ Hs) as [L1 L2].
  rewrite !node_add. replace (s =? length (gnodes g)) with false by lia. replace (t =? length (gnodes g)) with false by lia. exact (H s t l Hs).
Qed.
Lemma touts_app a b : touts (a ++ b) = touts a ++ touts b.
Proof. apply flat_map_app. Qed.

Lemma node_extra nv d b added rec b' added' : bdd_wf nv d -> bdd_ordered d -> b_ok nv b -> nth_error d (length added) = Some rec ->
  bord (bgraph b) -> tagged d (bgraph b) added -> add_bdd_node (b, added) rec = Ok (b', added') -> ext (bgraph b) (bgraph b') ->
  bord (bgraph b') /\ tagged d (bgraph b') added' /\ touts (gnodes (bgraph b')) = touts (gnodes (bgraph b)).
Proof.
  intros W O B Hrec Ho T E X. destruct rec as ((var, lo), hi). pose proof (proj2 W _ _ _ _ Hrec) as Hk. unfold add_bdd_node in E.
  destruct (length added) as [|[|k]] eqn:El.
  - destruct Hk as (-> & -> & ->). cbn [Nat.eqb andb] in E. destruct (bzero b) as [z|] eqn:Ez.
    + injection E as <- <-. cbn [bgraph] in *. split; [exact Ho|]. split; [|reflexivity]. apply tagged_snoc; [exact T|]. rewrite El. exact (bk_zero nv b B z Ez).
    + unfold add_node in E. injection E as <- <-. cbn [bgraph] in *. split; [exact (bord_add nv _ MZero nv (bk_graph nv b B) Ho)|]. split; [|cbn [gnodes]; rewrite touts_app; cbn; now rewrite app_nil_r].
      apply tagged_snoc; [eapply tagged_ext; eauto|]. rewrite El. exists nv. apply (node_add_new (bgraph b) (MZero, nv)).
  - destruct Hk as (-> & -> & ->). cbn [Nat.eqb andb] in E. destruct (bone b) as [z|] eqn:Ez.
    + injection E as <- <-. cbn [bgraph] in *. split; [exact Ho|]. split; [|reflexivity]. apply tagged_snoc; [exact T|]. rewrite El. exact (bk_one nv b B z Ez).
    + unfold add_node in E. injection E as <- <-. cbn [bgraph] in *. split; [exact (bord_add nv _ MOne nv (bk_graph nv b B) Ho)|]. split; [|cbn [gnodes]; rewrite touts_app; cbn; now rewrite app_nil_r].
      apply tagged_snoc; [eapply tagged_ext; eauto|]. rewrite El. exists nv. apply (node_add_new (bgraph b) (MOne, nv)).
  - destruct Hk as (Hv & Hlo & Hhi & Hne). replace ((hi =? 0) && (lo =? 0)) with false in E by lia. replace ((hi =? 1) && (lo =? 1)) with false in E by lia.
    destruct (nth_error added lo) as [l|] eqn:Elo; [|apply nth_error_None in Elo; lia].
    destruct (nth_error added hi) as [h|] eqn:Ehi; [|apply nth_error_None in Ehi; lia].
    cbn [bgraph] in E. unfold add_node in E. cbv beta iota zeta in E. replace (lo =? hi) with false in E by lia.
    rewrite (get_Some _ _ _ l) in E by (rewrite nth_error_app1 by lia; exact Elo). rewrite (get_Some _ _ _ h) in E by (rewrite nth_error_app1 by lia; exact Ehi). cbn [bind bgraph] in E.
    destruct (add_edge _ l _ Low) as [g1| |] eqn:E1 in E; [|discriminate|discriminate]. cbn [bind] in E. destruct (add_edge g1 h _ High) as [g2| |] eqn:E2; [|discriminate|discriminate]. cbn [bind] in E.
    injection E as <- <-. cbn [bgraph] in *. apply add_edge_inv in E1 as (_ & _ & ->). apply add_edge_inv in E2 as (_ & _ & ->). cbn [gnodes gedges] in *.
    change {| gnodes := gnodes (bgraph b) ++ [Some (MMux, var)]; gedges := _ |} with (with_mux (bgraph b) var l h) in *.
    assert (T' : tagged d (with_mux (bgraph b) var l h) (added ++ [length (gnodes (bgraph b))])).
    { apply tagged_snoc; [eapply tagged_ext; eauto|]. rewrite El. exists var, lo, hi. split; [exact Hrec|]. rewrite with_mux_node, Nat.eqb_refl. reflexivity. }
    assert (Child : forall c x, c = lo \/ c = hi -> nth_error added c = Some x -> (exists v, node (with_mux (bgraph b) var l h) x = Some (MZero, v)) \/ (exists v, node (with_mux (bgraph b) var l h) x = Some (MOne, v)) \/ exists vs, node (with_mux (bgraph b) var l h) x = Some (MMux, vs) /\ var < vs).
    { intros c x Hc Hx. pose proof (tagged_ext d _ _ added X T c x Hx) as K. destruct c as [|[|c]]; [now left|right; now left|]. right. right. destruct K as (vc & lo' & hi' & K1 & K2). exists vc. split; [exact K2|].
      apply (O _ _ _ _ Hrec ltac:(lia) (S (S c)) vc lo' hi' Hc ltac:(lia) K1). }
    split; [|split; [exact T'|]].
    + intros s t l0 H. cbn [with_mux gedges] in H. rewrite !with_mux_node.
      assert (New : forall c x, c = lo \/ c = hi -> nth_error added c = Some x -> s = x -> t = length (gnodes (bgraph b)) ->
        (exists v, node (with_mux (bgraph b) var l h) s = Some (MZero, v)) \/ (exists v, node (with_mux (bgraph b) var l h) s = Some (MOne, v)) \/ exists vs, node (with_mux (bgraph b) var l h) s = Some (MMux, vs) /\ forall vt, node (with_mux (bgraph b) var l h) t = Some (MMux, vt) -> vt < vs).
      { intros c x Hc Hx -> ->. destruct (Child c x Hc Hx) as [K|[K|(vs & K & Lt)]]; [now left|right; now left|]. right. right. exists vs. split; [exact K|]. intros vt. rewrite with_mux_node, Nat.eqb_refl. intros Et. injection Et as <-. exact Lt. }
      rewrite <- !with_mux_node with (v := var) (l := l) (h := h).
      destruct H as [H|[H|H]].
      * injection H as <- <- <-. eapply (New hi h); auto.
      * injection H as <- <- <-. eapply (New lo l); auto.
      * pose proof (bo_edge nv _ (bk_graph nv b B) _ _ _ H) as [L1 L2]. rewrite !with_mux_node. replace (s =? length (gnodes (bgraph b))) with false by lia. replace (t =? length (gnodes (bgraph b))) with false by lia. exact (Ho _ _ _ H).
    + cbn [with_mux gnodes]. rewrite touts_app. cbn. now rewrite app_nil_r.
Qed.

Lemma nodes_extra nv d : bdd_wf nv d -> bdd_ordered d -> forall rest pre b added b' added', d = pre ++ rest -> length added = length pre -> b_ok nv b ->
  nodes_done d (repeat false nv) (bgraph b) added -> bord (bgraph b) -> tagged d (bgraph b) added -> foldM add_bdd_node rest (b, added) = Ok (b', added') ->
  bord (bgraph b') /\ tagged d (bgraph b') added' /\ touts (gnodes (bgraph b')) = touts (gnodes (bgraph b)) /\ length added' = length d.
Proof.
  intros W O. induction rest as [|rec rest IH]; intros pre b added b' added' Hd Hl B ND Ho T E.
  - cbn [foldM] in E. injection E as <- <-. rewrite app_nil_r in Hd. subst d. auto.
  - assert (Hrec : nth_error d (length added) = Some rec) by (subst d; rewrite Hl, nth_error_app2, Nat.sub_diag by lia; reflexivity).
    destruct (add_bdd_node_ok nv d (repeat false nv) b added rec W (repeat_length _ _) B Hrec ND) as (b1 & n & E1 & B1 & X1 & S1 & N1 & M1).
    cbn [foldM] in E. rewrite E1 in E. cbn [bind] in E. destruct (node_extra nv d b added rec b1 _ W O B Hrec Ho T E1 X1) as (A1 & A2 & A3).
    destruct (IH (pre ++ [rec]) b1 (added ++ [n]) b' added') as (C1 & C2 & C3 & C4); auto.
    { subst d. now rewrite <- app_assoc. } { rewrite !app_length. cbn. lia. }
    split; [exact C1|]. split; [exact C2|]. split; [congruence|exact C4].
Qed.

Lemma bdd_extra nv d b i b' i' : bdd_wf nv d -> bdd_ordered d -> b_ok nv b -> bord (bgraph b) -> add_bdd (b, i) d = Ok (b', i') ->
  bord (bgraph b') /\ touts (gnodes (bgraph b')) = touts (gnodes (bgraph b)) ++ [i].
Proof.
  intros W O B Ho E. unfold add_bdd in E. destruct d as [|r d]; [discriminate|]. set (dd := r :: d) in *.
  destruct (add_bdd_nodes_ok nv dd (repeat false nv) W (repeat_length _ _) dd [] b [] eq_refl eq_refl B) as (b1 & added & E1 & L1 & B1 & _). { intros k n H. destruct k; discriminate. }
  rewrite E1 in E. cbn [bind] in E.
  destruct (nodes_extra nv dd W O dd [] b [] b1 added eq_refl eq_refl B) as (A1 & A2 & A3 & A4); auto. { intros k n H. destruct k; discriminate. } { intros k n H. destruct k; discriminate. }
  unfold add_node in E. destruct (add_edge _ _ _ OutEdge) as [g'| |] eqn:E2 in E; [|discriminate|discriminate]. cbn [bind] in E. injection E as <- <-. cbn [bgraph]. apply add_edge_inv in E2 as (_ & _ & ->). cbn [gnodes gedges].
  change {| gnodes := gnodes (bgraph b1) ++ [Some (MOut i, 0)]; gedges := _ |} with (with_out (bgraph b1) i (last added 0)).
  assert (Hlast : nth_error added (length dd - 1) = Some (last added 0)).
  { rewrite <- L1. destruct added as [|x added] using rev_ind; [cbn in L1; discriminate|]. rewrite last_last, app_length. cbn [length]. rewrite nth_error_app2 by lia. replace (_ + 1 - 1 - _) with 0 by lia. reflexivity. }
  split; [|rewrite touts_app, A3; reflexivity].
  intros s t l H. cbn [with_out gedges] in H. destruct H as [H|H].
  - injection H as <- <- <-. rewrite !with_out_node, Nat.eqb_refl. pose proof (A2 _ _ Hlast) as K. assert (Lt : last added 0 < length (gnodes (bgraph b1))).
    { destruct (length dd - 1) as [|[|k]]; [destruct K as (v & K)..|destruct K as (v & lo & hi & _ & K)]; eapply node_lt, K. }
    replace (last added 0 =? length (gnodes (bgraph b1))) with false by lia. destruct (length dd - 1) as [|[|k]]; [now left|right; now left|]. right. right. destruct K as (v & lo & hi & _ & K). exists v. split; [exact K|]. discriminate.
  - pose proof (bo_edge nv _ (bk_graph nv b1 B1) _ _ _ H) as [K1 K2]. rewrite !with_out_node. replace (s =? length (gnodes (bgraph b1))) with false by lia. replace (t =? length (gnodes (bgraph b1))) with false by lia. exact (A1 _ _ _ H).
Qed.

Lemma bdds_extra nv : forall ds b i b' i', Forall (bdd_wf nv) ds -> Forall bdd_ordered ds -> b_ok nv b -> bord (bgraph b) -> foldM add_bdd ds (b, i) = Ok (b', i') ->
  bord (bgraph b') /\ touts (gnodes (bgraph b')) = touts (gnodes (bgraph b)) ++ seq i (length ds).
Proof.
  induction ds as [|d ds IH]; intros b i b' i' W O B Ho E.
  - cbn [foldM] in E. injection E as <- <-. cbn. rewrite app_nil_r. auto.
  - inversion W; subst. inversion O; subst. cbn [foldM] in E. destruct (add_bdd_ok nv d (repeat false nv) b i H1 (repeat_length _ _) B) as (b1 & E1 & B1 & _). rewrite E1 in E. cbn [bind] in E.
    destruct (bdd_extra nv d b i b1 _ H1 H3 B Ho E1) as (A1 & A2). destruct (IH b1 (S i) b' i' H2 H4 B1 A1 E) as (C1 & C2). split; [exact C1|]. rewrite C2, A2, <- app_assoc. reflexivity.
Qed.

Definition onums (l : list (option muxop)) : list nat := flat_map onum l.

Lemma from_bdds_levels nv ds : ds <> [] -> Forall (bdd_wf nv) ds -> Forall bdd_ordered ds ->
  exists g L lvl, from_bdds ds = Ok (g, seq L nv) /\ lvinv nv lvl g /\ length (gnodes g) = L + nv /\ (forall n, n < L + nv -> contains g n = true) /\
    (forall x, x < nv -> node g (L + x) = Some (MVar x)) /\ (forall n x, node g n = Some (MVar x) -> L <= n) /\ onums (gnodes g) = seq 0 (length ds).
Proof.
  intros Hne W O. destruct (from_bdds_ok nv ds Hne W) as (g0 & inputs0 & E0 & WF & Li & Hin & _ & _).
  set (b0 := {| bgraph := gempty; bmax := 0; bzero := None; bone := None |}).
  assert (B0 : b_ok nv b0).
  { assert (NE : forall n, @node (muxop * nat) medge gempty n = None) by (intros n; destruct n; reflexivity).
    constructor.
    - constructor; cbn [b0 bgraph].
      + intros n Hn. cbn in Hn. lia.
      + intros s t l Hs. destruct Hs.
      + constructor.
      + intros n v Hn. rewrite NE in Hn. discriminate.
      + intros n i v Hn. rewrite NE in Hn. discriminate.
      + intros n w v Hn. rewrite NE in Hn. discriminate.
      + intros n i v Hn. rewrite NE in Hn. discriminate.
    - intros z Hz. discriminate.
    - intros z Hz. discriminate.
    - cbn. lia. }
  assert (O0 : outs_ok [] (repeat false nv) (bgraph b0)).
  { split; [intros [|j] d H; discriminate|]. intros n j v H. unfold node in H. cbn in H. destruct n; discriminate. }
  destruct (add_bdds_ok nv (repeat false nv) (repeat_length _ _) ds [] b0 W B0 O0 (or_introl eq_refl)) as (b & E & B & _ & M).
  cbn [app length Nat.add] in *. destruct M as [M|M]; [congruence|].
  destruct (bdds_extra nv ds b0 0 b _ W O B0 ltac:(intros s t l []) E) as [Bo To]. cbn [b0 bgraph gempty gnodes touts flat_map app] in To.
  assert (E' := E0). unfold from_bdds in E'. fold b0 in E'. rewrite E in E'. cbn [bind] in E'. rewrite add_variables_spec, M in E'.
  set (L := length (gnodes (bgraph b))) in *.
  set (g1 := {| gnodes := gnodes (bgraph b) ++ map (fun j => Some (MVar j, 0)) (seq 0 nv); gedges := gedges (bgraph b) |}) in *.
  pose proof (node_app_vars (bgraph b) nv) as NG. fold g1 L in NG. pose proof (bk_graph nv b B) as G.
  assert (Nin : forall v s, nth_error (seq L nv) v = Some s <-> v < nv /\ s = L + v).
  { intros v s. split.
    - intros H. assert (v < nv). { rewrite <- (seq_length nv L). apply nth_error_Some. congruence. }
      rewrite seq_nth_error in H by auto. injection H as <-. auto.
    - intros [H ->]. now apply seq_nth_error. }
  destruct (add_select_ok (seq L nv) nv g1) with (ns := node_indices g1) (es := gedges g1) as (es' & Es & A & U).
  { intros n v H. rewrite NG in H. destruct (n <? L); [now apply (bo_mux nv _ G) in H|]. destruct (_ <? nv); discriminate. }
  { apply seq_length. }
  { intros v s H. apply Nin in H. destruct H as [H ->]. rewrite NG. replace (L + v <? L) with false by lia.
    replace (L + v - L <? nv) with true by lia. eauto. }
  { unfold node_indices. apply NoDup_filter, seq_NoDup. }
  change {| gnodes := gnodes g1; gedges := gedges g1 |} with g1 in Es. rewrite Es in E'. cbn [bind] in E'.
  set (g2 := {| gnodes := gnodes g1; gedges := es' |}) in *. injection E' as <- <-.
  assert (NU : forall n, node (untag g2) n = option_map fst (if n <? L then node (bgraph b) n else if n - L <? nv then Some (MVar (n - L), 0) else None)).
  { intros n. rewrite node_untag. change (node g2 n) with (node g1 n). now rewrite NG. }
  assert (NInv : forall n w, node (untag g2) n = Some w -> (exists v, node (bgraph b) n = Some (w, v)) \/ (exists j, j < nv /\ n = L + j /\ w = MVar j)).
  { intros n w H. rewrite NU in H. destruct (n <? L) eqn:E1.
    - destruct (node (bgraph b) n) as [[w' v]|]; [|discriminate]. injection H as <-. eauto.
    - destruct (n - L <? nv) eqn:E2; [|discriminate]. injection H as <-. right. exists (n - L). split; [lia|]. split; [lia|reflexivity]. }
  assert (NOld : forall n w v, node (bgraph b) n = Some (w, v) -> node (untag g2) n = Some w).
  { intros n w v H. rewrite NU. apply node_lt in H as Lt. fold L in Lt. replace (n <? L) with true by lia. now rewrite H. }
  assert (NVar : forall x, x < nv -> node (untag g2) (L + x) = Some (MVar x)).
  { intros x Hx. rewrite NU. replace (L + x <? L) with false by lia. replace (L + x - L) with x by lia. now replace (x <? nv) with true by lia. }
  assert (EU : forall s t l, In (s, t, l) (gedges (untag g2)) <-> In (s, t, l) (gedges (bgraph b)) \/
             (l = Select /\ exists v, node (bgraph b) t = Some (MMux, v) /\ v < nv /\ s = L + v)).
  { intros s t l. change (gedges (untag g2)) with es'. rewrite A. change (gedges g1) with (gedges (bgraph b)). split.
    - intros [H|(H1 & H2 & v & H3 & H4)]; [auto|]. right. split; auto. exists v. rewrite NG in H3. apply Nin in H4.
      destruct (t <? L) eqn:Et; [tauto|]. destruct (_ <? nv); discriminate.
    - intros [H|(H1 & v & H2 & H3 & H4)]; [auto|]. right. split; auto. apply node_lt in H2 as Lt. fold L in Lt.
      assert (node g1 t = Some (MMux, v)) by (rewrite NG; now replace (t <? L) with true by lia).
      split; [apply node_indices_spec; unfold contains; now rewrite H|]. exists v. split; [auto|]. apply Nin. auto. }
  set (lvl := fun n => match node (bgraph b) n with Some (_, v) => v | None => 0 end).
  exists (untag g2), L, lvl. split; [exact E0|]. split; [|split; [|split; [|split; [exact NVar|split]]]].
  - constructor.
    + exact (wf_ends _ WF).
    + exact (wf_once _ WF).
    + exact (wf_mux _ WF).
    + exact (wf_out _ WF).
    + exact (wf_source _ WF).
    + intros s t H. apply EU in H as [H|(_ & v & H1 & H2 & ->)].
      * exfalso. destruct (bo_all nv _ G t) as (w & v & Hw). { now apply (bo_edge nv _ G) in H. }
        destruct w.
        -- eapply (bo_src nv _ G); eauto; discriminate.
        -- eapply (bo_src nv _ G); eauto; discriminate.
        -- destruct (proj1 (proj2 (bo_mux nv _ G t v Hw) Select)); eauto; discriminate.
        -- eapply (bo_novar nv _ G); eauto.
        -- pose proof (proj1 (bo_out nv _ G t i v Hw Select)) as X. discriminate X. eauto.
      * unfold lvl. rewrite H1. split; [now apply NVar|exact H2].
    + intros s t l H Nl. apply EU in H as [H|(-> & _)]; [|congruence]. destruct (Bo s t l H) as [(v & K)|[(v & K)|(vs & K & Lt)]].
      * left. eapply NOld, K.
      * right. left. eapply NOld, K.
      * right. right. split; [eapply NOld, K|]. intros Ht. apply NInv in Ht as [(vt & Ht)|(j & _ & _ & X)]; [|discriminate]. unfold lvl. rewrite Ht, K. now apply Lt.
    + intros n n' x Hn Hn'. apply Hin in Hn, Hn'. congruence.
  - cbn [untag gnodes]. rewrite map_length. change (gnodes g2) with (gnodes (bgraph b) ++ map (fun j => Some (MVar j, 0)) (seq 0 nv)). rewrite app_length, map_length, seq_length. reflexivity.
  - intros n Hn. apply contains_node. destruct (Nat.lt_ge_cases n L) as [Lt|Ge].
    + destruct (bo_all nv _ G n Lt) as (w & v & Hw). eexists. eapply NOld, Hw.
    + exists (MVar (n - L)). replace n with (L + (n - L)) at 1 by lia. apply NVar. lia.
  - intros n x H. apply NInv in H as [(v & H)|(j & _ & -> & _)]; [|lia]. exfalso. eapply (bo_novar nv _ G), H.
  - cbn [untag gnodes]. change (gnodes g2) with (gnodes (bgraph b) ++ map (fun j => Some (MVar j, 0)) (seq 0 nv)). rewrite map_app. unfold onums. rewrite flat_map_app.
    replace (flat_map onum (map (option_map fst) (gnodes (bgraph b)))) with (touts (gnodes (bgraph b))).
    2:{ unfold touts. rewrite !flat_map_concat_map, map_map. reflexivity. }
    rewrite To. replace (flat_map onum _) with (@nil nat); [apply app_nil_r|]. symmetry. clear. generalize (seq 0 nv). induction l as [|x l IH]; [reflexivity|]. cbn. exact IH.
Qed.

(** ** The elimination finishes *)
Lemma cse_total nv lvl g L : lvinv nv lvl g -> length (gnodes g) = L + nv -> (forall n, n < L + nv -> contains g n = true) ->
  (forall x, x < nv -> node g (L + x) = Some (MVar x)) -> (forall n x, node g n = Some (MVar x) -> L <= n) ->
  exists g', cse g = Ok g' /\ lvinv nv lvl g' /\ uniq lvl 0 g'.
Proof.
  intros LI Hl Hc Hv Hb. unfold cse.
  assert (Ni : node_indices g = seq 0 L ++ seq L nv).
  { unfold node_indices. rewrite Hl, seq_app. cbn [Nat.add]. apply filter_all. intros n Hn. rewrite in_app_iff, !in_seq in Hn. apply Hc. lia. }
  rewrite Ni, filter_app. rewrite (filter_all _ (seq L nv)).
  2:{ intros n Hn. apply in_seq in Hn. assert (K : preds g n = []); [|now rewrite K]. destruct (preds g n) as [|m l] eqn:P; [reflexivity|exfalso].
      assert (X : In m (preds g n)) by (rewrite P; now left). unfold preds in X. apply in_map_iff in X as (((s, t), lb) & _ & X). apply in_edges_spec in X as [X Et]. cbn in Et. subst t.
      eapply (li_source nv lvl g LI n (MVar (n - L))); [|discriminate|discriminate|exact X]. replace n with (L + (n - L)) at 1 by lia. apply Hv. lia. }
  rewrite rev_app_distr. set (cs0 := filter _ (seq 0 L)). rewrite <- (app_nil_l (rev (seq L nv) ++ rev cs0)).
  apply (phase1 nv lvl L (rev cs0)); auto.
  - intros m m' s l h Hm _ Lm _ O _. destruct O as (O & _). destruct (li_sel nv lvl g LI _ _ O). lia.
  - intros n [].
  - intros n [].
  - cbn [app]. constructor.
    + rewrite app_nil_r, <- rev_app_distr. apply NoDup_rev. unfold cs0. apply NoDup_app_intro; [apply NoDup_filter, seq_NoDup|apply seq_NoDup|]. intros x H1 H2. apply filter_In in H1 as [H1 _]. apply in_seq in H1, H2. lia.
    + rewrite app_nil_r. intros n. rewrite !in_app_iff, <- !in_rev. tauto.
    + intros n. rewrite app_nil_r, in_app_iff, <- !in_rev. unfold cs0. rewrite filter_In, !in_seq. lia.
  - cbn [length]. lia.
Qed.

(** ** Compaction *)
Lemma node_indices_compact (g : mgraph) n : contains g n = true -> nth (compact_index g n) (node_indices g) 0 = n.
Proof.
  intros C. pose proof C as C'. apply contains_node in C' as [w Hw]. pose proof (node_lt _ _ _ Hw) as Lt. unfold node_indices, compact_index.
  replace (length (gnodes g)) with (n + S (length (gnodes g) - n - 1)) by lia. rewrite seq_app. cbn [Nat.add seq]. rewrite filter_app. cbn [filter]. rewrite C. rewrite app_nth2 by lia. rewrite Nat.sub_diag. reflexivity.
Qed.
Lemma NoDup_map_in {A B} (f : A -> B) l : (forall x y, In x l -> In y l -> f x = f y -> x = y) -> NoDup l -> NoDup (map f l).
Proof.
  induction l as [|x l IH]; intros H ND; [constructor|]. inversion ND; subst. cbn [map]. constructor.
  - intros K. apply in_map_iff in K as (y & E & K). assert (y = x) by (apply H; [now right|now left|exact E]). congruence.
  - apply IH; [|assumption]. intros a b Ha Hb. apply H; now right.
Qed.
Lemma compact_wf g : mux_wf g -> mux_wf (compact g).
Proof.
  intros W. pose proof (wf_ends g W) as EN.
  assert (Ed : forall s t l, In (s, t, l) (gedges (compact g)) -> exists s' t', In (s', t', l) (gedges g) /\ s = compact_index g s' /\ t = compact_index g t').
  { intros s t l H. cbn [compact gedges] in H. apply in_map_iff in H as (((s', t'), l') & E & H). cbn [fst snd] in E. injection E as <- <- <-. eauto. }
  assert (Pre : forall n w s l, node (compact g) n = Some w -> In (s, n, l) (gedges (compact g)) -> forall m, node g m = Some w -> compact_index g m = n -> exists s', In (s', m, l) (gedges g)).
  { intros n w s l Hn H m Hm Em. destruct (Ed _ _ _ H) as (s' & t' & H' & _ & Et). destruct (EN _ _ _ H') as [_ Ct]. assert (m = t') as -> by (apply (compact_index_inj g); [apply contains_node; eauto|exact Ct|congruence]). eauto. }
  constructor.
  - intros s t l H. destruct (Ed _ _ _ H) as (s' & t' & H' & -> & ->). destruct (EN _ _ _ H') as [H1 H2]. apply contains_node in H1 as [w1 H1], H2 as [w2 H2]. split; apply contains_node; eexists; apply compact_node; eauto.
  - cbn [compact gedges]. rewrite map_map. cbn [fst snd].
    replace (map (fun x : nat * nat * medge => (compact_index g (snd (fst x)), snd x)) (gedges g)) with (map (fun k : nat * medge => (compact_index g (fst k), snd k)) (map (fun e : nat * nat * medge => (snd (fst e), snd e)) (gedges g))) by (rewrite map_map; reflexivity).
    apply NoDup_map_in; [|exact (wf_once g W)]. intros (t1, l1) (t2, l2) H1 H2 E. cbn in E. injection E as E1 <-. f_equal. apply in_map_iff in H1 as (((s1, t1'), l1') & X1 & H1). apply in_map_iff in H2 as (((s2, t2'), l2') & X2 & H2). cbn in X1, X2. injection X1 as -> ->. injection X2 as -> ->.
    apply (compact_index_inj g); [exact (proj2 (EN _ _ _ H1))|exact (proj2 (EN _ _ _ H2))|exact E1].
  - intros n Hn l. pose proof Hn as Hn'. apply compact_surj in Hn' as (m & Hm & Em). rewrite <- (wf_mux g W m Hm l). split.
    + intros [s Hs]. eapply Pre; eauto.
    + intros [s Hs]. exists (compact_index g s). rewrite <- Em. destruct (EN _ _ _ Hs). apply compact_edges; auto.
  - intros n i Hn l. pose proof Hn as Hn'. apply compact_surj in Hn' as (m & Hm & Em). rewrite <- (wf_out g W m i Hm l). split.
    + intros [s Hs]. eapply Pre; eauto.
    + intros [s Hs]. exists (compact_index g s). rewrite <- Em. destruct (EN _ _ _ Hs). apply compact_edges; auto.
  - intros n w Hn W1 W2 s l Hs. pose proof Hn as Hn'. apply compact_surj in Hn' as (m & Hm & Em). destruct (Pre n w s l Hn Hs m Hm Em) as [s' Hs']. exact (wf_source g W m w Hm W1 W2 s' l Hs').
  - destruct (wf_acyclic g W) as [rank R]. exists (fun n => rank (nth n (node_indices g) 0)). intros s t l H. destruct (Ed _ _ _ H) as (s' & t' & H' & -> & ->). destruct (EN _ _ _ H'). rewrite !node_indices_compact by assumption. eapply R, H'.
Qed.
Lemma compact_uniq lvl g : ends g -> uniq lvl 0 g -> no_duplicates (compact g).
Proof.
  intros EN U m m' s l h Hm Hm' O1 O2 O3 O1' O2' O3'. apply compact_surj in Hm as (n & Hn & <-). apply compact_surj in Hm' as (n' & Hn' & <-). f_equal.
  assert (Cn : contains g n = true) by (apply contains_node; eauto). assert (Cn' : contains g n' = true) by (apply contains_node; eauto).
  assert (Pre : forall a lb, In (a, compact_index g n, lb) (gedges (compact g)) -> exists a', a = compact_index g a' /\ contains g a' = true).
  { intros a lb H. cbn [compact gedges] in H. apply in_map_iff in H as (((s', t'), l') & E & H). cbn [fst snd] in E. injection E as <- _ _. exists s'. split; [reflexivity|exact (proj1 (EN _ _ _ H))]. }
  destruct (Pre s Select O1) as (s' & -> & Cs), (Pre l Low O2) as (l' & -> & Cl), (Pre h High O3) as (h' & -> & Ch).
  apply (U n n' s' l' h' Hn Hn'); [lia|lia|split; [|split]; apply (compact_edges g EN); assumption..].
Qed.
