(** Every fluent operation but multiplication only adds to the circuit (for any arguments). *)
From Verif Require Import Base Graph MuxGraph SpecMux Circuits FheGraph SpecFhe MuxGraphProofs2 FheProofs FheProofs2 FheProofs3 FheProofs4 FheProofs5 FheProofs6 FluentInt Fluent SpecFluent FluentProofs.
Open Scope nat_scope.

Lemma add_edges_inv : forall es (g g' : fgraph), add_edges g es = Ok g' ->
  g' = extend g [] (rev es) /\ forall s t l, In (s, t, l) es -> contains g s = true /\ contains g t = true.
Proof.
  unfold add_edges. induction es as [|[[s t] l] es IH]; intros g g' E; cbn [foldM fst snd] in E.
  - injection E as <-. split; [destruct g; unfold extend; cbn; now rewrite app_nil_r|intros s t l []].
  - unfold add_edge at 1 in E. destruct (contains g s && contains g t) eqn:C; cbn [bind] in E; [|discriminate]. apply andb_prop in C.
    destruct (IH _ _ E) as [-> H]. split.
    + unfold extend. cbn [gnodes gedges rev]. rewrite <- app_assoc. reflexivity.
    + intros s' t' l' [Hi|Hi]; [injection Hi as <- <- <-; exact C|]. exact (H s' t' l' Hi).
Qed.
Lemma extend_add_grows : forall g ops es g', edges_ok g -> (forall s t l, In (s, t, l) es -> size g <= t) -> add_edges (extend g ops []) es = Ok g' -> grows g g'.
Proof.
  intros g ops es g' EN H E. apply add_edges_inv in E. destruct E as [-> C]. rewrite extend_extend, !app_nil_r. apply extend_grows; auto.
  - intros s t l Hi. apply in_rev in Hi. eauto.
  - intros s t l Hi. apply in_rev in Hi. exact (C s t l Hi).
Qed.
Lemma nadd_grows : forall g op es g' n, edges_ok g -> (forall i s t l, In (s, t, l) (es i) -> t = i) -> nadd g op es = Ok (g', n) -> grows g g'.
Proof.
  intros g op es g' n EN H E. unfold nadd in E. rewrite add_node_extend in E. destruct (add_edges _ _) as [g1| |] eqn:E1; cbn [bind] in E; try discriminate.
  injection E as <- <-. eapply extend_add_grows; [exact EN| |exact E1]. intros s t l Hi. rewrite (H _ _ _ _ Hi). lia.
Qed.
Lemma convert_step_grows : forall g cur t out g' n t', edges_ok g -> convert_step g cur t out = Ok (g', n, t') -> grows g g'.
Proof.
  intros g cur t out g' n t' EN E.
  destruct t; cbn [convert_step] in E; try destruct (cty_eqb _ _); rewrite ?add_node_extend, ?extend_extend in E; cbn [app] in E;
    destruct (add_edges _ _) as [g2| |] eqn:E2; cbn [bind] in E; try discriminate; injection E as <- <- <-;
    (eapply extend_add_grows; [exact EN| |exact E2]); intros s t0 l Hi; cbn [In] in Hi; repeat (destruct Hi as [Hi|Hi]; [injection Hi as <- <- <-; lia|]); destruct Hi.
Qed.
Lemma convert_rec_grows : forall fuel g cur t out g' n, edges_ok g -> convert_rec fuel g cur t out = Ok (g', n) -> grows g g'.
Proof.
  induction fuel as [|fuel IH]; intros g cur t out g' n EN E; cbn [convert_rec] in E; destruct (cty_eqb t out); try discriminate.
  - injection E as <- <-. now apply grows_refl.
  - injection E as <- <-. now apply grows_refl.
  - destruct (convert_step g cur t out) as [[[g1 i] t1]| |] eqn:E1; cbn [bind] in E; try discriminate. pose proof (convert_step_grows _ _ _ _ _ _ _ EN E1) as G.
    eapply grows_trans; [exact G|]. eapply IH; eauto. now apply grows_ok in G.
Qed.
Lemma gconvert_grows : forall t out ns g g' ms, edges_ok g -> gconvert t out ns g = Ok (g', ms) -> grows g g'.
Proof. intros t out ns g g' ms. apply gmap_grows. intros g0 x g1 n. apply convert_rec_grows. Qed.

(** ** Insertion *)
Lemma connect_input_inv : forall mc ren ps (h h' : fgraph), foldM (connect_input mc ren) ps h = Ok h' ->
  forall q s, In (q, s) ps -> exists op, node h q = Some op /\ ggsw_source op = true.
Proof.
  intros mc ren. induction ps as [|[q0 s0] ps IH]; intros h h' E q s Hi; [destruct Hi|]. cbn [foldM] in E.
  destruct (connect_input mc ren h (q0, s0)) as [h1| |] eqn:E1; cbn [bind] in E; try discriminate. unfold connect_input in E1.
  destruct (node mc s0) as [[]|]; try discriminate. destruct (node h q0) as [op|] eqn:Eq; [|discriminate]. destruct (ggsw_source op) eqn:Es; [|discriminate].
  assert (K : forall n, node h1 n = node h n).
  { clear - E1. revert h E1. induction (out_edges mc s0) as [|e es IHe]; intros h E1 n; cbn [foldM] in E1; [injection E1 as <-; reflexivity|].
    destruct (alookup ren (snd (fst e))) as [t|]; [|discriminate]. destruct (map_edge (snd e)); cbn [bind] in E1; try discriminate.
    unfold add_edge at 1 in E1. destruct (contains h q0 && contains h t); cbn [bind] in E1; [|discriminate]. rewrite (IHe _ E1 n). reflexivity. }
  destruct Hi as [Hi|Hi]; [injection Hi as <- <-; eauto|]. destruct (IH _ _ E q s Hi) as (op' & N & G). rewrite K in N. eauto.
Qed.
Lemma copy_nodes_source : forall mode mc ns st (h : fgraph) q op, (snd st = h \/ True) -> node (snd (fold_left (copy_node mode mc) ns st)) q = Some op -> ggsw_source op = true -> node (snd st) q = Some op.
Proof.
  intros mode mc. induction ns as [|i ns IH]; intros [ren h0] h q op _ N G; cbn [fold_left] in N; [exact N|].
  apply (IH _ h) in N; auto. cbn [snd]. unfold copy_node in N. revert N.
  assert (K : forall w, ggsw_source w = false -> node (extend h0 [w] []) q = Some op -> node h0 q = Some op).
  { intros w Hw N. destruct (Nat.lt_ge_cases q (size h0)) as [Q|Q]; [now rewrite extend_node_old in N|].
    replace q with (size h0 + (q - size h0)) in N by lia. rewrite extend_node_new in N. destruct (q - size h0) as [|j]; cbn in N; [congruence|destruct j; discriminate]. }
  destruct (node mc i) as [[]|]; rewrite ?add_node_extend; cbn [snd]; try (now auto); apply K; destruct mode; reflexivity.
Qed.
Section Lib.
Context (lib : blk -> res (mgraph * list nat)) (L : lib_ok lib).
(** A successful insertion had well-typed arguments. *)
Lemma insert_inv : forall b hosts mode g g' outs, insert lib b hosts mode g = Ok (g', outs) ->
  exists c, builder b = Ok c /\ length hosts = c_arity c /\ handles g TGgsw1 hosts.
Proof.
  intros b hosts mode g g' outs E. pose proof (L b) as LB. unfold insert in E.
  destruct (builder b) as [c| |]; [|rewrite LB in E; discriminate|rewrite LB in E; discriminate]. destruct LB as (mc & inputs & EL & [W AR _]). rewrite EL in E. cbn [bind] in E.
  exists c. split; [reflexivity|]. unfold insert_mux in E. destruct (Nat.eqb_spec (length inputs) (length hosts)) as [H|H]; cbn [negb] in E; [|discriminate].
  split; [congruence|]. destruct (fold_left (copy_node mode mc) (node_indices mc) ([], g)) as [ren h1] eqn:EF.
  destruct (foldM (connect_input mc ren) (combine hosts inputs) h1) as [h2| |] eqn:E2; cbn [bind] in E; try discriminate.
  apply Forall_forall. intros q Hq. assert (exists s, In (q, s) (combine hosts inputs)) as [s Hs].
  { clear - H Hq. revert inputs H. induction hosts as [|a hosts IH]; intros [|i inputs] H; try discriminate; [destruct Hq|destruct Hq as [->|Hq]].
    - exists i. now left.
    - destruct (IH Hq inputs) as [s Hs]; [now injection H|]. exists s. now right. }
  destruct (connect_input_inv _ _ _ _ _ E2 q s Hs) as (op & N & G). exists op. split; [|exact G].
  change h1 with (snd (ren, h1)) in N. rewrite <- EF in N. exact (copy_nodes_source _ _ _ _ g _ _ (or_intror Logic.I) N G).
Qed.
Lemma insert_grows : forall b hosts mode g g' outs, edges_ok g -> insert lib b hosts mode g = Ok (g', outs) -> grows g g'.
Proof.
  intros b hosts mode g g' outs EN E. destruct (insert_inv _ _ _ _ _ _ E) as (c & B & A & H).
  destruct (insert_ok lib L b c hosts mode g EN B A H) as (g1 & o1 & E1 & G1 & _). congruence.
Qed.

Lemma with_graph_ok : forall c g, ctx_ok c -> grows (cg c) g -> ctx_ok (with_graph c g).
Proof.
  intros c g (E & LZ & LO & Z & O) G. split; [now apply grows_ok in G|]. split; [auto|]. split; [auto|].
  assert (K : forall mk cache, cache_ok (cg c) mk cache -> cache_ok g mk cache).
  { intros mk cache H t n N. destruct (H t n N) as (N0 & N1 & N2). assert (C : contains (cg c) n = true) by (unfold contains; now rewrite N1).
    destruct (proj2 G n C) as (_ & E1 & E2 & _). split; [auto|]. split; congruence. }
  split; apply K; auto.
Qed.
Lemma tnum_inj : forall a b, tnum a = tnum b -> a = b.
Proof. intros [] []; cbn; congruence. Qed.
Lemma nth_error_set : forall {A} (l : list A) i x j, i < length l -> nth_error (firstn i l ++ [x] ++ skipn (S i) l) j = if j =? i then Some x else nth_error l j.
Proof.
  intros A. induction l as [|a l IH]; intros i x j H; cbn [length] in H; [lia|]. destruct i as [|i].
  - cbn [firstn app skipn]. destruct j as [|j]; reflexivity.
  - cbn [firstn app]. destruct j as [|j]; [reflexivity|]. change (S j =? S i) with (j =? i). cbn [nth_error]. rewrite <- (IH i x j) by lia. reflexivity.
Qed.
Lemma const_grows : forall v t c c' n, ctx_ok c -> const_bit v t c = Ok (c', n) ->
  ctx_ok c' /\ grows (cg c) (cg c') /\ node (cg c') n = Some (if v then FOne t else FZero t) /\ in_edges (cg c') n = [].
Proof.
  intros v t c c' n C E. pose proof C as (EN & LZ & LO & Z & O). unfold const_bit in E.
  destruct (nth_error _ (tnum t)) as [[m|]|] eqn:Ec; [| |discriminate].
  - injection E as <- <-. split; [exact C|]. split; [now apply grows_refl|]. destruct v; [destruct (O t m Ec)|destruct (Z t m Ec)]; auto.
  - assert (LT : tnum t < 4) by (destruct v; [rewrite <- LO|rewrite <- LZ]; apply nth_error_Some; congruence).
    assert (NT : t <> TLwe1) by (intros ->; discriminate).
    assert (E' : (let '(n, g) := add_node (cg c) (if v then FOne t else FZero t) in
          let cache' := firstn (tnum t) (if v then ones c else zeros c) ++ [Some n] ++ skipn (S (tnum t)) (if v then ones c else zeros c) in
          Ok (if v then mkCtx g (zeros c) cache' else mkCtx g cache' (ones c), n)) = Ok (c', n)) by (destruct t; try discriminate; exact E). clear E.
    rewrite add_node_extend in E'. set (g1 := extend (cg c) [if v then FOne t else FZero t] []) in E'.
    assert (G : grows (cg c) g1) by (apply extend_grows; auto; intros s t0 l []).
    assert (N1 : node g1 (size (cg c)) = Some (if v then FOne t else FZero t)) by (unfold g1; rewrite <- (Nat.add_0_r (size (cg c))); now rewrite extend_node_new).
    assert (N2 : in_edges g1 (size (cg c)) = []) by (unfold g1; rewrite extend_in_new by (auto; lia); reflexivity).
    pose proof (with_graph_ok c g1 C G) as (W1 & W2 & W3 & W4 & W5). cbn [with_graph cg zeros ones] in *.
    assert (K : forall mk cache, length cache = 4 -> cache_ok g1 mk cache -> mk t = (if v then FOne t else FZero t) -> cache_ok g1 mk (firstn (tnum t) cache ++ [Some (size (cg c))] ++ skipn (S (tnum t)) cache)).
    { intros mk cache HL H HM u m Hm. rewrite nth_error_set in Hm by lia. destruct (Nat.eqb_spec (tnum u) (tnum t)) as [Q|Q].
      - apply tnum_inj in Q. subst u. injection Hm as <-. rewrite HM. auto.
      - exact (H u m Hm). }
    assert (KL : forall cache : list (option nat), length cache = 4 -> length (firstn (tnum t) cache ++ [Some (size (cg c))] ++ skipn (S (tnum t)) cache) = 4).
    { intros cache HL. rewrite !app_length, firstn_length, skipn_length. cbn [length]. lia. }
    assert (Hn : n = size (cg c)) by (destruct v; injection E'; auto). subst n.
    destruct v.
    + assert (c' = mkCtx g1 (zeros c) (firstn (tnum t) (ones c) ++ [Some (size (cg c))] ++ skipn (S (tnum t)) (ones c))) as -> by congruence. clear E'.
      unfold ctx_ok. cbn [cg zeros ones]. pose proof (KL _ LO). pose proof (K FOne _ LO W5 eq_refl). auto 10.
    + assert (c' = mkCtx g1 (firstn (tnum t) (zeros c) ++ [Some (size (cg c))] ++ skipn (S (tnum t)) (zeros c)) (ones c)) as -> by congruence. clear E'.
      unfold ctx_ok. cbn [cg zeros ones]. pose proof (KL _ LZ). pose proof (K FZero _ LZ W4 eq_refl). auto 10.
Qed.

Lemma run_call_grows : forall c k c' ns, ctx_ok c -> not_mul k = true -> run_call lib c k = Ok (c', ns) -> ctx_ok c' /\ grows (cg c) (cg c').
Proof.
  intros c k c' ns C NM E. pose proof (proj1 C) as EN.
  assert (W : forall (r : res (fgraph * list nat)), (forall g l, r = Ok (g, l) -> grows (cg c) g) -> (' (g, l) <- r ;; Ok (with_graph c g, l)) = Ok (c', ns) -> ctx_ok c' /\ grows (cg c) (cg c')).
  { intros r H Hr. destruct r as [[g l]| |]; cbn [bind] in Hr; try discriminate. injection Hr as <- <-. pose proof (H g l eq_refl) as G. split; [now apply with_graph_ok|exact G]. }
  assert (CW : forall b0 mode a b, compare_with lib b0 mode a b c = Ok (c', ns) -> ctx_ok c' /\ grows (cg c) (cg c')).
  { intros b0 mode a b H. unfold compare_with in H. destruct (lib (b0 _)); cbn [bind] in H; try discriminate. rewrite add_node_extend in H.
    assert (G : grows (cg c) (extend (cg c) [FZero TGgsw1] [])) by (apply extend_grows; auto; intros s t0 l []).
    destruct (insert lib _ _ _ _) as [[g o]| |] eqn:EI; cbn [bind] in H; try discriminate. destruct o as [|o os]; [discriminate|]. injection H as <- <-.
    pose proof (grows_trans _ _ _ G (insert_grows _ _ _ _ _ _ (grows_ok _ _ G) EI)). split; [now apply with_graph_ok|auto]. }
  assert (BO : forall b0 mode a b, binop lib b0 mode a b c = Ok (c', ns) -> ctx_ok c' /\ grows (cg c) (cg c')).
  { intros b0 mode a b H. unfold binop in H. destruct (insert lib _ _ _ _) as [[g o]| |] eqn:EI; cbn [bind] in H; try discriminate. injection H as <- <-.
    pose proof (insert_grows _ _ _ _ _ _ EN EI). split; [now apply with_graph_ok|auto]. }
  destruct k; cbn [run_call] in E; try discriminate; eauto.
  - apply (W _ ) in E; auto. intros g l. apply gmap_grows; auto. intros g0 x g1 n E0. apply nadd_grows; auto. intros i s t0 l0 [].
  - apply (W _ ) in E; auto. intros g l. apply gconvert_grows; auto.
  - apply (W _ ) in E; auto. intros g l. apply gmap_grows; auto. intros g0 x g1 n E0. apply nadd_grows; auto. intros i s t0 l0 [Hi|[]]. now injection Hi.
  - destruct (const_bit v t c) as [[c1 n]| |] eqn:E1; cbn [bind] in E; try discriminate. injection E as <- <-. apply const_grows in E1; auto. tauto.
  - apply (W _ ) in E; auto. intros g l. apply gmap_grows; auto. intros g0 x g1 n E0. apply nadd_grows; auto. intros i s0 t0 l0 [Hi|[Hi|[Hi|[]]]]; now injection Hi.
  - unfold resize in E. destruct (resize_config p sg (length ns0) new) as [[[m e] u]| |]; cbn [bind] in E; try discriminate. destruct u.
    + destruct (rev ns0); cbn [bind] in E; try discriminate. injection E as <- <-. split; [auto|now apply grows_refl].
    + destruct (const_bit false t c) as [[c1 n]| |] eqn:E1; cbn [bind] in E; try discriminate. injection E as <- <-. apply const_grows in E1; auto. tauto.
  - unfold pack in E. destruct (negb _); cbn [bind] in E; try discriminate. destruct (length ns0 =? 0); cbn [bind] in E; try discriminate.
    destruct (gmap shift_bit _ _) as [[g1 sh]| |] eqn:E1; cbn [bind] in E; try discriminate.
    destruct (foldM reduce_level _ _) as [[g2 rd]| |] eqn:E2; cbn [bind] in E; try discriminate.
    destruct rd as [|id [|]]; cbn [bind] in E; try discriminate. injection E as <- <-.
    assert (G1 : grows (cg c) g1).
    { revert E1. apply gmap_grows; auto. intros g0 x g3 n E0. unfold shift_bit. destruct (0 <? snd x); [|intros Q; injection Q as <- <-; now apply grows_refl].
      apply nadd_grows; auto. intros i s t0 l0 [Hi|[]]. now injection Hi. }
    assert (G2 : grows g1 g2).
    { clear E1 NM W CW BO. revert g1 sh g2 id E2 G1. clear - EN. induction (seq 0 (next_log2 (length ns0))) as [|i l IH]; intros g1 sh g2 id E2 G1; cbn [foldM] in E2.
      - injection E2 as <- _. apply grows_refl. now apply grows_ok in G1.
      - destruct (reduce_level (g1, sh) i) as [[g3 sh3]| |] eqn:E3; cbn [bind] in E2; try discriminate. unfold reduce_level in E3.
        destruct (1 <? length sh); [|discriminate].
        assert (G3 : grows g1 g3).
        { revert E3. apply gmap_grows; [|now apply grows_ok in G1]. intros g0 x g4 n E0. unfold add_pair. destruct x as [|a [|b [|? ?]]]; try discriminate.
          - intros Q; injection Q as <- <-; now apply grows_refl.
          - apply nadd_grows; auto. intros j s t0 l0 [Hi|[Hi|[]]]; now injection Hi. }
        eapply grows_trans; [exact G3|]. eapply IH; eauto. eapply grows_trans; eauto. }
    pose proof (grows_trans _ _ _ G1 G2). split; [now apply with_graph_ok|auto].
  - apply (W _ ) in E; auto. intros g l. apply gmap_grows; auto. intros g0 x g1 n0 E0. apply nadd_grows; auto. intros i s t0 l0 [Hi|[]]. now injection Hi.
Qed.
Lemma run_calls_grows : forall ks c hs c' hs', ctx_ok c -> Forall (fun k => forall l, not_mul (k l) = true) ks -> run_calls lib c hs ks = Ok (c', hs') -> ctx_ok c' /\ grows (cg c) (cg c').
Proof.
  induction ks as [|k ks IH]; intros c hs c' hs' C F E; cbn [run_calls] in E.
  - injection E as <- <-. split; [auto|]. apply grows_refl. apply C.
  - inversion F as [|? ? Hk Hks]. subst. destruct (run_call lib c (k hs)) as [[c1 ns]| |] eqn:E1; cbn [bind] in E; try discriminate.
    destruct (run_call_grows _ _ _ _ C (Hk hs) E1) as [C1 G1]. destruct (IH _ _ _ _ C1 Hks E) as [C2 G2]. split; [auto|]. eapply grows_trans; eauto.
Qed.
End Lib.
