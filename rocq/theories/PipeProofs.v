(** Proofs: circuits compiled from ordered decision diagrams, before and after optimisation, have the shape the FHE insertion needs and a
    mux depth of at most the number of variables. *)
From Verif Require Import Base Graph MuxGraph SpecMux SpecMuxOpt MuxGraphProofs MuxGraphProofs2 MuxGraphProofs3 MuxGraphProofs4 MuxOptProofs MuxOptProofs2 MuxOptProofs3 MuxOptProofs4
  Circuits FheGraph SpecFhe SpecFluent FluentLib SpecPipe.
Ltac Zify.zify_post_hook ::= idtac.
Open Scope nat_scope.

Lemma lvinv_depth nv lvl g : lvinv nv lvl g -> depth_at_most g nv.
Proof.
  intros LI. exists (fun n => nv - lvl n).
  assert (B : forall m, node g m = Some MMux -> lvl m < nv). { intros m Hm. destruct (proj2 (li_mux nv lvl g LI m Hm Select)) as [x Hx]; [discriminate|]. apply (li_sel nv lvl g LI _ _ Hx). }
  split; [intros n Hn; specialize (B n Hn); lia|]. intros s t l H Hl Hs Ht. pose proof (B t Ht). pose proof (B s Hs).
  destruct (li_src nv lvl g LI s t l H) as [E|[E|[E L]]]; [destruct Hl; congruence|congruence|congruence|]. specialize (L Ht). lia.
Qed.
Lemma lvinv_edges nv lvl g : lvinv nv lvl g -> forall s t l, In (s, t, l) (gedges g) -> match node g s with Some (MVar _) => l = Select | Some (MOut _) => False | _ => l <> Select end.
Proof.
  intros LI s t l H. destruct l; try (destruct (li_src nv lvl g LI s t _ H ltac:(discriminate)) as [E|[E|[E _]]]; rewrite E; discriminate).
  destruct (li_sel nv lvl g LI s t H) as [E _]. now rewrite E.
Qed.
Lemma compact_depth g D : ends g -> depth_at_most g D -> depth_at_most (compact g) D.
Proof.
  intros En (rank & R1 & R2).
  exists (fun m => rank (nth m (node_indices g) 0)). split.
  - intros n Hn. apply compact_surj in Hn as (n0 & Hn0 & <-). rewrite node_indices_compact by (apply contains_node; eauto). auto.
  - intros s t l H Hl Hs Ht. apply compact_surj in Hs as (s0 & Hs0 & <-), Ht as (t0 & Ht0 & <-).
    assert (Cs : contains g s0 = true) by (apply contains_node; eauto). assert (Ct : contains g t0 = true) by (apply contains_node; eauto).
    apply (compact_edges g En s0 t0 l Cs Ct) in H. rewrite !node_indices_compact by auto. exact (R2 s0 t0 l H Hl Hs0 Ht0).
Qed.
Lemma compact_srcs g : ends g -> (forall s t l, In (s, t, l) (gedges g) -> match node g s with Some (MVar _) => l = Select | Some (MOut _) => False | _ => l <> Select end) ->
  forall s t l, In (s, t, l) (gedges (compact g)) -> match node (compact g) s with Some (MVar _) => l = Select | Some (MOut _) => False | _ => l <> Select end.
Proof.
  intros En H s t l Hi. cbn [compact gedges] in Hi. apply in_map_iff in Hi as (((s0 & t0) & l0) & E & Hi). cbn [fst snd] in E. injection E as <- <- <-.
  destruct (En _ _ _ Hi) as [C _]. apply contains_node in C as [w Hw]. rewrite (compact_node g s0 w Hw). pose proof (H _ _ _ Hi) as Q. now rewrite Hw in Q.
Qed.

Lemma compiled_ok nv ds : ds <> [] -> Forall (bdd_wf nv) ds -> Forall bdd_ordered ds ->
  exists g inputs g' inputs', from_bdds ds = Ok (g, inputs) /\ optimize g = Ok (g', inputs') /\
    (mux_wf g /\ length inputs = nv /\ diagram_shaped g inputs (length ds) /\ depth_at_most g nv /\
     forall j d, nth_error ds j = Some d -> forall n, node g n = Some (MOut j) -> forall v, length v = nv -> value g v n (bdd_value d v)) /\
    (mux_wf g' /\ length inputs' = nv /\ diagram_shaped g' inputs' (length ds) /\ depth_at_most g' nv /\
     forall j d, nth_error ds j = Some d -> forall n, node g' n = Some (MOut j) -> forall v, length v = nv -> value g' v n (bdd_value d v)).
Proof.
  intros Hne W O. destruct (from_bdds_levels nv ds Hne W O) as (g & L & lvl & E & LI & Hl & Hc & Hv & Hb & On).
  destruct (from_bdds_ok nv ds Hne W) as (g0 & inputs & E0 & WF & Li & Hin & Hout & Hj). assert (g0 = g /\ inputs = seq L nv) as [-> ->] by (split; congruence). clear E0.
  destruct (cse_total nv lvl g L LI Hl Hc Hv Hb) as (g1 & Ec & LI1 & U1).
  destruct (optimized_ok nv ds Hne W O) as (g0 & inputs0 & g' & inputs' & A1 & A2 & A3 & _ & _ & _ & A5 & A6 & A7 & A8 & _).
  assert (g0 = g) by congruence. subst g0. clear A1.
  assert (g' = compact g1) by (unfold optimize in A2; rewrite Ec in A2; cbn [bind] in A2; congruence).
  exists g, (seq L nv), g', inputs'. split; [exact E|]. split; [exact A2|]. split.
  - split; [exact WF|]. split; [exact Li|]. split; [apply (FheProofs5.from_bdds_shaped nv); auto|]. split; [now apply (lvinv_depth nv lvl)|].
    intros j d Hd n Hn v Lv. destruct (Hout j d Hd) as (n0 & N1 & N2 & N3). rewrite (N3 n Hn). auto.
  - split; [exact A3|]. split; [exact A5|]. split; [|split].
    + constructor.
      * exact A6.
      * subst g'. apply compact_srcs; [exact (li_ends _ _ _ LI1)|]. now apply (lvinv_edges nv lvl).
      * intros o. split.
        -- intros Ho. apply nth_error_Some in Ho. destruct (nth_error ds o) as [d|] eqn:Ed; [|congruence]. destruct (A7 o d Ed) as (n & Hn & _). eauto.
        -- intros [n Hn]. eauto.
      * intros n n' o Hn Hn'. pose proof (A8 n o Hn) as Ho. apply nth_error_Some in Ho. destruct (nth_error ds o) as [d|] eqn:Ed; [|congruence].
        destruct (A7 o d Ed) as (q & _ & _ & Hq). rewrite (Hq n Hn), (Hq n' Hn'). reflexivity.
    + subst g'. apply compact_depth; [exact (li_ends _ _ _ LI1)|]. now apply (lvinv_depth nv lvl).
    + intros j d Hd n Hn v Lv. destruct (A7 j d Hd) as (n0 & N1 & N2 & N3). rewrite (N3 n Hn). auto.
Qed.

Lemma diagrams_compiled c ds : diagrams_of c ds -> exists g inputs g' inputs', from_bdds ds = Ok (g, inputs) /\ optimize g = Ok (g', inputs') /\
  (compiled c g inputs /\ depth_at_most g (c_arity c)) /\ (compiled c g' inputs' /\ depth_at_most g' (c_arity c)).
Proof.
  intros (NE & W & O & V). destruct (compiled_ok (c_arity c) ds NE W O) as (g & i & g' & i' & E & E' & (A1 & A2 & A3 & A4 & A5) & (B1 & B2 & B3 & B4 & B5)).
  exists g, i, g', i'. split; [exact E|]. split; [exact E'|].
  assert (Q : forall g n o, diagram_shaped g i (length ds) \/ diagram_shaped g i' (length ds) -> node g n = Some (MOut o) -> exists d, nth_error ds o = Some d).
  { intros g1 n o [D|D] Hn; destruct (nth_error ds o) as [d|] eqn:Ed; eauto; apply nth_error_None in Ed; assert (o < length ds) by (apply (ds_outs _ _ _ D); eauto); lia. }
  assert (Vo : forall v o d, length v = c_arity c -> nth_error ds o = Some d -> nth o (c_fn c v) false = bdd_value d v).
  { intros v o d Lv Hd. rewrite <- V by auto. apply nth_error_nth. now apply (map_nth_error (fun d => bdd_value d v)). }
  split; (split; [|assumption]); constructor; auto; exists (length ds); (split; [assumption|]); intros v Lv; (split; [rewrite <- V by auto; apply map_length|]); intros n o Hn.
  - destruct (Q g n o (or_introl A3) Hn) as [d Hd]. rewrite (Vo v o d Lv Hd). eauto.
  - destruct (Q g' n o (or_intror B3) Hn) as [d Hd]. rewrite (Vo v o d Lv Hd). eauto.
Qed.

(** ** Every circuit has ordered diagrams: Shannon expansion. *)
Definition dord (v0 len0 : nat) (d : bdd) : Prop := forall k v lo hi, nth_error d k = Some (v, lo, hi) -> len0 <= k -> v0 <= v.
Lemma shannon_ordered : forall nv j v f d r d', shannon j v f d = (r, d') -> v + j = nv -> bdd_wf nv d -> 2 <= length d -> bdd_ordered d ->
  bdd_ordered d' /\ dord v (length d) d' /\ (r <= 1 \/ (length d <= r /\ r < length d')) /\ length d <= length d' /\ exists ext, d' = d ++ ext.
Proof.
  intros nv. induction j as [|j IH]; intros v f d r d' E Vn W L O.
  - cbn [shannon] in E. injection E as <- <-. split; [exact O|]. split; [|split; [left; destruct (f []); lia|split; [lia|exists []; now rewrite app_nil_r]]].
    intros k v' lo hi H K. assert (k < length d) by (apply nth_error_Some; congruence). lia.
  - cbn [shannon] in E. destruct (shannon j (S v) (fun l => f (false :: l)) d) as [lo d1] eqn:E1. destruct (shannon j (S v) (fun l => f (true :: l)) d1) as [hi d2] eqn:E2.
    destruct (shannon_ok nv _ _ _ _ _ _ E1 ltac:(lia) W L) as (W1 & _). destruct (IH _ _ _ _ _ E1 ltac:(lia) W L O) as (O1 & D1 & R1 & L1 & x1 & X1).
    destruct (shannon_ok nv _ _ _ _ _ _ E2 ltac:(lia) W1 ltac:(lia)) as (W2 & _). destruct (IH _ _ _ _ _ E2 ltac:(lia) W1 ltac:(lia) O1) as (O2 & D2 & R2 & L2 & x2 & X2).
    assert (D : dord (S v) (length d) d2).
    { intros k v' lo' hi' H K. destruct (Nat.lt_ge_cases k (length d1)) as [Q|Q]; [|eauto].
      rewrite X2, nth_error_app1 in H by auto. eauto. }
    destruct (lo =? hi); injection E as <- <-.
    + split; [exact O2|]. split; [intros k v' lo' hi' H K; specialize (D _ _ _ _ H K); lia|]. split; [lia|]. split; [lia|]. exists (x1 ++ x2). now rewrite X2, X1, app_assoc.
    + rewrite app_length. cbn [length]. split; [|split; [|split; [right; lia|split; [lia|exists (x1 ++ x2 ++ [(v, lo, hi)]); now rewrite X2, X1, !app_assoc]]]].
      * intros k v' lo' hi' H K c v1 lo1 hi1 Hc C2 H1.
        assert (Kl : k < length d2 \/ k = length d2).
        { assert (Q : k < length (d2 ++ [(v, lo, hi)])) by (apply nth_error_Some; congruence). rewrite app_length in Q. cbn [length] in Q. lia. }
        destruct Kl as [Kl| ->].
        -- rewrite nth_error_app1 in H by auto. pose proof (proj2 W2 _ _ _ _ H) as Wk. destruct k as [|[|k]]; [lia|lia|].
           rewrite nth_error_app1 in H1 by lia. exact (O2 _ _ _ _ H K _ _ _ _ Hc C2 H1).
        -- rewrite nth_error_app2, Nat.sub_diag in H by lia. injection H as <- <- <-.
           assert (Lc : c < length d2 /\ length d <= c) by (destruct Hc as [-> | ->]; lia). rewrite nth_error_app1 in H1 by lia.
           specialize (D _ _ _ _ H1 ltac:(lia)). lia.
      * intros k v' lo' hi' H K. destruct (Nat.lt_ge_cases k (length d2)) as [Q|Q].
        -- rewrite nth_error_app1 in H by auto. specialize (D _ _ _ _ H K). lia.
        -- rewrite nth_error_app2 in H by auto. destruct (k - length d2) as [|x]; [|destruct x; discriminate]. cbn in H. injection H as <- <- <-. lia.
Qed.
Lemma bdd_of_ordered nv f : bdd_ordered (bdd_of nv f).
Proof.
  unfold bdd_of. destruct (shannon nv 0 f _) as [r d] eqn:E.
  assert (W0 : bdd_wf nv [(nv, 0, 0); (nv, 1, 1)]).
  { split; [discriminate|]. intros [|[|k]] v lo hi H; cbn in H; [injection H as <- <- <-; auto|injection H as <- <- <-; auto|destruct k; discriminate]. }
  assert (O0 : bdd_ordered [(nv, 0, 0); (nv, 1, 1)]). { intros [|[|k]] v lo hi H K; [lia|lia|destruct k; discriminate]. }
  destruct (shannon_ordered nv _ _ _ _ _ _ E ltac:(lia) W0 ltac:(cbn; lia) O0) as (O & _). destruct (r =? 0); [|exact O].
  intros [|[|k]] v lo hi H K; [lia|lia|destruct k; discriminate].
Qed.
Lemma diagrams_exist c k : 0 < k -> (forall v, length v = c_arity c -> length (c_fn c v) = k) -> exists ds, length ds = k /\ diagrams_of c ds.
Proof.
  intros Hk Hl. exists (map (fun o => bdd_of (c_arity c) (fun v => nth o (c_fn c v) false)) (seq 0 k)). split; [now rewrite map_length, seq_length|].
  split; [destruct k; [lia|discriminate]|]. split; [|split].
  - apply Forall_forall. intros d Hd. apply in_map_iff in Hd as (o & <- & _). apply bdd_of_ok.
  - apply Forall_forall. intros d Hd. apply in_map_iff in Hd as (o & <- & _). apply bdd_of_ordered.
  - intros v Lv. rewrite map_map. rewrite (map_ext _ (fun o => nth o (c_fn c v) false)).
    + rewrite <- (Hl v Lv). generalize (c_fn c v). clear. intros l. induction l as [|b l IH]; [reflexivity|]. cbn [length seq map nth]. f_equal. rewrite <- seq_shift, map_map. exact IH.
    + intros o. apply (proj2 (bdd_of_ok (c_arity c) (fun v => nth o (c_fn c v) false)) v Lv).
Qed.
