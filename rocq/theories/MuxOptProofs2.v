(** Proofs: elimination on levelled circuits, continued. *)
From Coq Require Import Permutation ZifyBool ZifyNat.
From Verif Require Import Base Alu AluProofs Graph MuxGraph SpecMux MuxGraphProofs MuxGraphProofs2 MuxGraphProofs3 MuxEval MuxEvalProofs MuxOptProofs.
Open Scope nat_scope.

Lemma cse_children_ok (g : mgraph) : forall es done ts seen ps, NoDup (done ++ es) ->
  (forall e, In e es -> node g e = Some MMux /\ exists k, get_mux_operands g e = Ok k) ->
  child_inv g ts seen ps -> NoDup (map snd ps) -> (forall p, In p ps -> In (fst p) done /\ In (snd p) done) -> (forall p, In p seen -> In (snd p) done) ->
  (forall e, In e done -> In e (map snd ps) \/ exists k, get_mux_operands g e = Ok k /\ In (k, e) seen) ->
  exists ts' seen' ps', foldM (cse_child g) es (ts, seen) = Ok (ts', seen') /\ child_inv g ts' seen' ps' /\ NoDup (map snd ps') /\
    (forall p, In p ps' -> In (fst p) (done ++ es) /\ In (snd p) (done ++ es)) /\
    (forall e, In e (done ++ es) -> In e (map snd ps') \/ exists k, get_mux_operands g e = Ok k /\ In (k, e) seen').
Proof.
  induction es as [|e es IH]; intros done ts seen ps ND Hes I U Hp Hs Hd.
  - exists ts, seen, ps. rewrite app_nil_r. split; [reflexivity|]. split; [exact I|]. split; [exact U|]. split; assumption.
  - destruct (Hes e ltac:(now left)) as [En (k & Ek)]. cbn [foldM]. unfold cse_child at 1. rewrite En, Ek. cbn [bind].
    assert (Nd : ~ In e done) by (apply NoDup_remove_2 in ND; intros H; apply ND, in_or_app; now left).
    replace (done ++ e :: es) with ((done ++ [e]) ++ es) in ND |- * by (rewrite <- app_assoc; reflexivity).
    destruct (find (fun p => key_eqb (fst p) k) seen) as [(k', f)|] eqn:F.
    + apply find_some in F as [F1 F2]. cbn [fst] in F2. apply key_eqb_eq in F2. subst k'. assert (Hf : In f done) by apply (Hs _ F1).
      destruct (Nat.eqb_spec f e) as [-> |Hfe]; [contradiction|]. cbn [bind]. destruct I as (I1 & I2 & I3 & I4).
      apply (IH (done ++ [e]) _ _ (ps ++ [(f, e)])); auto.
      * intros e' He'. apply Hes. now right.
      * split; [|split; [exact I2|split; [exact I3|]]].
        -- rewrite flat_map_app, I1. cbn [flat_map]. now rewrite app_nil_r.
        -- intros f' e' H. apply in_app_or in H as [H|[H|[]]]; [now apply I4|]. injection H as <- <-. split; [exact Hfe|]. split; [exact En|]. exists k. split; assumption.
      * rewrite map_app. cbn [map snd]. apply NoDup_app_intro; [exact U|repeat constructor; intros []|]. intros x Hx [<- |[]]. apply in_map_iff in Hx as (p & <- & Hx). apply Nd, Hp, Hx.
      * intros p H. rewrite !in_app_iff. apply in_app_or in H as [H|[<- |[]]]; [destruct (Hp p H); auto|]. cbn. auto.
      * intros p H. rewrite in_app_iff. left. now apply Hs.
      * intros x H. rewrite map_app, in_app_iff. apply in_app_or in H as [H|[<- |[]]]; [destruct (Hd x H); auto|]. left. right. now left.
    + destruct I as (I1 & I2 & I3 & I4). apply (IH (done ++ [e]) _ _ ps); auto.
      * intros e' He'. apply Hes. now right.
      * split; [exact I1|]. split; [|split].
        -- intros k' f' [H|H]; [injection H as <- <-; auto|auto].
        -- intros k' f1 f2 [H1|H1] [H2|H2].
           ++ congruence.
           ++ injection H1 as <- <-. apply (find_none _ _ F) in H2. cbn in H2. rewrite (proj2 (key_eqb_eq k k) eq_refl) in H2. discriminate.
           ++ injection H2 as <- <-. apply (find_none _ _ F) in H1. cbn in H1. rewrite (proj2 (key_eqb_eq k k) eq_refl) in H1. discriminate.
           ++ eauto.
        -- intros f' e' H. destruct (I4 f' e' H) as (A & B & k' & C & D). split; [exact A|]. split; [exact B|]. exists k'. split; [exact C|now right].
      * intros p H. rewrite !in_app_iff. destruct (Hp p H). auto.
      * intros p [<- |H]; rewrite in_app_iff; [right; now left|left; now apply Hs].
      * intros x H. apply in_app_or in H as [H|[<- |[]]]; [destruct (Hd x H) as [D|(k' & D1 & D2)]; [auto|right; exists k'; split; [exact D1|now right]]|].
        right. exists k. split; [exact Ek|now left].
Qed.

Section Levels.
Context (nv : nat) (lvl : nat -> nat).
Record lvinv (g : mgraph) : Prop := {
  li_ends : ends g;
  li_once : NoDup (ekeys (gedges g));
  li_mux : forall n, node g n = Some MMux -> forall l, (exists s, In (s, n, l) (gedges g)) <-> l <> OutEdge;
  li_out : forall n i, node g n = Some (MOut i) -> forall l, (exists s, In (s, n, l) (gedges g)) <-> l = OutEdge;
  li_source : forall n w, node g n = Some w -> w <> MMux -> (forall i, w <> MOut i) -> forall s l, ~ In (s, n, l) (gedges g);
  li_sel : forall s t, In (s, t, Select) (gedges g) -> node g s = Some (MVar (lvl t)) /\ lvl t < nv;
  li_src : forall s t l, In (s, t, l) (gedges g) -> l <> Select ->
    node g s = Some MZero \/ node g s = Some MOne \/ (node g s = Some MMux /\ (node g t = Some MMux -> lvl t < lvl s));
  li_var : forall n n' x, node g n = Some (MVar x) -> node g n' = Some (MVar x) -> n = n'
}.
Definition op (g : mgraph) m s l h : Prop := In (s, m, Select) (gedges g) /\ In (l, m, Low) (gedges g) /\ In (h, m, High) (gedges g).
Definition uniq i (g : mgraph) : Prop := forall m m' s l h, node g m = Some MMux -> node g m' = Some MMux -> i <= lvl m -> i <= lvl m' ->
  op g m s l h -> op g m' s l h -> m = m'.

Lemma lvinv_wf g : lvinv g -> mux_wf g.
Proof.
  intros [H1 H2 H3 H4 H5 H6 H7 H8]. constructor; auto.
  exists (fun n => match node g n with Some MMux => nv - lvl n | Some (MOut _) => S nv | _ => 0 end). intros s t l H.
  destruct (H1 s t l H) as [_ Ct]. apply contains_node in Ct as [w Hw].
  assert (B : forall m, node g m = Some MMux -> lvl m < nv). { intros m Hm. destruct (proj2 (H3 m Hm Select)) as [x Hx]; [discriminate|]. apply (H6 _ _ Hx). }
  destruct l.
  - destruct (H7 s t Low H ltac:(discriminate)) as [E|[E|[E L]]]; rewrite E, Hw.
    1-2: (destruct w; try (exfalso; eapply (H5 t); [exact Hw|discriminate|discriminate|exact H]); [specialize (B t Hw); lia|lia]).
    destruct w; try (exfalso; eapply (H5 t); [exact Hw|discriminate|discriminate|exact H]); [specialize (B s E); specialize (L Hw); lia|lia].
  - destruct (H7 s t High H ltac:(discriminate)) as [E|[E|[E L]]]; rewrite E, Hw.
    1-2: (destruct w; try (exfalso; eapply (H5 t); [exact Hw|discriminate|discriminate|exact H]); [specialize (B t Hw); lia|lia]).
    destruct w; try (exfalso; eapply (H5 t); [exact Hw|discriminate|discriminate|exact H]); [specialize (B s E); specialize (L Hw); lia|lia].
  - destruct (H6 s t H) as [E L]. rewrite E, Hw. destruct w; try (exfalso; eapply (H5 t); [exact Hw|discriminate|discriminate|exact H]); lia.
  - destruct (H7 s t OutEdge H ltac:(discriminate)) as [E|[E|[E L]]]; rewrite E, Hw.
    1-2: (destruct w; try (exfalso; eapply (H5 t); [exact Hw|discriminate|discriminate|exact H]); [specialize (B t Hw); lia|lia]).
    destruct w; try (exfalso; eapply (H5 t); [exact Hw|discriminate|discriminate|exact H]); [specialize (B s E); specialize (L Hw); lia|lia].
Qed.

(** Visiting input x after the inputs above it. *)
Lemma visit_var g v x : lvinv g -> uniq (S x) g -> node g v = Some (MVar x) ->
  exists ts g', cse_visit g v = Ok ts /\ apply_transforms ts g = Ok g' /\ lvinv g' /\ uniq x g'.
Proof.
  intros LI UQ Hv. pose proof LI as [H1 H2 H3 H4 H5 H6 H7 H8].
  assert (Out : forall t l, In (v, t, l) (gedges g) -> l = Select /\ node g t = Some MMux /\ lvl t = x).
  { intros t l H. assert (l = Select) as ->.
    { assert (Dl : forall a b : medge, {a = b} + {a <> b}) by decide equality. destruct (Dl l Select) as [E|E]; [exact E|exfalso]. destruct (H7 v t l H E) as [K|[K|[K _]]]; congruence. }
    split; [reflexivity|]. destruct (H6 v t H) as [E L]. rewrite Hv in E. injection E as E. split; [|auto]. destruct (H1 _ _ _ H) as [_ Ct]. apply contains_node in Ct as [w Hw]. rewrite Hw.
    destruct w; auto; exfalso; [eapply (H5 t); [exact Hw|discriminate|discriminate|exact H]..|].
    assert (X : Select = OutEdge) by (apply (H4 t i Hw Select); now exists v). discriminate. }
  assert (Chi : forall t, In t (succs g v) <-> In (v, t, Select) (gedges g)).
  { intros t. unfold succs. rewrite in_map_iff. split.
    - intros (((s, t'), l) & E & H). apply out_edges_spec in H as [H Es]. cbn in *. subst. destruct (Out t l H) as (-> & _). exact H.
    - intros H. exists (v, t, Select). split; [reflexivity|]. apply out_edges_spec. auto. }
  assert (Chi2 : forall t, node g t = Some MMux -> lvl t = x -> In t (succs g v)).
  { intros t Ht Hx. apply Chi. destruct (proj2 (H3 t Ht Select)) as [s Hs]; [discriminate|]. destruct (H6 _ _ Hs) as [E _]. rewrite Hx in E. now rewrite (H8 _ _ _ Hv E). }
  assert (NDs : NoDup (succs g v)).
  { apply (NoDup_map_filter _ (fun e => fst (fst e) =? v)) in H2. fold (out_edges g v) in H2. unfold succs. apply (NoDup_map_inv (fun t => (t, Select))). rewrite map_map.
    erewrite map_ext_in; [exact H2|]. intros ((s, t), l) H. apply out_edges_spec in H as [H Es]. cbn in *. subst s. destruct (Out t l H) as (-> & _). reflexivity. }
  assert (OpT : forall m, node g m = Some MMux -> exists s l h, get_mux_operands g m = Ok (s, l, h) /\ op g m s l h).
  { intros m Hm. destruct (operands_total g m H2 (H3 m Hm)) as (s & l & h & E & A). exists s, l, h. split; [exact E|exact A]. }
  destruct (cse_children_ok g (succs g v) [] [] [] []) as (ts & seen & ps & E & I & U & Hp & Hd).
  { exact NDs. }
  { intros e He. apply Chi, Out in He as (_ & He & _). split; [exact He|]. destruct (OpT e He) as (s & l & h & E & _). eauto. }
  { split; [reflexivity|]. split; [intros k f []|]. split; [intros k f f' []|intros f e []]. }
  { constructor. } { intros p []. } { intros p []. } { intros e []. }
  cbn [app] in Hp, Hd. destruct I as (I1 & I2 & I3 & I4).
  (* a merged pair: two muxes of level x with the same operands *)
  assert (Pair : forall f e, In (f, e) ps -> f <> e /\ node g f = Some MMux /\ node g e = Some MMux /\ lvl f = x /\ lvl e = x /\ exists k, get_mux_operands g e = Ok k /\ get_mux_operands g f = Ok k /\ In (k, f) seen).
  { intros f e H. destruct (I4 f e H) as (A1 & A2 & k & A3 & A4). destruct (I2 k f A4) as [A5 A6]. destruct (Hp _ H) as [P1 P2]. cbn in P1, P2. apply Chi, Out in P1 as (_ & _ & P1). apply Chi, Out in P2 as (_ & _ & P2). repeat (split; [assumption|]). exists k. auto. }
  assert (Rem : forall n, In n (map snd ps) -> node g n = Some MMux /\ lvl n = x /\ exists f, In (f, n) ps).
  { intros n Hn. apply in_map_iff in Hn as ((f, e) & <- & H). cbn. destruct (Pair f e H) as (_ & _ & A & _ & B & _). eauto. }
  assert (HN : forall f e e', In (f, e) ps -> In (e', f) ps -> False).
  { intros f e e' Ha Hb. destruct (Pair _ _ Ha) as (_ & _ & _ & _ & _ & k1 & _ & G1 & S1). destruct (Pair _ _ Hb) as (D2 & _ & _ & _ & _ & k2 & G2 & _ & S2).
    assert (k1 = k2) by congruence. subst k2. apply D2. eapply I3; eauto. }
  assert (Fn : forall f e, In (f, e) ps -> ~ In f (map snd ps)).
  { intros f e H K. apply in_map_iff in K as ((f', e') & E' & K). cbn in E'. subst e'. exact (HN f e f' H K). }
  (* targets of merged nodes are never merged *)
  assert (Tg : forall e t l, node g e = Some MMux -> lvl e = x -> In (e, t, l) (gedges g) -> ~ In t (map snd ps)).
  { intros e t l He Hx H K. destruct (Rem t K) as (A & B & _). assert (Nl : l <> Select) by (intros ->; destruct (H6 _ _ H); congruence).
    destruct (H7 _ _ _ H Nl) as [X|[X|[_ X]]]; [congruence|congruence|]. specialize (X A). lia. }
  destruct (merges_ok g ps g) as (g' & Ea & U').
  { intros f e H. destruct (Pair f e H) as (_ & A & B & _). split; [apply contains_node; eauto|]. intros t l Ht. apply (H1 _ _ _ Ht). }
  { intros f e f' e' Ha Hb. split.
    - intros ->. exact (HN _ _ _ Ha Hb).
    - intros t l Ht ->. destruct (Pair f e Ha) as (_ & _ & B & _ & C & _). apply (Tg e e' l B C Ht). apply in_map_iff. now exists (f', e'). }
  { exact U. } { reflexivity. } { exact H2. }
  subst ts. exists (flat_map (mv g) ps), g'. split; [unfold cse_visit; rewrite E; reflexivity|]. split; [exact Ea|].
  destruct (apply_merges g ps HN g g' Ea) as [NG EG].
  assert (Ng : forall n, ~ In n (map snd ps) -> node g' n = node g n) by (intros n Hn; rewrite NG; now rewrite (proj2 (mem_not _ _) Hn)).
  assert (Ni : forall n w, node g' n = Some w -> node g n = Some w /\ ~ In n (map snd ps)).
  { intros n w H. rewrite NG in H. destruct (mem n (map snd ps)) eqn:M; [discriminate|]. split; [exact H|now apply mem_not]. }
  assert (NonMux : forall n w, node g n = Some w -> w <> MMux -> node g' n = Some w).
  { intros n w H Hw. rewrite Ng; [exact H|]. intros K. apply Rem in K as (K & _). congruence. }
  (* edges into surviving nodes survive, with a source that is itself or the kept twin *)
  assert (Fw : forall s t l, In (s, t, l) (gedges g) -> ~ In t (map snd ps) -> exists s', In (s', t, l) (gedges g')).
  { intros s t l H Ht. destruct (in_dec Nat.eq_dec s (map snd ps)) as [D|D].
    - destruct (Rem s D) as (_ & _ & f & Hf). exists f. apply EG. split; [right; exists f, s; auto|]. split; [eapply Fn; eauto|exact Ht].
    - exists s. apply EG. auto. }
  assert (Bw : forall s t l, In (s, t, l) (gedges g') -> ~ In s (map snd ps) /\ ~ In t (map snd ps) /\
     (In (s, t, l) (gedges g) \/ exists e, In (s, e) ps /\ In (e, t, l) (gedges g))).
  { intros s t l H. apply EG in H as ([H|(f & e & Hf & -> & H)] & A & B); split; auto. split; auto. right. eauto. }
  (* nodes of level x or more keep their edges *)
  assert (Same : forall s t l, node g t = Some MMux -> x <= lvl t -> ~ In t (map snd ps) -> (In (s, t, l) (gedges g') <-> In (s, t, l) (gedges g))).
  { intros s t l Ht Hx Hr. assert (K : forall s0, In (s0, t, l) (gedges g) -> node g s0 = Some MMux -> x < lvl s0).
    { intros s0 H0 Hm. assert (Nl : l <> Select) by (intros ->; destruct (H6 _ _ H0); congruence). destruct (H7 _ _ _ H0 Nl) as [X|[X|[_ X]]]; [congruence|congruence|]. specialize (X Ht). lia. }
    split.
    - intros H. destruct (Bw _ _ _ H) as (_ & _ & [B|(e & Hf & B)]); [exact B|]. destruct (Pair _ _ Hf) as (_ & _ & C & _ & D & _). specialize (K e B C). lia.
    - intros H. apply EG. split; [now left|]. split; [|exact Hr]. intros R. destruct (Rem s R) as (A & B & _). specialize (K s H A). lia. }
  split.
  - constructor.
    + intros s t l H. destruct (Bw s t l H) as (A & B & C). unfold contains. rewrite (Ng s A), (Ng t B). fold (contains g s) (contains g t). destruct C as [C|(e & Hf & C)]; [exact (H1 _ _ _ C)|].
      split; [|exact (proj2 (H1 _ _ _ C))]. destruct (Pair _ _ Hf) as (_ & D & _). apply contains_node. eauto.
    + exact U'.
    + intros n Hn l. apply Ni in Hn as [Hn Hr]. rewrite <- (H3 n Hn l). split; intros [s Hs].
      * destruct (Bw s n l Hs) as (_ & _ & [C|(e & _ & C)]); eauto.
      * eapply Fw; eauto.
    + intros n i Hn l. apply Ni in Hn as [Hn Hr]. rewrite <- (H4 n i Hn l). split; intros [s Hs].
      * destruct (Bw s n l Hs) as (_ & _ & [C|(e & _ & C)]); eauto.
      * eapply Fw; eauto.
    + intros n w Hn W1 W2 s l Hs. apply Ni in Hn as [Hn Hr]. destruct (Bw s n l Hs) as (_ & _ & [C|(e & _ & C)]); eapply (H5 n); eauto.
    + intros s t H. destruct (Bw s t Select H) as (A & _ & [C|(e & Hf & C)]).
      * destruct (H6 _ _ C) as [D L]. split; [|exact L]. now rewrite Ng.
      * destruct (Pair _ _ Hf) as (_ & _ & D & _). destruct (H6 _ _ C). congruence.
    + intros s t l H Nl. destruct (Bw s t l H) as (A & B & [C|(e & Hf & C)]); rewrite (Ng s A), (Ng t B).
      * exact (H7 _ _ _ C Nl).
      * destruct (Pair _ _ Hf) as (_ & D1 & D2 & D3 & D4 & _). destruct (H7 _ _ _ C Nl) as [X|[X|[_ X]]]; [congruence|congruence|]. right. right. split; [exact D1|]. intros Ht. specialize (X Ht). lia.
    + intros n n' y Hn Hn'. apply Ni in Hn as [Hn _]. apply Ni in Hn' as [Hn' _]. eapply H8; eauto.
  - intros m m' s l h Hm Hm' Lm Lm' O O'. apply Ni in Hm as [Hm Rm]. apply Ni in Hm' as [Hm' Rm'].
    assert (Q : op g m s l h) by (destruct O as (O1 & O2 & O3); split; [|split]; (eapply Same; [| | |eassumption]; assumption)).
    assert (Q' : op g m' s l h) by (destruct O' as (O1 & O2 & O3); split; [|split]; (eapply Same; [| | |eassumption]; assumption)).
    assert (El : lvl m = lvl m') by (destruct Q as (Q1 & _), Q' as (Q2 & _); destruct (H6 _ _ Q1), (H6 _ _ Q2); congruence).
    destruct (Nat.eq_dec (lvl m) x) as [Ex|Ex]; [|apply (UQ m m' s l h); auto; lia].
    assert (Key : forall n, node g n = Some MMux -> op g n s l h -> get_mux_operands g n = Ok (s, l, h)).
    { intros n Hn (A1 & A2 & A3). destruct (OpT n Hn) as (s0 & l0 & h0 & G & B1 & B2 & B3). rewrite G.
      rewrite (once_src _ s s0 n Select H2 A1 B1), (once_src _ l l0 n Low H2 A2 B2), (once_src _ h h0 n High H2 A3 B3). reflexivity. }
    destruct (Hd m (Chi2 m Hm Ex)) as [D|(k & G & D)]; [contradiction|]. destruct (Hd m' (Chi2 m' Hm' ltac:(lia))) as [D'|(k' & G' & D')]; [contradiction|].
    rewrite (Key m Hm Q) in G. rewrite (Key m' Hm' Q') in G'. assert (k = k') by congruence. subst k'. eapply I3; eauto.
Qed.

(** Visits of a circuit without duplicates change nothing. *)
Lemma children_none g : lvinv g -> uniq 0 g -> forall es (seen : list (key * nat)), (forall e, In e es -> contains g e = true) -> (forall k f, In (k, f) seen -> node g f = Some MMux /\ get_mux_operands g f = Ok k) ->
  exists seen', foldM (cse_child g) es ([], seen) = Ok ([], seen').
Proof.
  intros LI UQ. induction es as [|e es IH]; intros seen He Hs; [exists seen; reflexivity|]. cbn [foldM]. unfold cse_child at 1.
  pose proof (He e ltac:(now left)) as C. apply contains_node in C as [w Hw]. rewrite Hw.
  assert (He' : forall e, In e es -> contains g e = true) by (intros; apply He; now right).
  destruct w; try (cbn [bind]; apply IH; assumption).
  destruct (operands_total g e (li_once g LI) (li_mux g LI e Hw)) as (s & l & h & G & A). rewrite G. cbn [bind].
  destruct (find (fun p => key_eqb (fst p) (s, l, h)) seen) as [(k, f)|] eqn:F.
  - apply find_some in F as [F1 F2]. cbn [fst] in F2. apply key_eqb_eq in F2. subst k. destruct (Hs _ _ F1) as [Nf Gf].
    pose proof (get_mux_operands_inv _ _ _ _ _ Gf) as Of. assert (f = e) as ->.
    { apply (UQ f e s l h Nf Hw); [lia|lia| |exact A]. split; [|split]; apply Of; auto. }
    rewrite Nat.eqb_refl. cbn [bind]. apply IH; assumption.
  - cbn [bind]. apply IH; [exact He'|]. intros k f [H|H]; [injection H as <- <-; auto|auto].
Qed.

Record sinv (g : mgraph) (ready visited stack : list nat) : Prop := {
  si_nodup : NoDup (stack ++ visited);
  si_ready : incl (stack ++ visited) ready;
  si_lt : forall i, In i (stack ++ visited) -> i < length (gnodes g)
}.
Lemma sinv_pop g ready visited n stack : sinv g ready visited (n :: stack) -> sinv g ready (n :: visited) stack.
Proof.
  intros [A B C]. assert (P : Permutation ((n :: stack) ++ visited) (stack ++ n :: visited)) by apply Permutation_middle. constructor.
  - exact (Permutation_NoDup P A).
  - intros i H. apply B. exact (Permutation_in i (Permutation_sym P) H).
  - intros i H. apply C. exact (Permutation_in i (Permutation_sym P) H).
Qed.
Lemma sinv_push g g' ready visited stack new : sinv g ready visited stack -> length (gnodes g') = length (gnodes g) -> NoDup new -> (forall i, In i new -> ~ In i ready) -> (forall i, In i new -> i < length (gnodes g)) ->
  sinv g' (new ++ ready) visited (new ++ stack).
Proof.
  intros [A B C] L H1 H2 H3. constructor.
  - rewrite <- app_assoc. apply NoDup_app_intro; auto. intros x Hx Hs. apply (H2 x Hx), B, Hs.
  - rewrite <- app_assoc. apply incl_app; [apply incl_appl, incl_refl|apply incl_appr, B].
  - intros i. rewrite <- app_assoc, in_app_iff, L. intros [H|H]; auto.
Qed.
Lemma sinv_fuel g ready visited stack : sinv g ready visited stack -> length stack + length visited <= length (gnodes g).
Proof.
  intros [A B C]. rewrite <- app_length, <- (seq_length (length (gnodes g)) 0). apply NoDup_incl_length; [exact A|]. intros i H. apply in_seq. specialize (C i H). lia.
Qed.

(** The two pushes after a visit. *)
Lemma pushes (g' : mgraph) v l1 l2 ready stack : exists new, fold_left (push_ready g' v) l2 (fold_left (push_ready g' v) l1 (ready, stack)) = (new ++ ready, new ++ stack) /\ NoDup new /\
  (forall i, In i new -> (In i l1 \/ In i l2) /\ ~ In i ready /\ forall m, In m (preds g' i) -> In m v).
Proof.
  change (push_ready g' v) with (push_next g' v). destruct (push_fold g' v l1 ready stack) as (n1 & E1 & D1 & A1 & _). rewrite E1.
  destruct (push_fold g' v l2 (n1 ++ ready) (n1 ++ stack)) as (n2 & E2 & D2 & A2 & _). rewrite E2. exists (n2 ++ n1). rewrite !app_assoc. split; [reflexivity|]. split.
  - apply NoDup_app_intro; auto. intros x H2 H1. destruct (A2 x H2) as (_ & K & _). apply K, in_or_app. now left.
  - intros i H. apply in_app_or in H as [H|H].
    + destruct (A2 i H) as (X1 & X2 & X3). split; [now right|]. split; [|exact X3]. intros K. apply X2, in_or_app. now right.
    + destruct (A1 i H) as (X1 & X2 & X3). split; [now left|]. split; assumption.
Qed.

Lemma succs_lt (g : mgraph) n i : ends g -> In i (succs g n) -> i < length (gnodes g) /\ contains g i = true.
Proof. intros H K. pose proof (succs_contains g H n i K) as C. split; [|exact C]. apply contains_node in C as [w Hw]. eapply node_lt, Hw. Qed.

Lemma phase2 g : lvinv g -> uniq 0 g -> forall fuel ready visited stack, sinv g ready visited stack -> length (gnodes g) <= fuel + length visited ->
  cse_loop fuel g ready visited stack = Ok g.
Proof.
  intros LI UQ. induction fuel as [|fuel IH]; intros ready visited stack SI Hf; destruct stack as [|n stack]; cbn [cse_loop]; [reflexivity| |reflexivity|].
  - apply sinv_fuel in SI. cbn [length] in SI. lia.
  - apply sinv_pop in SI. destruct (contains g n) eqn:C; cbn [negb].
    2:{ apply IH; [exact SI|cbn [length]; lia]. }
    destruct (children_none g LI UQ (succs g n) []) as (seen & E).
    { intros e He. apply (succs_lt g n e (li_ends g LI) He). } { intros k f []. }
    assert (Ev : cse_visit g n = Ok []) by (unfold cse_visit; rewrite E; reflexivity). rewrite Ev. cbn [bind]. unfold apply_transforms. cbn [foldM bind]. rewrite C.
    destruct (pushes g (n :: visited) (succs g n) (succs g n) ready stack) as (new & E2 & ND & A). rewrite E2. apply IH; [|cbn [length]; lia].
    apply (sinv_push g g); auto.
    + intros i Hi. apply (A i Hi).
    + intros i Hi. destruct (A i Hi) as ([K|K] & _); exact (proj1 (succs_lt g n i (li_ends g LI) K)).
Qed.

Lemma phase1 L cs : forall fuel i g ready visited junk, lvinv g -> uniq i g -> i <= nv -> (forall x, x < nv -> node g (L + x) = Some (MVar x)) ->
  (forall n, In n junk -> contains g n = false) -> (forall n, In n visited -> contains g n = false \/ exists x, node g n = Some (MVar x)) ->
  sinv g ready visited (junk ++ rev (seq L i) ++ cs) -> length (gnodes g) <= fuel + length visited ->
  exists g', cse_loop fuel g ready visited (junk ++ rev (seq L i) ++ cs) = Ok g' /\ lvinv g' /\ uniq 0 g'.
Proof.
  induction fuel as [|fuel IH]; intros i g ready visited junk LI UQ Hi HV HJ HVis SI Hf.
  { assert (K : length (junk ++ rev (seq L i) ++ cs) = 0) by (apply sinv_fuel in SI; lia). destruct i; [|exfalso; rewrite !app_length, rev_length, seq_length in K; lia].
    destruct (junk ++ rev (seq L 0) ++ cs); [|discriminate]. exists g. split; [reflexivity|auto]. }
  destruct i as [|i]; [exists g; split; [|auto]; apply phase2; auto|].
  destruct junk as [|n junk].
  2:{ cbn [app] in *. cbn [cse_loop]. apply sinv_pop in SI. rewrite (HJ n ltac:(now left)). cbn [negb]. apply (IH (S i)); auto.
      - intros m Hm. apply HJ. now right.
      - intros m [<- |Hm]; [left; apply HJ; now left|now apply HVis].
      - cbn [length]. lia. }
  rewrite seq_S, rev_app_distr in *. cbn [app rev] in *. cbn [cse_loop]. apply sinv_pop in SI.
  pose proof (HV i ltac:(lia)) as Nv. assert (Cv : contains g (L + i) = true) by (apply contains_node; eauto). rewrite Cv. cbn [negb].
  destruct (visit_var g (L + i) i LI UQ Nv) as (ts & g' & Ev & Ea & LI' & UQ'). rewrite Ev. cbn [bind]. rewrite Ea. cbn [bind].
  destruct (visit_values g _ ts g' Ev Ea) as (V1 & V2 & _ & _).
  assert (Cv' : contains g' (L + i) = true) by (apply contains_node; exists (MVar i); apply V1; [exact Nv|discriminate]). rewrite Cv'.
  destruct (pushes g' ((L + i) :: visited) (succs g' (L + i)) (succs g (L + i)) ready (rev (seq L i) ++ cs)) as (new & E2 & ND & A). rewrite E2.
  assert (Vis' : forall n, In n ((L + i) :: visited) -> contains g' n = false \/ exists x, node g' n = Some (MVar x)).
  { intros n [<- |Hn]; [right; exists i; apply V1; [exact Nv|discriminate]|]. destruct (HVis n Hn) as [K|(x & K)]; [left|right; exists x; apply V1; [exact K|discriminate]].
    destruct (contains g' n) eqn:X; [|reflexivity]. apply contains_node in X as [w Hw]. apply V2 in Hw. unfold contains in K. rewrite Hw in K. discriminate. }
  apply (IH i); auto.
  - lia.
  - intros x Hx. apply V1; [now apply HV|discriminate].
  - intros n Hn. destruct (A n Hn) as (K1 & K2 & K3). destruct (contains g' n) eqn:X; [exfalso|reflexivity]. apply contains_node in X as [w Hw].
    assert (Hm : In (L + i, n, Select) (gedges g) \/ In (L + i, n, Select) (gedges g')).
    { destruct K1 as [K|K]; [right|left]; unfold succs in K; apply in_map_iff in K as (((s, t), l) & Et & K); apply out_edges_spec in K as [K Es]; cbn in *; subst s t.
      - assert (Dl : forall a b : medge, {a = b} + {a <> b}) by decide equality. destruct (Dl l Select) as [-> |E]; [exact K|exfalso]. assert (node g' (L + i) = Some (MVar i)) by (apply V1; [exact Nv|discriminate]). destruct (li_src g' LI' _ _ _ K E) as [X|[X|[X _]]]; congruence.
      - assert (Dl : forall a b : medge, {a = b} + {a <> b}) by decide equality. destruct (Dl l Select) as [-> |E]; [exact K|exfalso]. destruct (li_src g LI _ _ _ K E) as [X|[X|[X _]]]; congruence. }
    assert (w = MMux) as ->.
    { destruct w; auto; exfalso; destruct Hm as [Hm|Hm].
      all: try (eapply (li_source g LI n); [apply V2; exact Hw|discriminate|discriminate|exact Hm]).
      all: try (eapply (li_source g' LI' n); [exact Hw|discriminate|discriminate|exact Hm]).
      - assert (Y : Select = OutEdge) by (apply (li_out g LI n i0 (V2 _ _ Hw) Select); eauto). discriminate.
      - assert (Y : Select = OutEdge) by (apply (li_out g' LI' n i0 Hw Select); eauto). discriminate. }
    destruct (proj2 (li_mux g' LI' n Hw Low)) as [s Hs]; [discriminate|]. pose proof (K3 s (in_preds g' _ _ _ Hs)) as Sv.
    destruct (Vis' s Sv) as [K|(x & K)].
    + destruct (li_ends g' LI' _ _ _ Hs) as [Y _]. congruence.
    + destruct (li_src g' LI' _ _ _ Hs ltac:(discriminate)) as [X|[X|[X _]]]; congruence.
  - apply (sinv_push g g'); auto.
    + eapply apply_length, Ea.
    + intros n Hn. apply (A n Hn).
    + intros n Hn. destruct (A n Hn) as ([K|K] & _); [rewrite <- (apply_length _ _ _ Ea); exact (proj1 (succs_lt g' _ n (li_ends g' LI') K))|exact (proj1 (succs_lt g _ n (li_ends g LI) K))].
  - rewrite (apply_length _ _ _ Ea). cbn [length]. lia.
Qed.
End Levels.
