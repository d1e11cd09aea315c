(** Proofs: graph operations, BDD translation. *)
From Coq Require Import ZifyBool ZifyNat.
From Verif Require Import Base Graph MuxGraph SpecMux.
Open Scope nat_scope.

Section G.
Context {N E : Type}.
Implicit Types g : graph N E.

Lemma node_lt : forall g n w, node g n = Some w -> n < length (gnodes g).
Proof. unfold node. intros g n w H. apply nth_error_Some. intros C. rewrite C in H. discriminate. Qed.
Lemma contains_node : forall g n, contains g n = true <-> exists w, node g n = Some w.
Proof. unfold contains. intros. destruct (node g n); split; intros; eauto; try discriminate. destruct H. discriminate. Qed.
Lemma node_add : forall g w n, node (snd (add_node g w)) n = if n =? length (gnodes g) then Some w else node g n.
Proof.
  intros. unfold node, add_node. cbn [snd gnodes]. destruct (n =? _) eqn:En.
  - apply Nat.eqb_eq in En. subst n. rewrite nth_error_app2, Nat.sub_diag by lia. reflexivity.
  - apply Nat.eqb_neq in En. destruct (Nat.lt_ge_cases n (length (gnodes g))).
    + now rewrite nth_error_app1 by lia.
    + rewrite nth_error_app2 by lia. rewrite (proj2 (nth_error_None (gnodes g) n)) by lia.
      destruct (n - length (gnodes g)) as [|k] eqn:Ek; [lia|]. cbn. destruct k; reflexivity.
Qed.
Lemma node_add_old : forall g w n v, node g n = Some v -> node (snd (add_node g w)) n = Some v.
Proof. intros. rewrite node_add. apply node_lt in H as L. replace (n =? _) with false by lia. auto. Qed.
Lemma node_add_new : forall g w, node (snd (add_node g w)) (length (gnodes g)) = Some w.
Proof. intros. rewrite node_add. now rewrite Nat.eqb_refl. Qed.

Lemma add_edge_ok : forall g a b l va vb, node g a = Some va -> node g b = Some vb ->
  add_edge g a b l = Ok {| gnodes := gnodes g; gedges := (a, b, l) :: gedges g |}.
Proof. intros. unfold add_edge, contains. rewrite H, H0. reflexivity. Qed.
Lemma add_edge_inv : forall g a b l g', add_edge g a b l = Ok g' ->
  contains g a = true /\ contains g b = true /\ g' = {| gnodes := gnodes g; gedges := (a, b, l) :: gedges g |}.
Proof.
  intros g a b l g' H. unfold add_edge in H. destruct (contains g a); [|discriminate]. destruct (contains g b); [|discriminate].
  injection H as <-. auto.
Qed.
Lemma node_edges : forall (l l' : list (option N)) (e e' : list (nat * nat * E)) n, l = l' ->
  node {| gnodes := l; gedges := e |} n = node {| gnodes := l'; gedges := e' |} n.
Proof. intros. subst. reflexivity. Qed.

Lemma nth_error_combine_seq : forall A (l : list A) a n, nth_error (combine (seq a (length l)) l) n = option_map (fun x => (a + n, x)) (nth_error l n).
Proof.
  induction l as [|x l IH]; intros a n; [destruct n; reflexivity|].
  destruct n; cbn [length seq combine nth_error]; [cbn; f_equal; f_equal; lia|]. rewrite IH. destruct (nth_error l n); cbn; auto.
  do 2 f_equal. lia.
Qed.
Lemma node_remove : forall g n m, node (remove_node g n) m = if m =? n then None else node g m.
Proof.
  intros. unfold node, remove_node. cbn [gnodes]. rewrite nth_error_map, nth_error_combine_seq.
  destruct (nth_error (gnodes g) m) as [o|] eqn:Eo; cbn.
  - destruct (m =? n); auto.
  - destruct (m =? n); auto.
Qed.
Lemma edges_remove : forall g n s t l, In (s, t, l) (gedges (remove_node g n)) <-> In (s, t, l) (gedges g) /\ s <> n /\ t <> n.
Proof.
  intros. unfold remove_node. cbn [gedges]. rewrite filter_In. cbn [fst snd]. split; intros [H1 H2]; split; auto.
  - lia.
  - lia.
Qed.
Lemma in_edges_spec : forall g n e, In e (in_edges g n) <-> In e (gedges g) /\ snd (fst e) = n.
Proof. intros. unfold in_edges. rewrite filter_In. now rewrite Nat.eqb_eq. Qed.
Lemma out_edges_spec : forall g n e, In e (out_edges g n) <-> In e (gedges g) /\ fst (fst e) = n.
Proof. intros. unfold out_edges. rewrite filter_In. now rewrite Nat.eqb_eq. Qed.
Lemma node_indices_spec : forall g n, In n (node_indices g) <-> contains g n = true.
Proof.
  intros. unfold node_indices. rewrite filter_In, in_seq. split; [tauto|]. intros H. split; auto.
  apply contains_node in H. destruct H as [w H]. apply node_lt in H. lia.
Qed.
End G.

Lemma foldM_app : forall A S (f : S -> A -> res S) l1 l2 s, foldM f (l1 ++ l2) s = (s' <- foldM f l1 s ;; foldM f l2 s').
Proof. induction l1; intros; [reflexivity|]. cbn [foldM app]. destruct (f s a); cbn [bind]; auto. Qed.

(** ** From<&[Bdd]> *)

Definition tgraph := graph (muxop * nat) medge.

Inductive tval (g : tgraph) (ins : list bool) : nat -> bool -> Prop :=
| tval_zero : forall n v, node g n = Some (MZero, v) -> tval g ins n false
| tval_one : forall n v, node g n = Some (MOne, v) -> tval g ins n true
| tval_mux : forall n v l h bs bl bh, node g n = Some (MMux, v) ->
    nth_error ins v = Some bs -> In (l, n, Low) (gedges g) -> In (h, n, High) (gedges g) ->
    tval g ins l bl -> tval g ins h bh -> tval g ins n (if bs then bh else bl)
| tval_out : forall n v i m b, node g n = Some (MOut i, v) -> In (m, n, OutEdge) (gedges g) ->
    tval g ins m b -> tval g ins n b.

Definition ext (g g' : tgraph) : Prop :=
  (forall n w, node g n = Some w -> node g' n = Some w) /\ incl (gedges g) (gedges g').
Lemma ext_refl : forall g, ext g g. Proof. split; [auto|apply incl_refl]. Qed.
Lemma ext_trans : forall a b c, ext a b -> ext b c -> ext a c.
Proof. intros a b c [H1 H2] [H3 H4]. split; [auto|eapply incl_tran; eauto]. Qed.
Lemma ext_add_node : forall g w, ext g (snd (add_node g w)).
Proof. split; [intros; now apply node_add_old|]. apply incl_refl. Qed.
Lemma ext_add_edge : forall g a b l, ext g {| gnodes := gnodes g; gedges := (a, b, l) :: gedges g |}.
Proof. split; [auto|]. cbn. now apply incl_tl, incl_refl. Qed.
Lemma tval_ext : forall g g' ins n b, ext g g' -> tval g ins n b -> tval g' ins n b.
Proof. intros g g' ins n b [H1 H2] H. induction H; [eapply tval_zero|eapply tval_one|eapply tval_mux|eapply tval_out]; eauto. Qed.

(** Structure of the graph under construction. *)
Record bld_ok (nv : nat) (g : tgraph) : Prop := {
  bo_all : forall n, n < length (gnodes g) -> exists w v, node g n = Some (w, v);
  bo_edge : forall s t l, In (s, t, l) (gedges g) -> s < t /\ t < length (gnodes g);
  bo_once : NoDup (map (fun e => (snd (fst e), snd e)) (gedges g));
  bo_mux : forall n v, node g n = Some (MMux, v) -> v < nv /\ forall l, (exists s, In (s, n, l) (gedges g)) <-> l = Low \/ l = High;
  bo_out : forall n i v, node g n = Some (MOut i, v) -> forall l, (exists s, In (s, n, l) (gedges g)) <-> l = OutEdge;
  bo_src : forall n w v, node g n = Some (w, v) -> w <> MMux -> (forall i, w <> MOut i) -> forall s l, ~ In (s, n, l) (gedges g);
  bo_novar : forall n i v, node g n <> Some (MVar i, v)
}.
Record b_ok (nv : nat) (b : builder) : Prop := {
  bk_graph : bld_ok nv (bgraph b);
  bk_zero : forall z, bzero b = Some z -> exists v, node (bgraph b) z = Some (MZero, v);
  bk_one : forall z, bone b = Some z -> exists v, node (bgraph b) z = Some (MOne, v);
  bk_max : bmax b <= nv
}.

Lemma bld_add_source : forall nv g w v, bld_ok nv g -> w = MZero \/ w = MOne -> bld_ok nv (snd (add_node g (w, v))).
Proof.
  intros nv g w v B Hw. assert (L : length (gnodes (snd (add_node g (w, v)))) = S (length (gnodes g))).
  { cbn. rewrite app_length. cbn. lia. }
  constructor.
  - intros n Hn. rewrite node_add. destruct (n =? _) eqn:En; [eauto|]. apply (bo_all nv g B). lia.
  - intros s t l H. cbn [add_node snd gedges] in H. apply (bo_edge nv g B) in H. lia.
  - apply (bo_once nv g B).
  - intros n v' H. rewrite node_add in H. destruct (n =? _) eqn:En.
    + injection H as H1 H2. destruct Hw; congruence.
    + apply (bo_mux nv g B). exact H.
  - intros n i v' H. rewrite node_add in H. destruct (n =? _) eqn:En.
    + injection H as H1 H2. destruct Hw; congruence.
    + apply (bo_out nv g B n i v' H).
  - intros n w' v' H N1 N2 s l HI. rewrite node_add in H. destruct (n =? _) eqn:En.
    + apply (bo_edge nv g B) in HI. lia.
    + eapply (bo_src nv g B); eauto.
  - intros n i v' H. rewrite node_add in H. destruct (n =? _) eqn:En.
    + injection H as H1 H2. destruct Hw; congruence.
    + eapply (bo_novar nv g B); eauto.
Qed.

(** A mux with both edges. *)
Definition with_mux (g : tgraph) v l h : tgraph :=
  {| gnodes := gnodes g ++ [Some (MMux, v)];
     gedges := (h, length (gnodes g), High) :: (l, length (gnodes g), Low) :: gedges g |}.
Lemma with_mux_node : forall g v l h n, node (with_mux g v l h) n = if n =? length (gnodes g) then Some (MMux, v) else node g n.
Proof. intros. exact (node_add g (MMux, v) n). Qed.
Lemma bld_add_mux : forall nv g v l h, bld_ok nv g -> v < nv -> l < length (gnodes g) -> h < length (gnodes g) -> bld_ok nv (with_mux g v l h).
Proof.
  intros nv g v l h B Hv Hl Hh. assert (L : length (gnodes (with_mux g v l h)) = S (length (gnodes g))).
  { cbn. rewrite app_length. cbn. lia. }
  assert (NE : forall s t x, In (s, t, x) (gedges g) -> t <> length (gnodes g)).
  { intros s t x H. apply (bo_edge nv g B) in H. lia. }
  constructor.
  - intros n Hn. rewrite with_mux_node. destruct (n =? _) eqn:En; [eauto|]. apply (bo_all nv g B). lia.
  - intros s t x H. cbn [with_mux gedges] in H. destruct H as [H|[H|H]]; [injection H; lia|injection H; lia|].
    apply (bo_edge nv g B) in H. lia.
  - cbn [with_mux gedges map fst snd]. constructor; [|constructor].
    + intros [H|H]; [congruence|]. apply in_map_iff in H. destruct H as ([[s t] x] & H1 & H2). cbn in H1. apply NE in H2. congruence.
    + intros H. apply in_map_iff in H. destruct H as ([[s t] x] & H1 & H2). cbn in H1. apply NE in H2. congruence.
    + apply (bo_once nv g B).
  - intros n v' H. rewrite with_mux_node in H. cbn [with_mux gedges]. destruct (n =? _) eqn:En.
    + apply Nat.eqb_eq in En. injection H as <-. split; [auto|]. intros x. split.
      * intros [s [H|[H|H]]]; [injection H; auto|injection H; auto|]. apply NE in H. congruence.
      * intros [-> | ->]; eexists; rewrite En; [right; left|left]; reflexivity.
    + apply Nat.eqb_neq in En. destruct (bo_mux nv g B n v' H) as [H1 H2]. split; auto. intros x. rewrite <- H2. split; intros [s Hs].
      * exists s. destruct Hs as [Hs|[Hs|Hs]]; [injection Hs; lia|injection Hs; lia|auto].
      * exists s. auto with datatypes.
  - intros n i v' H. rewrite with_mux_node in H. cbn [with_mux gedges]. destruct (n =? _) eqn:En; [discriminate|].
    apply Nat.eqb_neq in En. intros x. rewrite <- (bo_out nv g B n i v' H). split; intros [s Hs].
    + exists s. destruct Hs as [Hs|[Hs|Hs]]; [injection Hs; lia|injection Hs; lia|auto].
    + exists s. auto with datatypes.
  - intros n w' v' H N1 N2 s x HI. rewrite with_mux_node in H. cbn [with_mux gedges] in HI. destruct (n =? _) eqn:En; [congruence|].
    apply Nat.eqb_neq in En. destruct HI as [Hs|[Hs|Hs]]; [injection Hs; lia|injection Hs; lia|].
    eapply (bo_src nv g B); eauto.
  - intros n i v' H. rewrite with_mux_node in H. destruct (n =? _) eqn:En; [discriminate|]. eapply (bo_novar nv g B); eauto.
Qed.
Definition with_out (g : tgraph) i m : tgraph :=
  {| gnodes := gnodes g ++ [Some (MOut i, 0)]; gedges := (m, length (gnodes g), OutEdge) :: gedges g |}.
Lemma with_out_node : forall g i m n, node (with_out g i m) n = if n =? length (gnodes g) then Some (MOut i, 0) else node g n.
Proof. intros. exact (node_add g (MOut i, 0) n). Qed.
Lemma bld_add_out : forall nv g i m, bld_ok nv g -> m < length (gnodes g) -> bld_ok nv (with_out g i m).
Proof.
  intros nv g i m B Hm. assert (L : length (gnodes (with_out g i m)) = S (length (gnodes g))).
  { cbn. rewrite app_length. cbn. lia. }
  assert (NE : forall s t x, In (s, t, x) (gedges g) -> t <> length (gnodes g)).
  { intros s t x H. apply (bo_edge nv g B) in H. lia. }
  constructor.
  - intros n Hn. rewrite with_out_node. destruct (n =? _) eqn:En; [eauto|]. apply (bo_all nv g B). lia.
  - intros s t x H. cbn [with_out gedges] in H. destruct H as [H|H]; [injection H; lia|].
    apply (bo_edge nv g B) in H. lia.
  - cbn [with_out gedges map fst snd]. constructor.
    + intros H. apply in_map_iff in H. destruct H as ([[s t] x] & H1 & H2). cbn in H1. apply NE in H2. congruence.
    + apply (bo_once nv g B).
  - intros n v' H. rewrite with_out_node in H. cbn [with_out gedges]. destruct (n =? _) eqn:En; [discriminate|].
    apply Nat.eqb_neq in En. destruct (bo_mux nv g B n v' H) as [H1 H2]. split; auto. intros x. rewrite <- H2. split; intros [s Hs].
    + exists s. destruct Hs as [Hs|Hs]; [injection Hs; lia|auto].
    + exists s. auto with datatypes.
  - intros n j v' H. rewrite with_out_node in H. cbn [with_out gedges]. destruct (n =? _) eqn:En.
    + apply Nat.eqb_eq in En. intros x. split.
      * intros [s [Hs|Hs]]; [injection Hs; auto|]. apply NE in Hs. congruence.
      * intros ->. exists m. left. now rewrite En.
    + apply Nat.eqb_neq in En. intros x. rewrite <- (bo_out nv g B n j v' H). split; intros [s Hs].
      * exists s. destruct Hs as [Hs|Hs]; [injection Hs; lia|auto].
      * exists s. auto with datatypes.
  - intros n w' v' H N1 N2 s x HI. rewrite with_out_node in H. cbn [with_out gedges] in HI. destruct (n =? _) eqn:En.
    { injection H as <- <-. apply (N2 i). reflexivity. }
    apply Nat.eqb_neq in En. destruct HI as [Hs|Hs]; [injection Hs; lia|].
    eapply (bo_src nv g B); eauto.
  - intros n j v' H. rewrite with_out_node in H. destruct (n =? _) eqn:En; [discriminate|]. eapply (bo_novar nv g B); eauto.
Qed.

(** Only new nodes that are not outputs: used to keep track of output nodes. *)
Definition same_outs (g g' : tgraph) : Prop := forall n i v, node g' n = Some (MOut i, v) <-> node g n = Some (MOut i, v).
Lemma same_outs_add : forall g w v, (forall i, w <> MOut i) -> same_outs g (snd (add_node g (w, v))).
Proof.
  intros g w v H n i v'. rewrite node_add. destruct (n =? _) eqn:En; [|tauto]. apply Nat.eqb_eq in En. subst n. split; intros X.
  - injection X as X1 X2. now apply H in X1.
  - apply node_lt in X. lia.
Qed.
Lemma same_outs_trans : forall a b c, same_outs a b -> same_outs b c -> same_outs a c.
Proof. unfold same_outs. intros. rewrite H0. apply H. Qed.

Lemma bdd_node_step : forall f d ins k v lo hi, nth_error d (S (S k)) = Some (v, lo, hi) ->
  bdd_node (S f) d ins (S (S k)) = if nth v ins false then bdd_node f d ins hi else bdd_node f d ins lo.
Proof. intros. cbn [bdd_node]. now rewrite H. Qed.

(** Fuel does not matter once it is at least the node number. *)
Lemma bdd_node_fuel : forall nv d ins, bdd_wf nv d -> forall f1 f2 k, k <= f1 -> k <= f2 -> bdd_node f1 d ins k = bdd_node f2 d ins k.
Proof.
  intros nv d ins [_ W]. induction f1 as [|f1 IH]; intros f2 k H1 H2.
  - destruct k; [destruct f2; reflexivity|lia].
  - destruct k as [|[|k]]; [destruct f2; reflexivity|destruct f2; reflexivity|].
    destruct f2 as [|f2]; [lia|].
    destruct (nth_error d (S (S k))) as [[[v lo] hi]|] eqn:Ed; [|cbn [bdd_node]; now rewrite Ed].
    rewrite !(bdd_node_step _ d ins k v lo hi Ed). apply W in Ed. cbn in Ed. rewrite (IH f2 hi), (IH f2 lo) by lia. reflexivity.
Qed.

Definition nodes_done (d : bdd) (ins : list bool) (g : tgraph) (added : list nat) : Prop :=
  forall k n, nth_error added k = Some n -> tval g ins n (bdd_node k d ins k).

Lemma get_Some : forall A (l : list A) i x, nth_error l i = Some x -> get l i = Ok x.
Proof. intros. unfold get. now rewrite H. Qed.

Lemma tval_node : forall g ins n b, tval g ins n b -> exists w, node g n = Some w.
Proof. intros g ins n b H. destruct H; eauto. Qed.

Lemma add_bdd_node_ok : forall nv d ins b added rec,
  bdd_wf nv d -> length ins = nv -> b_ok nv b -> nth_error d (length added) = Some rec ->
  nodes_done d ins (bgraph b) added ->
  exists b' n, add_bdd_node (b, added) rec = Ok (b', added ++ [n]) /\ b_ok nv b' /\ ext (bgraph b) (bgraph b') /\
    same_outs (bgraph b) (bgraph b') /\ nodes_done d ins (bgraph b') (added ++ [n]) /\ bmax b' = Nat.max (bmax b) (fst (fst rec)).
Proof.
  intros nv d ins b added rec W Hins B Hrec ND. destruct rec as [[var lo] hi]. pose proof (proj2 W _ _ _ _ Hrec) as Hk.
  cbn [fst]. unfold add_bdd_node.
  assert (ND' : forall g n, ext (bgraph b) g -> tval g ins n (bdd_node (length added) d ins (length added)) ->
            nodes_done d ins g (added ++ [n])).
  { intros g n X T k m Hm. destruct (Nat.lt_ge_cases k (length added)) as [Lt|Ge].
    - rewrite nth_error_app1 in Hm by lia. eapply tval_ext; [exact X|]. now apply ND.
    - rewrite nth_error_app2 in Hm by lia. destruct (k - length added) as [|j] eqn:Ej; [|destruct j; discriminate].
      injection Hm as <-. replace k with (length added) by lia. exact T. }
  destruct (length added) as [|[|k]] eqn:El.
  - destruct Hk as (-> & -> & ->). cbn [Nat.eqb andb]. destruct (bzero b) as [z|] eqn:Ez.
    + exists {| bgraph := bgraph b; bmax := Nat.max (bmax b) nv; bzero := Some z; bone := bone b |}, z.
      destruct (bk_zero nv b B z Ez) as [v Hz].
      split; [reflexivity|]. split; [|split; [apply ext_refl|split; [intros n i v'; tauto|split; [|reflexivity]]]].
      * constructor; cbn; [apply B|intros z' H; injection H as <-; eauto|apply (bk_one nv b B)|]. pose proof (bk_max nv b B). lia.
      * apply ND'; [apply ext_refl|]. eapply tval_zero. exact Hz.
    + destruct (add_node (bgraph b) (MZero, nv)) as [z g] eqn:Ea.
      assert (g = snd (add_node (bgraph b) (MZero, nv))) by now rewrite Ea. assert (z = length (gnodes (bgraph b))) by (unfold add_node in Ea; congruence). subst g z.
      eexists _, _. split; [reflexivity|]. cbn [bgraph bmax].
      split; [|split; [apply ext_add_node|split; [apply same_outs_add; discriminate|split; [|reflexivity]]]].
      * constructor; cbn [bgraph bmax bzero bone].
        -- apply bld_add_source; [apply B|auto].
        -- intros z' H. injection H as <-. eexists. apply node_add_new.
        -- intros z' H. destruct (bk_one nv b B z' H) as [v Hv]. eexists. apply node_add_old. exact Hv.
        -- pose proof (bk_max nv b B). lia.
      * apply ND'; [apply ext_add_node|]. eapply tval_zero. apply node_add_new.
  - destruct Hk as (-> & -> & ->). cbn [Nat.eqb andb]. destruct (bone b) as [z|] eqn:Ez.
    + exists {| bgraph := bgraph b; bmax := Nat.max (bmax b) nv; bzero := bzero b; bone := Some z |}, z.
      destruct (bk_one nv b B z Ez) as [v Hz].
      split; [reflexivity|]. split; [|split; [apply ext_refl|split; [intros n i v'; tauto|split; [|reflexivity]]]].
      * constructor; cbn; [apply B|apply (bk_zero nv b B)|intros z' H; injection H as <-; eauto|]. pose proof (bk_max nv b B). lia.
      * apply ND'; [apply ext_refl|]. eapply tval_one. exact Hz.
    + destruct (add_node (bgraph b) (MOne, nv)) as [z g] eqn:Ea.
      assert (g = snd (add_node (bgraph b) (MOne, nv))) by now rewrite Ea. assert (z = length (gnodes (bgraph b))) by (unfold add_node in Ea; congruence). subst g z.
      eexists _, _. split; [reflexivity|]. cbn [bgraph bmax].
      split; [|split; [apply ext_add_node|split; [apply same_outs_add; discriminate|split; [|reflexivity]]]].
      * constructor; cbn [bgraph bmax bzero bone].
        -- apply bld_add_source; [apply B|auto].
        -- intros z' H. destruct (bk_zero nv b B z' H) as [v Hv]. eexists. apply node_add_old. exact Hv.
        -- intros z' H. injection H as <-. eexists. apply node_add_new.
        -- pose proof (bk_max nv b B). lia.
      * apply ND'; [apply ext_add_node|]. eapply tval_one. apply node_add_new.
  - destruct Hk as (Hv & Hlo & Hhi & Hne).
    replace ((hi =? 0) && (lo =? 0)) with false by lia. replace ((hi =? 1) && (lo =? 1)) with false by lia.
    destruct (add_node (bgraph b) (MMux, var)) as [n g] eqn:Ea.
    assert (Eg : g = snd (add_node (bgraph b) (MMux, var))) by now rewrite Ea.
    assert (n = length (gnodes (bgraph b))) by (unfold add_node in Ea; congruence). subst n. cbn [bgraph].
    replace (lo =? hi) with false by lia.
    destruct (nth_error added lo) as [l|] eqn:Elo; [|apply nth_error_None in Elo; lia].
    destruct (nth_error added hi) as [h|] eqn:Ehi; [|apply nth_error_None in Ehi; lia].
    rewrite (get_Some _ _ _ l) by (rewrite nth_error_app1 by lia; exact Elo). cbn [bind].
    destruct (tval_node _ _ _ _ (ND _ _ Elo)) as [wl Hwl]. destruct (tval_node _ _ _ _ (ND _ _ Ehi)) as [wh Hwh].
    rewrite (add_edge_ok g l _ Low wl (MMux, var)) by (subst g; auto using node_add_old, node_add_new). cbn [bind].
    rewrite (get_Some _ _ _ h) by (rewrite nth_error_app1 by lia; exact Ehi). cbn [bind].
    rewrite (add_edge_ok _ h _ High wh (MMux, var)) by (change (node {| gnodes := gnodes g; gedges := _ |}) with (node g); subst g; auto using node_add_old, node_add_new).
    cbn [bind gnodes gedges bmax bzero bone]. subst g. cbn [add_node snd gnodes gedges].
    change {| gnodes := gnodes (bgraph b) ++ [Some (MMux, var)]; gedges := _ |} with (with_mux (bgraph b) var l h).
    assert (X : ext (bgraph b) (with_mux (bgraph b) var l h)).
    { split.
      - intros n w H. rewrite with_mux_node. apply node_lt in H as L. replace (n =? _) with false by lia. exact H.
      - cbn. auto using incl_tl, incl_refl. }
    eexists _, _. split; [reflexivity|]. cbn [bgraph bmax].
    split; [|split; [exact X|split; [|split; [|reflexivity]]]].
    + constructor; cbn [bgraph bmax bzero bone].
      * apply bld_add_mux; [apply B|auto| |]; [apply node_lt in Hwl|apply node_lt in Hwh]; auto.
      * intros z H. destruct (bk_zero nv b B z H) as [v Hz]. eexists. apply X. exact Hz.
      * intros z H. destruct (bk_one nv b B z H) as [v Hz]. eexists. apply X. exact Hz.
      * pose proof (bk_max nv b B). lia.
    + intros n i v. rewrite with_mux_node. destruct (n =? _) eqn:En; [|tauto]. apply Nat.eqb_eq in En. subst n. split; intros Y; [discriminate|].
      apply node_lt in Y. lia.
    + apply ND'; [exact X|]. rewrite (bdd_node_step _ d ins k var lo hi Hrec).
      assert (Hn : nth_error ins var = Some (nth var ins false)).
      { apply nth_error_nth'. lia. }
      rewrite (bdd_node_fuel nv d ins W (S k) hi hi), (bdd_node_fuel nv d ins W (S k) lo lo) by lia.
      apply (tval_mux (with_mux (bgraph b) var l h) ins _ var l h).
      * rewrite with_mux_node, Nat.eqb_refl. reflexivity.
      * exact Hn.
      * cbn. auto.
      * cbn. auto.
      * eapply tval_ext; [exact X|]. now apply ND.
      * eapply tval_ext; [exact X|]. now apply ND.
Qed.

Lemma add_bdd_nodes_ok : forall nv d ins, bdd_wf nv d -> length ins = nv -> forall rest pre b added,
  d = pre ++ rest -> length added = length pre -> b_ok nv b -> nodes_done d ins (bgraph b) added ->
  exists b' added', foldM add_bdd_node rest (b, added) = Ok (b', added') /\ length added' = length d /\ b_ok nv b' /\
    ext (bgraph b) (bgraph b') /\ same_outs (bgraph b) (bgraph b') /\ nodes_done d ins (bgraph b') added' /\
    bmax b <= bmax b' /\ (pre = [] -> bmax b' = nv).
Proof.
  intros nv d ins W Hins. induction rest as [|rec rest IH]; intros pre b added Hd Hl B ND.
  - exists b, added. cbn [foldM]. rewrite app_nil_r in Hd. subst d. repeat (split; [solve [auto using ext_refl | intros n i v; tauto | congruence]|]).
    intros ->. destruct (proj1 W). reflexivity.
  - assert (Hrec : nth_error d (length added) = Some rec).
    { subst d. rewrite Hl, nth_error_app2, Nat.sub_diag by lia. reflexivity. }
    destruct (add_bdd_node_ok nv d ins b added rec W Hins B Hrec ND) as (b1 & n & E1 & B1 & X1 & S1 & N1 & M1).
    destruct (IH (pre ++ [rec]) b1 (added ++ [n])) as (b2 & added2 & E2 & L2 & B2 & X2 & S2 & N2 & M2 & _); auto.
    { subst d. now rewrite <- app_assoc. }
    { rewrite !app_length. cbn. lia. }
    exists b2, added2. cbn [foldM]. rewrite E1. cbn [bind]. rewrite E2.
    repeat (split; [solve [eauto using ext_trans, same_outs_trans | lia]|]).
    intros ->. subst d. cbn in Hl.
    destruct rec as [[v lo] hi]. pose proof (proj2 W 0 v lo hi eq_refl) as (-> & _). cbn in M1.
    pose proof (bk_max nv b2 B2). lia.
Qed.

Lemma add_bdd_ok : forall nv d ins b i, bdd_wf nv d -> length ins = nv -> b_ok nv b ->
  exists b', add_bdd (b, i) d = Ok (b', S i) /\ b_ok nv b' /\ ext (bgraph b) (bgraph b') /\ bmax b' = nv /\
    exists o, (forall n j v, node (bgraph b') n = Some (MOut j, v) <-> node (bgraph b) n = Some (MOut j, v) \/ (n = o /\ j = i /\ v = 0)) /\
      length (gnodes (bgraph b)) <= o /\
      tval (bgraph b') ins o (bdd_value d ins).
Proof.
  intros nv d ins b i W Hins B.
  destruct (add_bdd_nodes_ok nv d ins W Hins d [] b []) as (b1 & added & E & L & B1 & X & S & ND & _ & M); auto.
  { intros k n H. destruct k; discriminate. }
  unfold add_bdd. destruct d as [|r d]; [destruct (proj1 W); reflexivity|]. set (dd := r :: d) in *. rewrite E. cbn [bind].
  assert (Hlast : nth_error added (length dd - 1) = Some (last added 0)).
  { rewrite <- L. destruct added as [|x added] using rev_ind; [cbn in L; discriminate|].
    rewrite last_last, app_length. cbn [length]. rewrite nth_error_app2 by lia. replace (_ + 1 - 1 - _) with 0 by lia. reflexivity. }
  pose proof (ND _ _ Hlast) as T. rewrite (bdd_node_fuel nv dd ins W _ (length dd)) in T by lia. fold (bdd_value dd ins) in T.
  destruct (tval_node _ _ _ _ T) as [w Hw].
  destruct (add_node (bgraph b1) (MOut i, 0)) as [o g] eqn:Ea.
  assert (Eg : g = snd (add_node (bgraph b1) (MOut i, 0))) by now rewrite Ea.
  assert (o = length (gnodes (bgraph b1))) by (unfold add_node in Ea; congruence). subst o.
  rewrite (add_edge_ok g _ _ OutEdge w (MOut i, 0)) by (subst g; auto using node_add_old, node_add_new). cbn [bind]. subst g.
  cbn [add_node snd gnodes gedges].
  change {| gnodes := gnodes (bgraph b1) ++ [Some (MOut i, 0)]; gedges := _ |} with (with_out (bgraph b1) i (last added 0)).
  assert (X2 : ext (bgraph b1) (with_out (bgraph b1) i (last added 0))).
  { split.
    - intros n w' H. rewrite with_out_node. apply node_lt in H as Lt. replace (n =? _) with false by lia. exact H.
    - cbn. auto using incl_tl, incl_refl. }
  eexists. split; [reflexivity|]. cbn [bgraph bmax]. split; [|split; [eapply ext_trans; eauto|split; [auto|]]].
  - constructor; cbn [bgraph bmax bzero bone].
    + apply bld_add_out; [apply B1|]. eapply node_lt. exact Hw.
    + intros z H. destruct (bk_zero nv b1 B1 z H) as [v Hz]. eexists. apply X2. exact Hz.
    + intros z H. destruct (bk_one nv b1 B1 z H) as [v Hz]. eexists. apply X2. exact Hz.
    + apply (bk_max nv b1 B1).
  - exists (length (gnodes (bgraph b1))). split; [|split].
    + intros n j v. rewrite with_out_node. destruct (n =? _) eqn:En.
      * apply Nat.eqb_eq in En. subst n. split.
        -- intros H. right. assert (MOut i = MOut j /\ 0 = v) as [H1 H2] by (split; congruence). injection H1 as <-. auto.
        -- intros [H|(_ & -> & ->)]; [|reflexivity]. apply S in H. apply node_lt in H. lia.
      * apply Nat.eqb_neq in En. rewrite (S n j v). split; [tauto|]. intros [H|(H & _)]; [auto|lia].
    + destruct (Nat.le_gt_cases (length (gnodes (bgraph b))) (length (gnodes (bgraph b1)))) as [|G]; auto.
      destruct (bo_all nv _ (bk_graph nv b B) (length (gnodes (bgraph b1))) G) as (w1 & v1 & H1). apply (proj1 X) in H1. apply node_lt in H1. lia.
    + apply (tval_out _ ins _ 0 i (last added 0)).
      * rewrite with_out_node, Nat.eqb_refl. reflexivity.
      * cbn. auto.
      * eapply tval_ext; eauto.
Qed.

Definition outs_ok (ds : list bdd) (ins : list bool) (g : tgraph) : Prop :=
  (forall j d, nth_error ds j = Some d -> exists n, node g n = Some (MOut j, 0) /\ tval g ins n (bdd_value d ins) /\
     forall n' v, node g n' = Some (MOut j, v) -> n' = n) /\
  (forall n j v, node g n = Some (MOut j, v) -> j < length ds).

Lemma add_bdds_ok : forall nv ins, length ins = nv -> forall ds done b, Forall (bdd_wf nv) ds -> b_ok nv b ->
  outs_ok done ins (bgraph b) -> (done = [] \/ bmax b = nv) ->
  exists b', foldM add_bdd ds (b, length done) = Ok (b', length done + length ds) /\ b_ok nv b' /\
    outs_ok (done ++ ds) ins (bgraph b') /\ (done ++ ds = [] \/ bmax b' = nv).
Proof.
  intros nv ins Hins. induction ds as [|d ds IH]; intros done b W B O M.
  - exists b. rewrite app_nil_r, Nat.add_0_r. auto.
  - inversion W as [|? ? W1 W2]; subst.
    destruct (add_bdd_ok (length ins) d ins b (length done) W1 eq_refl B) as (b1 & E1 & B1 & X1 & M1 & o & Ho & Hge & T).
    destruct (IH (done ++ [d]) b1) as (b2 & E2 & B2 & O2 & M2); auto.
    { destruct O as [O1 O2]. split.
      - intros j dd Hj. destruct (Nat.lt_ge_cases j (length done)) as [Lt|Ge].
        + rewrite nth_error_app1 in Hj by lia. destruct (O1 j dd Hj) as (n & N1 & N2 & N3). exists n.
          split; [now apply X1|]. split; [eapply tval_ext; eauto|]. intros n' v H. apply Ho in H. destruct H as [H|(-> & -> & ->)]; [eauto|lia].
        + rewrite nth_error_app2 in Hj by lia. destruct (j - length done) as [|q] eqn:Eq; [|destruct q; discriminate].
          injection Hj as <-. assert (j = length done) by lia. subst j. exists o. split; [apply Ho; auto|]. split; [exact T|].
          intros n' v H. apply Ho in H. destruct H as [H|(-> & _)]; [|auto]. apply O2 in H. lia.
      - intros n j v H. rewrite app_length. cbn. apply Ho in H. destruct H as [H|(_ & -> & _)]; [|lia]. apply O2 in H. lia. }
    exists b2. cbn [foldM]. rewrite E1. cbn [bind]. rewrite app_length in E2. cbn [length] in E2. rewrite Nat.add_1_r in E2. rewrite E2.
    split; [f_equal; f_equal; cbn; lia|]. split; auto. rewrite <- app_assoc in O2, M2. auto.
Qed.
