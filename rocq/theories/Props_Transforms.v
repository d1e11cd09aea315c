(** C125: transform lists. C126: forward_traverse_mut. *)
From Coq Require Import Permutation.
From Verif Require Import Base Alu Graph MuxGraph SpecMux MuxGraphProofs MuxGraphProofs2 MuxEval MuxEvalProofs Transforms SpecTransforms TransformsProofs TransformsProofs2.
Open Scope nat_scope.

(** C125. A list that adds nodes and edges, each edge between nodes of the graph and nodes added by earlier transforms of the list, can always be applied. It
    adds one node per [AddNode], in order, all distinct and none of them a node of the graph; each carries its weight; the other nodes are untouched; and the edges are the old
    ones and exactly those requested, a deferred index standing for the node its transform added. *)
Theorem C125_apply_builds : forall N E (g : sgraph N E) ts, well_formed g ->
  (forall t, In t ts -> (exists w, t = GAddNode w) \/ exists a b l, t = GAddEdge a b l) ->
  (forall p a b l, nth_error ts p = Some (GAddEdge a b l) -> refers g ts p a /\ refers g ts p b) ->
  exists g' added, apply ts g = Ok (g', added) /\ well_formed g' /\ length added = length (filter adds ts) /\ NoDup added /\ (forall x, In x added -> ~ has g x) /\
    (forall x, ~ In x added -> node (sg g') x = node (sg g) x) /\
    (forall d w, nth_error ts d = Some (GAddNode w) -> exists x, denotes ts added (TDeferred d) x /\ node (sg g') x = Some w) /\
    (forall a b l, In (a, b, l) (gedges (sg g')) <->
       In (a, b, l) (gedges (sg g)) \/ exists p ta tb, nth_error ts p = Some (GAddEdge ta tb l) /\ denotes ts added ta a /\ denotes ts added tb b).
Proof.
  intros N E g ts W Hk Hr. destruct (apply_build g ts W) as (g' & added & Ap & W' & L & ND & F & K & A & Ed); [|exact Hr|].
  - intros t Ht. destruct (Hk t Ht) as [[w ->]|(a & b & l & ->)]; exact Logic.I.
  - exists g', added. repeat (split; [assumption|]). split; [|exact Ed]. intros d w Hd. destruct (A d w Hd) as (x & X1 & X2). exists x. split; [split; [eauto|exact X1]|exact X2].
Qed.
Print Assumptions C125_apply_builds.
(** C125. push returns the position of the pushed transform. *)
Theorem C125_push_index : forall N E (ts : list (gtransform N E)) t, let '(ts', d) := push ts t in nth_error ts' d = Some t /\ forall p u, nth_error ts p = Some u -> nth_error ts' p = Some u.
Proof.
  intros N E ts t. unfold push. replace (length (ts ++ [t]) - 1) with (length ts) by (rewrite app_length; cbn [length]; lia). split.
  - rewrite nth_error_app2, Nat.sub_diag by lia. reflexivity.
  - intros p u H. rewrite nth_error_app1; [exact H|]. apply nth_error_Some. congruence.
Qed.
(** C125. A deferred index that does not stand for an earlier [AddNode] makes the whole list panic, whatever the other transforms are. *)
Theorem C125_bad_deferred_index_panics : forall N E (g : sgraph N E) ts p t d, nth_error ts p = Some t -> uses t (TDeferred d) ->
  ~ (d < p /\ exists w, nth_error ts d = Some (GAddNode w)) -> apply ts g = Panic.
Proof.
  intros N E g ts p t d Hp U H. unfold apply. rewrite (apply_loop_bad ts [] g [] [] p t d); auto.
Qed.
Print Assumptions C125_bad_deferred_index_panics.
(** C125. Removing an edge removes one edge, the newest, between the two nodes, and panics when there is none; an edge between missing nodes panics. *)
Theorem C125_remove_edge : forall N E (g : sgraph N E) a b, well_formed g ->
  (edge g a b -> exists g' l before after, apply [GRemoveEdge (TNode a) (TNode b)] g = Ok (g', []) /\ well_formed g' /\ (forall x, node (sg g') x = node (sg g) x) /\
     gedges (sg g) = before ++ (a, b, l) :: after /\ gedges (sg g') = before ++ after /\ forall l', ~ In (a, b, l') before) /\
  (~ edge g a b -> apply [GRemoveEdge (TNode a) (TNode b)] g = Panic) /\
  (forall l, ~ (has g a /\ has g b) -> apply [GAddEdge (TNode a) (TNode b) l] g = Panic).
Proof.
  intros N E g a b W. destruct (remove_edge_ok g a b W) as [R1 R2]. unfold apply; cbn [apply_loop apply_one materialize bind]. split; [|split].
  - intros H. destruct (R1 H) as (g' & l & l1 & l2 & -> & W' & Gn & _ & E1 & E2 & Nin). cbn [bind]. exists g', l, l1, l2. split; [reflexivity|]. split; [exact W'|]. split; [|auto].
    intros x. unfold node. now rewrite Gn.
  - intros H. rewrite (R2 H). reflexivity.
  - intros l H. destruct (sg_add_edge g a b l) as [g'|e|] eqn:A; cbn [bind]; [|unfold sg_add_edge, add_edge in A; destruct (_ && _); discriminate|reflexivity].
    destruct H. eapply add_edge_inv, A.
Qed.
(** C125. Removing a node removes it, the edges that touch it, and nothing else; removing a node that is not there changes nothing. *)
Theorem C125_remove_node : forall N E (g : sgraph N E) n, well_formed g -> exists g', apply [GRemoveNode (TNode n)] g = Ok (g', []) /\ well_formed g' /\ ~ has g' n /\
  (forall x, x <> n -> node (sg g') x = node (sg g) x) /\ (forall a b l, In (a, b, l) (gedges (sg g')) <-> In (a, b, l) (gedges (sg g)) /\ a <> n /\ b <> n).
Proof.
  intros N E g n W. unfold apply; cbn [apply_loop apply_one materialize bind]. eexists. split; [reflexivity|]. destruct (contains (sg g) n) eqn:C.
  - destruct (remove_node_ok g n W C) as (W' & Nd & Ge). split; [exact W'|]. split; [|split].
    + intros H. apply has_node in H as [w H]. rewrite Nd, Nat.eqb_refl in H. discriminate.
    + intros x Hx. rewrite Nd. apply Nat.eqb_neq in Hx. now rewrite Hx.
    + intros a b l. rewrite Ge, filter_In. cbn [fst snd]. rewrite andb_true_iff, !negb_true_iff, !Nat.eqb_neq. tauto.
  - unfold sg_remove_node. rewrite C. split; [exact W|]. split; [unfold has; congruence|]. split; [reflexivity|]. intros a b l. split; [|tauto]. intros H. split; [exact H|].
    destruct (wf_ends _ W a b) as [A B]; [now exists l|]. unfold has in *. split; intros ->; congruence.
Qed.
(** C125. Whatever it does, applying a list to a well-formed graph leaves a well-formed graph. *)
Theorem C125_apply_well_formed : forall N E (g g' : sgraph N E) ts added, well_formed g -> apply ts g = Ok (g', added) -> well_formed g'.
Proof. intros. eapply apply_wf; eassumption. Qed.

(** A well-formed graph without holes. *)
Lemma wf_plain {N E} (ns : list N) (es : list (nat * nat * E)) : forallb (fun e => (fst (fst e) <? length ns) && (snd (fst e) <? length ns)) es = true ->
  well_formed {| sg := {| gnodes := map Some ns; gedges := es |}; sfree := [] |}.
Proof.
  intros H. rewrite forallb_forall in H. constructor.
  - intros a b [l Hl]. cbn [sg gedges] in Hl. specialize (H _ Hl). cbn [fst snd] in H. apply andb_true_iff in H as [A B]. apply Nat.ltb_lt in A, B.
    split; apply has_node; unfold node; cbn [sg gnodes]; rewrite nth_error_map.
    + destruct (nth_error ns a) eqn:Q; [cbn; eauto|]. apply nth_error_None in Q. lia.
    + destruct (nth_error ns b) eqn:Q; [cbn; eauto|]. apply nth_error_None in Q. lia.
  - split; [constructor|]. intros i [].
Qed.
Definition ex_graph : sgraph nat unit := {| sg := {| gnodes := map Some [10; 11; 12]; gedges := [(0, 1, tt); (1, 2, tt)] |}; sfree := [] |}.
(** Two new nodes spliced in between 0 and 2: the hypotheses of [C125_apply_builds] hold and the result is as it says. *)
Definition ex_list : list (gtransform nat unit) := [GAddNode 20; GAddNode 21; GAddEdge (TNode 0) (TDeferred 0) tt; GAddEdge (TDeferred 0) (TDeferred 1) tt; GAddEdge (TDeferred 1) (TNode 2) tt].
Example C125_apply_builds_applies : exists g' added, apply ex_list ex_graph = Ok (g', added) /\ added = [3; 4] /\
  (forall a b l, In (a, b, l) (gedges (sg g')) <-> In (a, b, l) (gedges (sg ex_graph)) \/ exists p ta tb, nth_error ex_list p = Some (GAddEdge ta tb l) /\ denotes ex_list added ta a /\ denotes ex_list added tb b).
Proof.
  destruct (C125_apply_builds nat unit ex_graph ex_list) as (g' & added & Ap & _ & _ & _ & _ & _ & _ & Ed).
  - apply wf_plain. reflexivity.
  - intros t [<- |[<- |[<- |[<- |[<- |[]]]]]]; [left; eauto|left; eauto|right; eauto..].
  - intros p a b l H. destruct p as [|[|[|[|[|p]]]]]; cbn in H; try discriminate; [injection H as <- <- _..|destruct p; discriminate]; cbn [refers]; split; try reflexivity; (split; [lia|eexists; reflexivity]).
  - exists g', added. split; [exact Ap|]. split; [|exact Ed]. vm_compute in Ap. injection Ap as _ <-. reflexivity.
Qed.
(** C125, refuted: a deferred index does not always stand for the node its own transform added. When that node is removed and another one added, the index now means
    the other node (StableGraph reuses node numbers), and the list is applied without complaint. *)
Theorem C125_deferred_index_reused_refuted : exists (ts : list (gtransform nat unit)) (g g' : sgraph nat unit) added x,
  well_formed g /\ nth_error ts 0 = Some (GAddNode 10) /\ nth_error ts 2 = Some (GAddNode 20) /\ nth_error ts 3 = Some (GAddEdge (TNode 0) (TDeferred 0) tt) /\
  apply ts g = Ok (g', added) /\ gedges (sg g') = [(0, x, tt)] /\ node (sg g') x = Some 20.
Proof.
  exists [GAddNode 10; GRemoveNode (TDeferred 0); GAddNode 20; GAddEdge (TNode 0) (TDeferred 0) tt], {| sg := {| gnodes := map Some [5]; gedges := [] |}; sfree := [] |}.
  eexists _, _, 1. split; [apply wf_plain; reflexivity|]. repeat (split; [reflexivity|]). reflexivity.
Qed.
Print Assumptions C125_deferred_index_reused_refuted.

(** C126. A traversal whose callback keeps to the rules ([all_allowed]: it may delete the node being visited, insert nodes after it and add nodes without predecessors, under numbers not used before),
    and that leaves an acyclic graph, has called the callback exactly once for every node there was at the start and every node there is at the end, each
    time after all the predecessors the node had in the graph the callback saw, and after all the predecessors it had at the start. *)
Theorem C126_visits_everything_in_order : forall N E fuel cb (g g' : sgraph N E) h, well_formed g ->
  forward_traverse_mut fuel cb g = Some (Ok (h, g')) -> all_allowed h -> acyclic_graph g' ->
  NoDup (visited_nodes h) /\ (forall x, has g x \/ has g' x -> In x (visited_nodes h)) /\
  forall later n gn ts earlier, h = later ++ (n, gn, ts) :: earlier -> has gn n /\ (forall m, edge gn m n \/ edge g m n -> In m (visited_nodes earlier)).
Proof.
  intros N E fuel cb g g' h W H Al Ac. destruct (forward_traverse_mut_ok fuel cb g h g' W H Al Ac) as (ND & Vi & Or & Or0 & _). split; [exact ND|]. split; [exact Vi|].
  intros later n gn ts earlier Eh. destruct (ordered_split later h n gn ts earlier Or Eh) as [Hn Hm]. split; [exact Hn|]. intros m [X|X]; [now apply Hm|]. eapply ordered0_split; eassumption.
Qed.
Print Assumptions C126_visits_everything_in_order.

(** C126. If the callback never adds a node, the traversal ends within as many steps as the graph has slots, whatever else the callback does. *)
Theorem C126_terminates : forall N E cb (g : sgraph N E), (forall h gn n ts, cb h gn n = Ok ts -> forall t, In t ts -> adds t = false) -> well_formed g ->
  forward_traverse_mut (length (gnodes (sg g))) cb g <> None.
Proof. intros. now apply forward_traverse_mut_terminates. Qed.
Print Assumptions C126_terminates.

(** C126. A callback that at each node either does nothing or deletes that node: the traversal always ends, without a panic, and visits every node of an acyclic graph exactly once, each after all
    its predecessors. *)
Theorem C126_delete_current : forall N E (del : history N E -> sgraph N E -> nat -> bool) (g : sgraph N E), well_formed g -> acyclic_graph g ->
  exists h g', forward_traverse_mut (length (gnodes (sg g))) (fun h gn n => Ok (if del h gn n then [GRemoveNode (TNode n)] else [])) g = Some (Ok (h, g')) /\
    NoDup (visited_nodes h) /\ (forall x, In x (visited_nodes h) <-> has g x) /\
    forall later n gn ts earlier, h = later ++ (n, gn, ts) :: earlier -> forall m, edge g m n -> In m (visited_nodes earlier).
Proof.
  intros N E del g W Ac. set (cb := fun h gn n => Ok (if del h gn n then [GRemoveNode (TNode n)] else []) : res (list (gtransform N E))).
  assert (Tm : forward_traverse_mut (length (gnodes (sg g))) cb g <> None).
  { apply forward_traverse_mut_terminates; [|exact W]. unfold cb. intros h gn n ts Q t Ht. injection Q as <-. destruct (del h gn n); [destruct Ht as [<- |[]]; reflexivity|destruct Ht]. }
  destruct (forward_traverse_mut (length (gnodes (sg g))) cb g) as [r|] eqn:Fw; [|now destruct Tm].
  assert (Ap : forall gn n, well_formed gn -> apply (N:=N) (E:=E) [GRemoveNode (TNode n)] gn = Ok (sg_remove_node gn n, [])) by reflexivity.
  destruct (traverse_mut_total cb) with (fuel := length (gnodes (sg g))) (h := @nil (nat * sgraph N E * list (gtransform N E))) (g := g) (ready := starts g) (visited := @nil nat) (stack := rev (starts g)) (r := r) as (h & g' & ->);
    [|exact W|exact Fw|].
  { intros h gn n Wn Hn. unfold cb. destruct (del h gn n); eexists _, _, _; split; reflexivity. }
  (* the shape of every call, with well-formedness *)
  assert (Wf : forall fuel h0 g0 ready visited stack h1 g1, traverse_mut fuel cb h0 g0 ready visited stack = Some (Ok (h1, g1)) -> well_formed g0 ->
    (forall n gn ts, In (n, gn, ts) h0 -> well_formed gn /\ has gn n /\ (ts = [] \/ ts = [GRemoveNode (TNode n)])) -> (forall x, has g0 x -> has g x) -> (forall a b, edge g0 a b -> edge g a b) -> incl (visited_nodes h0) (node_indices (sg g)) ->
    (forall n gn ts, In (n, gn, ts) h1 -> well_formed gn /\ has gn n /\ (ts = [] \/ ts = [GRemoveNode (TNode n)])) /\ (forall a b, edge g1 a b -> edge g a b) /\ incl (visited_nodes h1) (node_indices (sg g))).
  { induction fuel as [|fuel IH]; intros h0 g0 ready visited stack h1 g1 H W0 P0 Hs He Vi; destruct stack as [|n stack]; cbn [traverse_mut] in H; try discriminate; [injection H as <- <-; auto..|].
    destruct (contains (sg g0) n) eqn:C; cbn [negb] in H; [|eapply IH; eassumption]. unfold cb at 1 in H.
    assert (Nx : forall x, In x (node_indices (sg g)) <-> has g x) by (intros x; apply node_indices_spec).
    destruct (del h0 g0 n).
    - rewrite (Ap g0 n W0) in H. cbn [fold_left] in H. destruct (fold_left (push_next (sg (sg_remove_node g0 n)) (n :: visited)) (succs (sg g0) n) _) as [r s]. destruct (remove_node_ok g0 n W0 C) as (W1 & Nd & Ge).
      eapply IH; [exact H|exact W1| | | |].
      + intros n' gn' ts' [Q|Q]; [injection Q as <- <- <-; auto|now apply P0].
      + intros x Hx. apply Hs. apply has_node in Hx as [w Hw]. rewrite Nd in Hw. destruct (x =? n); [discriminate|]. apply has_node. eauto.
      + intros a b [l Hl]. apply He. exists l. rewrite Ge in Hl. now apply filter_In in Hl.
      + intros x [<- |Hx]; [apply Nx, Hs, C|now apply Vi].
    - change (apply [] g0) with (@Ok (sgraph N E * list nat) (g0, [])) in H. cbn [fold_left] in H. destruct (fold_left (push_next (sg g0) (n :: visited)) (succs (sg g0) n) _) as [r s].
      eapply IH; [exact H|exact W0| |exact Hs|exact He|].
      + intros n' gn' ts' [Q|Q]; [injection Q as <- <- <-; auto|now apply P0].
      + intros x [<- |Hx]; [apply Nx, Hs, C|now apply Vi]. }
  destruct (Wf _ _ _ _ _ _ _ _ Fw W) as (P & Eg & Vg); [intros n gn ts []|auto|auto|intros x []|].
  assert (Al : all_allowed h).
  { intros later n gn ts earlier g2 added Eh A2. destruct (P n gn ts) as (Wn & Hn & Ts); [rewrite Eh; apply in_or_app; right; now left|]. destruct Ts as [-> | ->].
    - injection A2 as <- <-. apply allowed_nothing.
    - rewrite (Ap gn n Wn) in A2. injection A2 as <- <-. now apply allowed_delete. }
  assert (Ac' : acyclic_graph g') by (destruct Ac as [rk Hrk]; exists rk; intros a b Hab; apply Hrk, Eg, Hab).
  destruct (C126_visits_everything_in_order N E _ cb g g' h W Fw Al Ac') as (ND & Vi & Or). exists h, g'. split; [reflexivity|]. split; [exact ND|]. split.
  - intros x. split; [intros Hx; apply node_indices_spec, Vg, Hx|auto].
  - intros later n gn ts earlier Eh m Hm. apply (proj2 (Or later n gn ts earlier Eh)). now right.
Qed.
Print Assumptions C126_delete_current.

(** C126. A callback that deletes no nodes, on a graph none were deleted from: new nodes always get new numbers, so the remaining rules are enough. *)
Theorem C126_insert_only : forall N E fuel cb (g g' : sgraph N E) h, well_formed g -> sfree g = [] ->
  forward_traverse_mut fuel cb g = Some (Ok (h, g')) -> acyclic_graph g' ->
  (forall n gn ts t, In (n, gn, ts) h -> In t ts -> match t with GRemoveNode _ => False | _ => True end) ->
  (forall later n gn ts earlier gn' added, h = later ++ (n, gn, ts) :: earlier -> apply ts gn = Ok (gn', added) ->
     (forall a b, edge gn' a b -> edge gn a b \/ In b added \/ exists m, edge gn m b /\ ~ In m (visited_nodes earlier)) /\
     (forall a b, edge gn a b -> a <> n -> b <> n -> edge gn' a b) /\
     (forall x, In x added -> (forall m, ~ edge gn' m x) \/ edge gn' n x \/ exists m, edge gn' m x /\ ~ In m (n :: visited_nodes earlier))) ->
  NoDup (visited_nodes h) /\ (forall x, has g x \/ has g' x -> In x (visited_nodes h)) /\
  forall later n gn ts earlier, h = later ++ (n, gn, ts) :: earlier -> has gn n /\ (forall m, edge gn m n \/ edge g m n -> In m (visited_nodes earlier)).
Proof.
  intros N E fuel cb g g' h W F H Ac R Ru. assert (R' : forall n gn ts t, In (n, gn, ts) h -> In t ts -> removes_node t = false).
  { intros n gn ts t Hi Ht. specialize (R n gn ts t Hi Ht). destruct t; [reflexivity..|contradiction|reflexivity]. }
  apply (C126_visits_everything_in_order N E fuel cb g g' h W H); [|exact Ac].
  assert (Nu : numbered h) by (eapply (traverse_mut_numbered cb fuel [] g); [exact H|exact R'|exact F|intros i []|exact Logic.I]).
  intros later n gn ts earlier gn' added Eh Ap. destruct (numbered_split later h n gn ts earlier Nu Eh) as [Fg Bg]. destruct (Ru later n gn ts earlier gn' added Eh Ap) as (H1 & H2 & H3).
  eapply allowed_insert; try eassumption. intros t Ht. eapply (R' n gn ts); [|exact Ht]. rewrite Eh. apply in_or_app. right. now left.
Qed.
Print Assumptions C126_insert_only.

(** A callback that, at node 0, splices a new node 3 in between 0 and 1. *)
Definition ex_splice (h : history nat unit) (g : sgraph nat unit) (n : nat) : res (list (gtransform nat unit)) :=
  Ok (if n =? 0 then [GAddNode 20; GRemoveEdge (TNode 0) (TNode 1); GAddEdge (TNode 0) (TDeferred 0) tt; GAddEdge (TDeferred 0) (TNode 1) tt] else []).
Definition ex_splice_run := forward_traverse_mut 4 ex_splice ex_graph.
Example ex_splice_order : match ex_splice_run with Some (Ok (h, _)) => visited_nodes h = [2; 1; 3; 0] | _ => False end.
Proof. reflexivity. Qed.
Lemma edges4 (g : sgraph nat unit) es : gedges (sg g) = es -> forall a b, edge g a b <-> In (a, b, tt) es.
Proof. intros <- a b. unfold edge. split; [intros [[] H]; exact H|eauto]. Qed.
Example C126_insert_only_applies : forall h g', ex_splice_run = Some (Ok (h, g')) -> NoDup (visited_nodes h) /\ forall x, has ex_graph x \/ has g' x -> In x (visited_nodes h).
Proof.
  intros h g' H. destruct (C126_insert_only nat unit 4 ex_splice ex_graph g' h) as (A & B & _); [|reflexivity|exact H| | | |split; assumption].
  - apply wf_plain. reflexivity.
  - vm_compute in H. injection H as _ <-. exists (fun i => match i with 0 => 0 | 3 => 1 | 1 => 2 | _ => 3 end). intros a b Hab. apply (edges4 _ _ eq_refl) in Hab.
    repeat (destruct Hab as [Hab|Hab]; [injection Hab as <- <-; lia|]). destruct Hab.
  - vm_compute in H. injection H as <- _. intros n gn ts t Hi Ht. repeat (destruct Hi as [Hi|Hi]; [injection Hi as <- <- <-; repeat (destruct Ht as [<- |Ht]; [exact Logic.I|]); destruct Ht|]). destruct Hi.
  - vm_compute in H. injection H as <- _. intros later n gn ts earlier gn' added Eh Ap.
    assert (Nop : ts = [] -> gn' = gn /\ added = []) by (intros ->; injection Ap as <- <-; auto).
    destruct later as [|v1 [|v2 [|v3 [|v4 later]]]]; cbn [app] in Eh.
    1-3: injection Eh; intros; subst; destruct (Nop eq_refl) as [-> ->]; (split; [auto|]); (split; [auto|]); intros x [].
    + injection Eh; intros; subst. vm_compute in Ap. injection Ap as <- <-. split; [|split].
      * intros a b Hab. apply (edges4 _ _ eq_refl) in Hab. repeat (destruct Hab as [Hab|Hab]; [injection Hab as <- <-|]); [right; right; exists 0; split; [exists tt; cbn; auto|intros []]|right; left; now left|left; exists tt; cbn; auto|destruct Hab].
      * intros a b Hab Ha Hb. apply (edges4 _ _ eq_refl) in Hab. repeat (destruct Hab as [Hab|Hab]; [injection Hab as <- <-|]); [contradiction|exists tt; cbn; auto|destruct Hab].
      * intros x [<- |[]]. right. left. exists tt. cbn. auto.
    + exfalso. injection Eh; intros Q _ _ _ _. now destruct later.
Qed.

(** C126, refuted: the mutations the documentation allows, deleting the current node and inserting nodes after it, are not enough for every node to be visited. On 0 -> 1, the callback deletes node 0
    when visiting it, and then, visiting 1, inserts a node after 1. The new node gets the number 0 again, counts as visited, and the callback never sees it. *)
Definition ex_reuse (h : history nat unit) (g : sgraph nat unit) (n : nat) : res (list (gtransform nat unit)) :=
  Ok (if n =? 0 then [GRemoveNode (TNode 0)] else [GAddNode 99; GAddEdge (TNode n) (TDeferred 0) tt]).
Theorem C126_index_reuse_refuted : exists (g g' : sgraph nat unit) h x, well_formed g /\ acyclic_graph g /\ acyclic_graph g' /\
  (forall h gn n ts, ex_reuse h gn n = Ok ts -> ts = [GRemoveNode (TNode n)] \/ ts = [GAddNode 99; GAddEdge (TNode n) (TDeferred 0) tt]) /\
  forward_traverse_mut 2 ex_reuse g = Some (Ok (h, g')) /\ node (sg g') x = Some 99 /\ edge g' 1 x /\
  forall n gn ts, In (n, gn, ts) h -> node (sg gn) n <> Some 99.
Proof.
  exists {| sg := {| gnodes := map Some [10; 11]; gedges := [(0, 1, tt)] |}; sfree := [] |}. eexists _, _, 0.
  split; [apply wf_plain; reflexivity|]. split; [|split; [|split; [|split; [reflexivity|split; [reflexivity|split]]]]].
  - exists (fun i => i). intros a b Hab. apply (edges4 _ _ eq_refl) in Hab. destruct Hab as [Hab|[]]. injection Hab as <- <-. lia.
  - exists (fun i => 1 - i). intros a b Hab. apply (edges4 _ _ eq_refl) in Hab. destruct Hab as [Hab|[]]. injection Hab as <- <-. cbn. lia.
  - intros h gn n ts H. unfold ex_reuse in H. destruct (n =? 0) eqn:Q; injection H as <-; [apply Nat.eqb_eq in Q as ->; now left|now right].
  - exists tt. now left.
  - intros n gn ts [H|[H|[]]]; injection H as <- <- <-; discriminate.
Qed.
Print Assumptions C126_index_reuse_refuted.
(** [C126_delete_current] on the graph 0 -> 1 -> 2, deleting the even nodes. *)
Example C126_delete_current_applies : exists h g', forward_traverse_mut 3 (fun _ _ n => Ok (if Nat.even n then [GRemoveNode (TNode n)] else [])) ex_graph = Some (Ok (h, g')) /\ visited_nodes h = [2; 1; 0] /\ NoDup (visited_nodes h).
Proof.
  destruct (C126_delete_current nat unit (fun _ _ n => Nat.even n) ex_graph) as (h & g' & H & ND & _).
  - apply wf_plain. reflexivity.
  - exists (fun i => i). intros a b Hab. apply (edges4 _ _ eq_refl) in Hab. repeat (destruct Hab as [Hab|Hab]; [injection Hab as <- <-; lia|]). destruct Hab.
  - exists h, g'. split; [exact H|]. split; [|exact ND]. vm_compute in H. injection H as <- _. reflexivity.
Qed.
