(** Vocabulary for the properties of graph rewriting (C125, C126). *)
From Verif Require Import Base Graph Transforms.
Open Scope nat_scope.

Section T.
Context {N E : Type}.
Implicit Types (g : sgraph N E) (ts : list (gtransform N E)) (h : history N E).

(** x is a node of the graph; there is an edge from a to b. *)
Definition has g (x : nat) : Prop := contains (sg g) x = true.
Definition edge g (a b : nat) : Prop := exists l, In (a, b, l) (gedges (sg g)).
(** A graph as StableGraph keeps it: edges join nodes of the graph, and the vacant slots are the ones on the free list. *)
Record well_formed g : Prop := {
  wf_ends : forall a b, edge g a b -> has g a /\ has g b;
  wf_free : NoDup (sfree g) /\ forall i, In i (sfree g) -> i < length (gnodes (sg g)) /\ ~ has g i
}.
Definition acyclic_graph g : Prop := exists rank : nat -> nat, forall a b, edge g a b -> rank a < rank b.

(** The nodes on which the callback has been called, the latest first. *)
Definition visited_nodes h : list nat := map (fun v => fst (fst v)) h.

(** What the documentation of forward_traverse_mut lets a callback do to graph [g] while visiting [n], after [done] were visited: [g'] is
    the graph afterwards and [added] the nodes it added. It may delete [n], and no other node; delete edges from or to [n], and no others; add nodes under
    numbers that were not used before; and add edges to the new nodes and to nodes the traversal has not reached (some predecessor is [n] or is not visited
    yet). A new node must have no predecessors, or come after [n] or after a node not visited yet. *)
Record allowed (done : list nat) (n : nat) g (added : list nat) g' : Prop := {
  al_kept : forall x, has g x -> x <> n -> has g' x;
  al_nodes : forall x, has g' x -> has g x \/ In x added;
  al_added : NoDup added /\ forall x, In x added -> has g' x /\ ~ has g x /\ ~ In x done;
  al_new_edges : forall a b, edge g' a b -> edge g a b \/ In b added \/ exists m, edge g m b /\ ~ In m done;
  al_edges_kept : forall a b, edge g a b -> a <> n -> b <> n -> edge g' a b;
  al_after : forall x, In x added -> (forall m, ~ edge g' m x) \/ edge g' n x \/ exists m, edge g' m x /\ ~ In m (n :: done)
}.
(** Every call of the callback in the history kept to the rules. *)
Definition all_allowed h : Prop := forall later n g ts earlier g' added, h = later ++ (n, g, ts) :: earlier ->
  apply ts g = Ok (g', added) -> allowed (visited_nodes earlier) n g added g'.

(** A transform names a node by its index or by the position of the transform that adds it; [added] are the nodes [apply] added, in order. *)
Definition adds (t : gtransform N E) : bool := match t with GAddNode _ => true | _ => false end.
Definition denotes ts (added : list nat) (i : tindex) (x : nat) : Prop :=
  match i with
  | TNode n => x = n
  | TDeferred d => (exists w, nth_error ts d = Some (GAddNode w)) /\ nth_error added (length (filter adds (firstn d ts))) = Some x
  end.
(** A usable reference at position p of the list: a node of the graph, or an earlier [GAddNode]. *)
Definition refers g ts (p : nat) (i : tindex) : Prop :=
  match i with TNode n => has g n | TDeferred d => d < p /\ exists w, nth_error ts d = Some (GAddNode w) end.
Definition uses (t : gtransform N E) (i : tindex) : Prop :=
  match t with GAddEdge a b _ | GRemoveEdge a b => i = a \/ i = b | GRemoveNode n => i = n | GAddNode _ => False end.
End T.
