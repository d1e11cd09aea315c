(** Directed graphs with labelled nodes and edges: the part of petgraph's StableGraph that the modelled code uses.

    Node indices are natural numbers; a removed node leaves a hole. Edges are kept newest first, which is the order in which
    petgraph enumerates the edges of a node (a new edge is linked in at the head of both adjacency lists; removals keep
    the order). petgraph is a dependency, not part of /repo: this file models its documented behaviour.

    Simplification: [add_node] always uses a new index, whereas StableGraph reuses the index of a removed node. No modelled
    function adds a node to a graph after removing one. *)
From Verif Require Import Base.

Record graph (N E : Type) := { gnodes : list (option N); gedges : list (nat * nat * E) }.
Arguments gnodes {N E}. Arguments gedges {N E}. Arguments Build_graph {N E}.

Section G.
Context {N E : Type}.
Implicit Types g : graph N E.

Definition gempty : graph N E := {| gnodes := []; gedges := [] |}.

(** StableGraph::node_weight. *)
Definition node g (n : nat) : option N := match nth_error (gnodes g) n with Some (Some w) => Some w | _ => None end.
(** StableGraph::contains_node. *)
Definition contains g n : bool := match node g n with Some _ => true | None => false end.
(** StableGraph::node_indices, in increasing order. *)
Definition node_indices g : list nat := filter (contains g) (seq 0 (length (gnodes g))).
(** StableGraph::add_node. *)
Definition add_node g (w : N) : nat * graph N E :=
  (length (gnodes g), {| gnodes := gnodes g ++ [Some w]; gedges := gedges g |}).
(** StableGraph::add_edge: panics when an endpoint is missing. *)
Definition add_edge g (a b : nat) (l : E) : res (graph N E) :=
  if contains g a && contains g b then Ok {| gnodes := gnodes g; gedges := (a, b, l) :: gedges g |} else Panic.
(** StableGraph::remove_node: also removes the edges that touch it; no effect on a missing node. *)
Definition remove_node g (n : nat) : graph N E :=
  {| gnodes := map (fun p => if (fst p =? n)%nat then None else snd p) (combine (seq 0 (length (gnodes g))) (gnodes g));
     gedges := filter (fun e => negb (fst (fst e) =? n)%nat && negb (snd (fst e) =? n)%nat) (gedges g) |}.
(** StableGraph::edges_directed. *)
Definition in_edges g (n : nat) : list (nat * nat * E) := filter (fun e => (snd (fst e) =? n)%nat) (gedges g).
Definition out_edges g (n : nat) : list (nat * nat * E) := filter (fun e => (fst (fst e) =? n)%nat) (gedges g).
(** StableGraph::neighbors_directed (with repetitions when there are parallel edges). *)
Definition succs g n : list nat := map (fun e => snd (fst e)) (out_edges g n).
Definition preds g n : list nat := map (fun e => fst (fst e)) (in_edges g n).
End G.
