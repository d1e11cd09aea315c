(** Model of the public graph-rewriting interface of mux_circuits/src/opt.rs: transform lists with deferred node indices and
    [forward_traverse_mut]. Unlike Graph.v's [add_node], adding a node here reuses the index of the last removed node, as
    petgraph's StableGraph does. *)
From Verif Require Import Base Alu Graph MuxGraph MuxEval.
Open Scope nat_scope.

(** petgraph::StableGraph: the graph and its list of vacant slots, the last vacated first. *)
Record sgraph (N E : Type) := { sg : graph N E; sfree : list nat }.
Arguments sg {N E}. Arguments sfree {N E}. Arguments Build_sgraph {N E}.

Section T.
Context {N E : Type}.

(** Put a value in a slot. *)
Definition fill (l : list (option N)) (i : nat) (w : N) : list (option N) := firstn i l ++ Some w :: skipn (S i) l.
(** StableGraph::add_node: occupies the last vacated slot if there is one. *)
Definition sg_add_node (g : sgraph N E) (w : N) : nat * sgraph N E :=
  match sfree g with
  | i :: f => (i, {| sg := {| gnodes := fill (gnodes (sg g)) i w; gedges := gedges (sg g) |}; sfree := f |})
  | [] => let '(i, g') := add_node (sg g) w in (i, {| sg := g'; sfree := [] |})
  end.
(** StableGraph::add_edge. *)
Definition sg_add_edge (g : sgraph N E) (a b : nat) (l : E) : res (sgraph N E) :=
  g' <- add_edge (sg g) a b l ;; Ok {| sg := g'; sfree := sfree g |}.
(** StableGraph::remove_node. *)
Definition sg_remove_node (g : sgraph N E) (n : nat) : sgraph N E :=
  if contains (sg g) n then {| sg := remove_node (sg g) n; sfree := n :: sfree g |} else g.
(** StableGraph::find_edge and remove_edge: the newest edge from a to b. *)
Fixpoint cut_edge (es : list (nat * nat * E)) (a b : nat) : option (list (nat * nat * E)) :=
  match es with
  | [] => None
  | e :: es => if (fst (fst e) =? a) && (snd (fst e) =? b) then Some es else option_map (cons e) (cut_edge es a b)
  end.
Definition sg_remove_edge (g : sgraph N E) (a b : nat) : res (sgraph N E) :=
  match cut_edge (gedges (sg g)) a b with
  | Some es => Ok {| sg := {| gnodes := gnodes (sg g); gedges := es |}; sfree := sfree g |}
  | None => Panic
  end.

(** opt.rs:120-132 TransformNodeIndex. *)
Inductive tindex := TNode (n : nat) | TDeferred (d : nat).
(** opt.rs:78-106 Transform. *)
Inductive gtransform := GAddEdge (a b : tindex) (l : E) | GAddNode (w : N) | GRemoveNode (n : tindex) | GRemoveEdge (a b : tindex).

(** opt.rs:165-172 materialize_index; [ids] is inserted_node_ids. *)
Definition materialize (ids : list (option nat)) (i : tindex) : res nat :=
  match i with
  | TNode x => Ok x
  | TDeferred d => match nth_error ids d with Some (Some x) => Ok x | _ => Panic end
  end.
(** opt.rs:186-190 push: the new list and the deferred index of the pushed transform. *)
Definition push (ts : list gtransform) (t : gtransform) : list gtransform * nat := (ts ++ [t], length (ts ++ [t]) - 1).
(** opt.rs:234-259, one iteration of apply: the graph and the inserted node. *)
Definition apply_one (g : sgraph N E) (ids : list (option nat)) (t : gtransform) : res (sgraph N E * option nat) :=
  match t with
  | GAddNode w => let '(i, g') := sg_add_node g w in Ok (g', Some i)
  | GAddEdge a b l => a <- materialize ids a ;; b <- materialize ids b ;; g' <- sg_add_edge g a b l ;; Ok (g', None)
  | GRemoveEdge a b => a <- materialize ids a ;; b <- materialize ids b ;; g' <- sg_remove_edge g a b ;; Ok (g', None)
  | GRemoveNode n => n <- materialize ids n ;; Ok (sg_remove_node g n, None)
  end.
(** opt.rs:226-269 apply: the graph, inserted_node_ids and added_nodes. *)
Fixpoint apply_loop (ts : list gtransform) (g : sgraph N E) (ids : list (option nat)) (added : list nat) : res (sgraph N E * list (option nat) * list nat) :=
  match ts with
  | [] => Ok (g, ids, added)
  | t :: ts =>
      ' (g', i) <- apply_one g ids t ;;
      apply_loop ts g' (ids ++ [i]) (match i with Some n => added ++ [n] | None => added end)
  end.
Definition apply (ts : list gtransform) (g : sgraph N E) : res (sgraph N E * list nat) :=
  ' (g', _, added) <- apply_loop ts g [] [] ;; Ok (g', added).

(** What a traversal has done: for each call of the callback, latest first, the node, the graph it saw and the transforms it
    returned. *)
Definition history := list (nat * sgraph N E * list gtransform).
(** opt.rs:512-517: push a new node that has no predecessors. *)
Definition push_source (g : graph N E) (st : list nat * list nat) (i : nat) : list nat * list nat :=
  match preds g i with [] => (i :: fst st, i :: snd st) | _ => st end.
(** opt.rs:435-521 traverse with forward = true. The callback is an FnMut: what it returns may depend on everything it has seen, hence
    on the history. [stack] is ready_nodes, its top at the head. [None]: not finished after [fuel] iterations. *)
Fixpoint traverse_mut (fuel : nat) (cb : history -> sgraph N E -> nat -> res (list gtransform)) (h : history) (g : sgraph N E)
    (ready visited stack : list nat) : option (res (history * sgraph N E)) :=
  match stack with
  | [] => Some (Ok (h, g))
  | n :: stack =>
      match fuel with
      | O => None
      | S fuel =>
          let visited := n :: visited in
          let next := succs (sg g) n in
          if negb (contains (sg g) n) then traverse_mut fuel cb h g ready visited stack
          else
            match cb h g n with
            | Err e => Some (Err e)
            | Panic => Some Panic
            | Ok ts =>
                match apply ts g with
                | Err e => Some (Err e)
                | Panic => Some Panic
                | Ok (g', added) =>
                    let st := if contains (sg g') n then fold_left (push_next (sg g') visited) (succs (sg g') n) (ready, stack) else (ready, stack) in
                    let '(ready, stack) := fold_left (push_source (sg g')) added (fold_left (push_next (sg g') visited) next st) in
                    traverse_mut fuel cb ((n, g, ts) :: h) g' ready visited stack
                end
            end
      end
  end.
(** opt.rs:418-428 [forward_traverse_mut]; 461-466: start from the nodes without predecessors, the last one on top. *)
Definition forward_traverse_mut (fuel : nat) (cb : history -> sgraph N E -> nat -> res (list gtransform)) (g : sgraph N E) : option (res (history * sgraph N E)) :=
  let start := filter (fun n => match preds (sg g) n with [] => true | _ => false end) (node_indices (sg g)) in
  traverse_mut fuel cb [] g start [] (rev start).
End T.
Arguments gtransform : clear implicits.
Arguments history : clear implicits.
