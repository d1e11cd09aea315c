(** Model of mux circuits as graphs: mux_circuits/src/lib.rs (MuxCircuit, From<&[Bdd]>, optimize, remap_inputs) and the graph
    traversal and common-subexpression elimination of mux_circuits/src/opt.rs. *)
From Verif Require Import Base Graph.

(** lib.rs:56-94 MuxOp. *)
Inductive muxop := MOne | MZero | MMux | MVar (i : nat) | MOut (i : nat).
(** lib.rs:96-110 MuxEdgeInfo. *)
Inductive medge := Low | High | Select | OutEdge.
Definition medge_eqb (a b : medge) : bool :=
  match a, b with Low, Low | High, High | Select, Select | OutEdge, OutEdge => true | _, _ => false end.
Definition mgraph := graph muxop medge.

(** A fold with Rust panics. *)
Fixpoint foldM {A S} (f : S -> A -> res S) (l : list A) (s : S) : res S :=
  match l with [] => Ok s | x :: l => s' <- f s x ;; foldM f l s' end.
(** Vec indexing: panics out of bounds. *)
Definition get {A} (l : list A) (i : nat) : res A := match nth_error l i with Some x => Ok x | None => Panic end.

(** * From<&[Bdd]>: lib.rs:358-445 *)

(** One serialised decision diagram: records (variable id, low link, high link) as produced by Bdd::to_bytes of the
    biodivine library (terminal nodes first: 0 = (n, 0, 0), 1 = (n, 1, 1)); lib.rs:372-386 parses the bytes. The byte
    parsing itself is not modelled. *)
Definition bdd := list (nat * nat * nat).

Record builder := { bgraph : graph (muxop * nat) medge; bmax : nat; bzero : option nat; bone : option nat }.

(** lib.rs:380-417, the body of the loop over the records; state: builder and added_nodes. *)
Definition add_bdd_node (st : builder * list nat) (rec : nat * nat * nat) : res (builder * list nat) :=
  let '(b, added) := st in
  let '(var, lo, hi) := rec in
  let max' := Nat.max (bmax b) var in
  let '(n, b1) :=
    if (hi =? 0)%nat && (lo =? 0)%nat then
      match bzero b with
      | Some z => (z, {| bgraph := bgraph b; bmax := max'; bzero := Some z; bone := bone b |})
      | None => let '(z, g) := add_node (bgraph b) (MZero, var) in (z, {| bgraph := g; bmax := max'; bzero := Some z; bone := bone b |})
      end
    else if (hi =? 1)%nat && (lo =? 1)%nat then
      match bone b with
      | Some o => (o, {| bgraph := bgraph b; bmax := max'; bzero := bzero b; bone := Some o |})
      | None => let '(o, g) := add_node (bgraph b) (MOne, var) in (o, {| bgraph := g; bmax := max'; bzero := bzero b; bone := Some o |})
      end
    else let '(m, g) := add_node (bgraph b) (MMux, var) in (m, {| bgraph := g; bmax := max'; bzero := bzero b; bone := bone b |}) in
  let added := added ++ [n] in
  if (lo =? hi)%nat then Ok (b1, added)
  else
    l <- get added lo ;; g1 <- add_edge (bgraph b1) l n Low ;;
    h <- get added hi ;; g2 <- add_edge g1 h n High ;;
    Ok ({| bgraph := g2; bmax := bmax b1; bzero := bzero b1; bone := bone b1 |}, added).

(** lib.rs:367-422, the body of the loop over the diagrams. *)
Definition add_bdd (st : builder * nat) (d : bdd) : res (builder * nat) :=
  let '(b, i) := st in
  match d with
  | [] => Panic                                                    (* assert!(!ser.is_empty()) *)
  | _ =>
      ' (b1, added) <- foldM add_bdd_node d (b, []) ;;
      let '(o, g) := add_node (bgraph b1) (MOut i, O) in
      g' <- add_edge g (last added O) o OutEdge ;;
      Ok ({| bgraph := g'; bmax := bmax b1; bzero := bzero b1; bone := bone b1 |}, S i)
  end.

(** lib.rs:424-429, the input nodes. *)
Fixpoint add_variables (k : nat) (i : nat) (g : graph (muxop * nat) medge) : list nat * graph (muxop * nat) medge :=
  match k with
  | O => ([], g)
  | S k => let '(n, g1) := add_node g (MVar i, O) in let '(ns, g2) := add_variables k (S i) g1 in (n :: ns, g2)
  end.

(** lib.rs:433-440, the select lines. *)
Definition add_select (inputs : list nat) (g : graph (muxop * nat) medge) (n : nat) : res (graph (muxop * nat) medge) :=
  match node g n with
  | Some (MMux, var) => v <- get inputs var ;; add_edge g v n Select
  | _ => Ok g
  end.

(** lib.rs:444 circuit.map. *)
Definition untag (g : graph (muxop * nat) medge) : mgraph :=
  {| gnodes := map (option_map fst) (gnodes g); gedges := gedges g |}.

(** lib.rs:358-451: the graph and the input node list. *)
Definition from_bdds (ds : list bdd) : res (mgraph * list nat) :=
  ' (b, _) <- foldM add_bdd ds ({| bgraph := gempty; bmax := O; bzero := None; bone := None |}, O) ;;
  let '(inputs, g) := add_variables (bmax b) 0 (bgraph b) in
  g' <- foldM (add_select inputs) (node_indices g) g ;;
  Ok (untag g', inputs).

(** * Common-subexpression elimination: opt.rs *)

(** opt.rs:521-568 get_mux_operands: (select, low, high). *)
Definition get_mux_operands (g : mgraph) (n : nat) : res (nat * nat * nat) :=
  let es := in_edges g n in
  let src l := find (fun e => medge_eqb (snd e) l) es in
  if negb (length es =? 3)%nat then Panic
  else match src Select, src Low, src High with
       | Some s, Some l, Some h => Ok (fst (fst s), fst (fst l), fst (fst h))
       | _, _, _ => Panic
       end.

(** opt.rs:78-106 Transform (the two kinds CSE uses). *)
Inductive transform := TAddEdge (a b : nat) (l : medge) | TRemoveNode (n : nat).

(** opt.rs:226-262 apply. *)
Definition apply_transform (g : mgraph) (t : transform) : res mgraph :=
  match t with TAddEdge a b l => add_edge g a b l | TRemoveNode n => Ok (remove_node g n) end.
Definition apply_transforms (ts : list transform) (g : mgraph) : res mgraph := foldM apply_transform ts g.

(** opt.rs:348-361 move_edges. *)
Definition move_edges (g : mgraph) (node_to_add removed : nat) : list transform :=
  map (fun e => TAddEdge node_to_add (snd (fst e)) (snd e)) (out_edges g removed) ++ [TRemoveNode removed].

Definition key := (nat * nat * nat)%type.
Definition key_eqb (a b : key) : bool :=
  (fst (fst a) =? fst (fst b))%nat && (snd (fst a) =? snd (fst b))%nat && (snd a =? snd b)%nat.

(** opt.rs:343-396, one child of the visited node. State: the transforms so far and visited_nodes. MuxOp is neither
    binary nor unary (lib.rs:128-155), so only Mux nodes have a key. *)
Definition cse_child (g : mgraph) (st : list transform * list (key * nat)) (e : nat) : res (list transform * list (key * nat)) :=
  let '(ts, seen) := st in
  match node g e with
  | Some MMux =>
      k <- get_mux_operands g e ;;
      match find (fun p => key_eqb (fst p) k) seen with
      | Some (_, f) => if (f =? e)%nat then Ok (ts, seen) else Ok (ts ++ move_edges g f e, seen)
      | None => Ok (ts, (k, e) :: seen)
      end
  | Some _ => Ok (ts, seen)
  | None => Panic
  end.

(** opt.rs:331-399, the callback of common_subexpression_elimination. *)
Definition cse_visit (g : mgraph) (index : nat) : res (list transform) :=
  ' (ts, _) <- foldM (cse_child g) (succs g index) ([], []) ;; Ok ts.

Definition mem (n : nat) (l : list nat) : bool := existsb (Nat.eqb n) l.

(** opt.rs:497-509: push the nodes that have become ready. *)
Definition push_ready (g : mgraph) (visited : list nat) (st : list nat * list nat) (i : nat) : list nat * list nat :=
  let '(ready, stack) := st in
  if negb (mem i ready) && forallb (fun m => mem m visited) (preds g i) then (i :: ready, i :: stack) else (ready, stack).

(** opt.rs:435-518 traverse with forward = true and the CSE callback (which adds no nodes). [stack] is ready_nodes, its top
    at the head. The fuel bounds the number of iterations; running out of it counts as a panic, so that Ok means the
    loop ran to its end. *)
Fixpoint cse_loop (fuel : nat) (g : mgraph) (ready visited stack : list nat) : res mgraph :=
  match stack with
  | [] => Ok g
  | n :: stack =>
      match fuel with
      | O => Panic
      | S fuel =>
          let visited := n :: visited in
          let next := succs g n in
          if negb (contains g n) then cse_loop fuel g ready visited stack
          else
            ts <- cse_visit g n ;;
            g' <- apply_transforms ts g ;;
            let st := if contains g' n then fold_left (push_ready g' visited) (succs g' n) (ready, stack) else (ready, stack) in
            let '(ready, stack) := fold_left (push_ready g' visited) next st in
            cse_loop fuel g' ready visited stack
      end
  end.

(** opt.rs:328-331, 461-466: start from the nodes without predecessors (collected in index order, popped from the end). *)
Definition cse (g : mgraph) : res mgraph :=
  let start := filter (fun n => match preds g n with [] => true | _ => false end) (node_indices g) in
  cse_loop (S (length (gnodes g))) g start [] (rev start).

(** * compact_indices and optimize: lib.rs:276-279, 334-355 *)

(** The position of a node among the remaining ones: the index petgraph::Graph::from gives it. *)
Definition compact_index (g : mgraph) (n : nat) : nat := length (filter (contains g) (seq 0 n)).
Definition compact (g : mgraph) : mgraph :=
  {| gnodes := map Some (flat_map (fun o => match o with Some w => [w] | None => [] end) (gnodes g));
     gedges := map (fun e => (compact_index g (fst (fst e)), compact_index g (snd (fst e)), snd e)) (gedges g) |}.

(** lib.rs:339-354: Variable nodes sorted by input number (a stable sort by the number). *)
Fixpoint insert_by (x : nat * nat) (l : list (nat * nat)) : list (nat * nat) :=
  match l with [] => [x] | y :: l => if (fst x <? fst y)%nat then x :: y :: l else y :: insert_by x l end.
Definition sort_by (l : list (nat * nat)) : list (nat * nat) := fold_left (fun acc x => insert_by x acc) l [].
Definition inputs_of (g : mgraph) : list nat :=
  map snd (sort_by (flat_map (fun n => match node g n with Some (MVar x) => [(x, n)] | _ => [] end) (node_indices g))).

(** lib.rs:276-279 optimize. *)
Definition optimize (g : mgraph) : res (mgraph * list nat) :=
  g1 <- cse g ;; let g2 := compact g1 in Ok (g2, inputs_of g2).

(** * remap_inputs: lib.rs:288-331 *)

(** lib.rs:313-327: copy the edges of one original input to its new node and remove it. *)
Definition remap_one (dedup : nat) (g : mgraph) (orig : nat) : res mgraph :=
  g1 <- foldM (fun g e => add_edge g dedup (snd (fst e)) (snd e)) (out_edges g orig) g ;;
  Ok (remove_node g1 orig).

(** lib.rs:288-331: [encoded] is the result of the closure. Each old input x becomes input encoded[x]. *)
Definition remap_inputs (g : mgraph) (inputs : list nat) (count : nat) (encoded : list nat) : res (mgraph * list nat) :=
  if negb (length inputs =? length encoded)%nat then Panic
  else
    let '(dedup, g1) := fold_left (fun '(ns, g) i => let '(n, g') := add_node g (MVar i) in (ns ++ [n], g')) (seq 0 count) ([], g) in
    let targets := nodup Nat.eq_dec encoded in
    if negb (length dedup =? length targets)%nat then Panic
    else
      g2 <- foldM (fun g '(i, n) =>
              let origs := map snd (filter (fun p => (fst p =? i)%nat) (combine encoded inputs)) in
              match origs with [] => Panic | _ => foldM (remap_one n) origs g end)
            (combine (seq 0 count) dedup) g1 ;;
      let g3 := compact g2 in Ok (g3, inputs_of g3).

