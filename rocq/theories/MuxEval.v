(** Model of the read-only graph traversal of mux_circuits/src/graph_ops.rs and of test_mux_circuit (mux_circuits/src/lib.rs). *)
From Verif Require Import Base Alu Graph MuxGraph.
Open Scope nat_scope.

(** graph_ops.rs:115-121, 122-137 push a node when all its predecessors have been visited. *)
Definition push_next {N E} (g : graph N E) (visited : list nat) (st : list nat * list nat) (i : nat) : list nat * list nat :=
  let '(ready, stack) := st in
  if negb (mem i ready) && forallb (fun m => mem m visited) (preds g i) then (i :: ready, i :: stack) else (ready, stack).

(** graph_ops.rs:66-147 [traverse] with forward = true and a callback that does not change the graph: [cb s n] runs the callback on
    node n in state s. [stack] is ready_nodes, its top at the head. The fuel bounds the number of iterations; running out of it
    counts as a panic. *)
Fixpoint traverse_loop {N E St} (fuel : nat) (g : graph N E) (cb : St -> nat -> res St) (s : St) (ready visited stack : list nat) : res St :=
  match stack with
  | [] => Ok s
  | n :: stack =>
      match fuel with
      | O => Panic
      | S fuel =>
          let visited := n :: visited in
          let next := succs g n in
          if negb (contains g n) then traverse_loop fuel g cb s ready visited stack
          else
            s' <- cb s n ;;
            let st := if contains g n then fold_left (push_next g visited) (succs g n) (ready, stack) else (ready, stack) in
            let '(ready, stack) := fold_left (push_next g visited) next st in
            traverse_loop fuel g cb s' ready visited stack
      end
  end.
(** graph_ops.rs:152-162 [forward_traverse]; 91-98: start from the nodes without predecessors, the last one on top. *)
Definition forward_traverse {N E St} (g : graph N E) (cb : St -> nat -> res St) (s : St) : res St :=
  let start := filter (fun n => match preds g n with [] => true | _ => false end) (node_indices g) in
  traverse_loop (S (length (gnodes g))) g cb s start [] (rev start).

(** Vec assignment [v[i] = x]: panics out of bounds. *)
Definition set_at {A} (l : list A) (i : nat) (x : A) : res (list A) :=
  if i <? length l then Ok (firstn i l ++ x :: skipn (S i) l) else Panic.

(** lib.rs:460-491, the callback of test_mux_circuit. [get_mux_inputs] (lib.rs:246-275) reads the three incoming edges like
    opt.rs's [get_mux_operands]. *)
Definition eval_node (g : mgraph) (ins : list bool) (data : list bool) (n : nat) : res (list bool) :=
  match node g n with
  | None => Panic
  | Some (MVar x) => b <- get ins x ;; set_at data n b
  | Some MOne => set_at data n true
  | Some MZero => set_at data n false
  | Some (MOut _) =>
      match in_edges g n with
      | e :: _ => b <- get data (fst (fst e)) ;; set_at data n b
      | [] => Panic
      end
  | Some MMux =>
      ' (s, l, h) <- get_mux_operands g n ;;
      sel <- get data s ;; high <- get data h ;; low <- get data l ;;
      set_at data n (if sel then high else low)
  end.

Definition is_var (o : option muxop) : bool := match o with Some (MVar _) => true | _ => false end.
(** lib.rs:494-509: the output nodes with their numbers, sorted as pairs (node index first). *)
Definition outputs_of (g : mgraph) : list (nat * nat) :=
  sort_by (flat_map (fun n => match node g n with Some (MOut i) => [(n, i)] | _ => [] end) (node_indices g)).
(** lib.rs:447-511 [test_mux_circuit]. *)
Definition test_mux_circuit (g : mgraph) (ins : list bool) : res (list bool) :=
  if length ins =? length (filter (fun n => is_var (node g n)) (node_indices g)) then
    data <- forward_traverse g (eval_node g ins) (repeat false (length (node_indices g))) ;;
    mapM (fun p => get data (fst p)) (outputs_of g)
  else Panic.
