(** Specification vocabulary for the circuit processor (not a model of code). *)
From Verif Require Import Base Graph MuxGraph FheGraph SpecFhe CircuitProc.
Open Scope nat_scope.

(** Progress of a task through its life; [finished]: its output is written and visible to dependents. *)
Definition prank (p : phase) : nat :=
  match p with PNone => 0 | PBlocked => 1 | PReady => 2 | PRun => 3 | PLock => 4 | PDrain => 5 | PSend => 6 | PRetire => 7 | PDone => 8 end.
Definition started (p : phase) : bool := 2 <? prank p.
Definition finished (p : phase) : bool := 4 <? prank p.
(** Submitted and not yet finished: the operation holds a flow-control token. *)
Definition in_flight (p : phase) : bool := (0 <? prank p) && (prank p <? 7).

Definition item_handler (x : item) : nat := match x with ITask h _ _ => h | IBad h => h end.

(** A well-formed plan: dependencies are earlier operations of the same circuit, and each circuit's last item, and only that one,
    is Retire. *)
Record plan_ok (plan : list item) : Prop := {
  po_deps : forall i h op deps d l, nth_error plan i = Some (ITask h op deps) -> In (d, l) deps ->
    d < i /\ exists op' deps', nth_error plan d = Some (ITask h op' deps') /\ op' <> FRetire;
  po_retire : forall i h deps, nth_error plan i = Some (ITask h FRetire deps) -> deps = [] /\
    forall k x, nth_error plan k = Some x -> item_handler x = h -> k <= i;
  po_has_retire : forall i x, nth_error plan i = Some x -> exists r, nth_error plan r = Some (ITask (item_handler x) FRetire []);
  po_ops : forall i h op deps, nth_error plan i = Some (ITask h op deps) -> op <> FZero TLwe1 /\ op <> FOne TLwe1
}.

(** Everything was submitted and every task has finished. *)
Definition complete (plan : list item) (s : pstate) : Prop :=
  dp s = DNext (length plan) /\ forall i h op deps, nth_error plan i = Some (ITask h op deps) -> ph s i = PDone.

(** Number of tasks t < n with property p. *)
Fixpoint count_tasks (p : nat -> bool) (n : nat) : nat := match n with O => 0 | S n => count_tasks p n + (if p n then 1 else 0) end.

(** Sequential meaning of a plan, in the order of the plan: the outcome of task i. *)
Inductive pval (deg : nat) (cells : cty -> nat -> ct) (plan : list item) : nat -> outcome -> Prop :=
| pv_task : forall i h op deps ins o, nth_error plan i = Some (ITask h op deps) -> pins deg cells plan deps ins ->
    exec_op deg cells op ins = Ok o -> pval deg cells plan i o
with pins (deg : nat) (cells : cty -> nat -> ct) (plan : list item) : list (nat * fedge) -> tinputs -> Prop :=
| pi_nil : pins deg cells plan [] []
| pi_cons : forall d l deps c w ins, pval deg cells plan d (c, w) -> pins deg cells plan deps ins -> pins deg cells plan ((d, l) :: deps) ((l, c) :: ins).

(** No ciphertext is both an input and an output, or an output twice, of the submitted circuits. *)
Definition no_alias (plan : list item) : Prop :=
  (forall i j h h' t r deps deps', nth_error plan i = Some (ITask h (FInput t r) deps) -> nth_error plan j = Some (ITask h' (FOutput t r) deps') -> False) /\
  (forall i j h h' t r deps deps', nth_error plan i = Some (ITask h (FOutput t r) deps) -> nth_error plan j = Some (ITask h' (FOutput t r) deps') -> i = j).

(** A traversal order as petgraph's Topo gives it: existing nodes, each once, after all their predecessors, and every node all
    of whose predecessors are visited. *)
Record topo_order (g : fgraph) (order : list nat) : Prop := {
  to_nodes : forall n, In n order -> contains g n = true;
  to_once : NoDup order;
  to_after : forall pre n post, order = pre ++ n :: post -> forall s l, In (s, n, l) (gedges g) -> In s pre;
  to_all : forall n, contains g n = true -> (forall s l, In (s, n, l) (gedges g) -> In s order) -> In n order
}.

(** The nodes of a circuit that are submitted: those before the first Retire met. *)
Fixpoint live (g : fgraph) (order : list nat) : list nat :=
  match order with [] => [] | n :: order => match node g n with Some FRetire => [] | _ => n :: live g order end end.
(** Circuits that may be submitted, each with the order in which it is traversed (constants of kind L1 LWE do not exist). *)
Definition submission (gs : list (fgraph * list nat)) : Prop :=
  forall g order, In (g, order) gs -> topo_order g order /\ forall n, node g n <> Some (FZero TLwe1) /\ node g n <> Some (FOne TLwe1).
(** No shared ciphertext is both read and written, or written by two output nodes, in the submitted circuits. *)
Definition exclusive (gs : list (fgraph * list nat)) : Prop :=
  forall c c' g g' o o' n n' t r, nth_error gs c = Some (g, o) -> nth_error gs c' = Some (g', o') -> node g' n' = Some (FOutput t r) ->
    node g n <> Some (FInput t r) /\ (node g n = Some (FOutput t r) -> c = c' /\ n = n').
(** The numbers of the tasks of circuit c: task [base_of gs c + k] is the k-th node of its order. *)
Definition width (g : fgraph) (order : list nat) : nat := length (live g order) + (if length (live g order) =? length order then 1 else 2).
Fixpoint base_of (gs : list (fgraph * list nat)) (c : nat) : nat :=
  match gs, c with (g, order) :: gs, S c => width g order + base_of gs c | _, _ => 0 end.
Definition task_of (gs : list (fgraph * list nat)) (c n i : nat) : Prop :=
  exists g order k, nth_error gs c = Some (g, order) /\ nth_error (live g order) k = Some n /\ i = base_of gs c + k.
