(** Model of the circuit processor: parasol_runtime/src/circuit_processor/{mod.rs, completion_handler.rs}.

    One dispatcher thread submits circuits (spawn_graph); pool threads run tasks. The model is a transition system whose steps
    are the atomic actions of the code; any enabled step of any thread may happen next, which covers every number of pool
    threads and every schedule. Memory is sequentially consistent (the fences of the code are not modelled). An operation
    itself (exec_op) is one step: all its inputs are then complete, and the output buffers it writes are its own. *)
From Verif Require Import Base Graph MuxGraph FheGraph.
Open Scope nat_scope.

(** * What the dispatcher will submit *)

(** One iteration of the loop of spawn_graph: submit an operation with its dependencies (task numbers) for handler h, or meet a
    Retire in a user graph and report an error. The task number is the position in the plan. *)
Inductive item := ITask (h : nat) (op : fop) (deps : list (nat * fedge)) | IBad (h : nat).

(** mod.rs:585-602: collecting the dependencies of one node. [tasks] maps a node to its task and the number of out-edges
    not yet visited. *)
Definition tmap := list (nat * (nat * nat)).
Fixpoint tlookup (m : tmap) (k : nat) : option (nat * nat) := match m with [] => None | (a, b) :: m => if a =? k then Some b else tlookup m k end.
Definition tremove (m : tmap) (k : nat) : tmap := filter (fun p => negb (fst p =? k)) m.
Definition tinsert (m : tmap) (k : nat) (v : nat * nat) : tmap := (k, v) :: tremove m k.
Definition take_dep (st : tmap * list (nat * fedge)) (e : nat * nat * fedge) : res (tmap * list (nat * fedge)) :=
  let '(m, deps) := st in
  match tlookup m (fst (fst e)) with
  | None => Panic                                                     (* .unwrap() *)
  | Some (t, c) =>
      match c with
      | O => Panic                                                    (* count - 1 underflows *)
      | S c' => Ok (if c' =? 0 then tremove m (fst (fst e)) else tinsert m (fst (fst e)) (t, c'), deps ++ [(t, snd e)])
      end
  end.
(** mod.rs:582-625, the loop over the nodes in the order of petgraph's Topo iterator (a parameter), then the final Retire. *)
Fixpoint plan_loop (h : nat) (g : fgraph) (order : list nat) (m : tmap) (id : nat) : res (list item) :=
  match order with
  | [] => Ok [ITask h FRetire []]
  | n :: order =>
      ' (m, deps) <- foldM take_dep (in_edges g n) (m, []) ;;
      match node g n with
      | None => Panic
      | Some FRetire => Ok [IBad h; ITask h FRetire []]
      | Some op => rest <- plan_loop h g order (tinsert m n (id, length (out_edges g n))) (S id) ;; Ok (ITask h op deps :: rest)
      end
  end.
Definition plan_graph (h : nat) (g : fgraph) (order : list nat) (base : nat) : res (list item) := plan_loop h g order [] base.
(** Several circuits submitted one after the other, each with its own completion handler: 0, 1, ... *)
Fixpoint plan_graphs (h : nat) (gs : list (fgraph * list nat)) (base : nat) : res (list item) :=
  match gs with
  | [] => Ok []
  | (g, order) :: gs => p <- plan_graph h g order base ;; q <- plan_graphs (S h) gs (base + length p) ;; Ok (p ++ q)
  end.

(** * The transition system *)

(** Where a task is: not submitted; waiting for dependencies; its closure was given to the pool; about to run exec_op; about to
    lock its list of dependents; draining that list; about to return its flow-control token; about to retire; finished. *)
Inductive phase := PNone | PBlocked | PReady | PRun | PLock | PDrain | PSend | PRetire | PDone.
(** Where the dispatcher is: before item i; after recv (mod.rs:135); trying the j-th dependency (170); having locked it, before
    fetch_add (171), before push (172), before the guard is dropped (173); before fetch_sub (176). *)
Inductive dpc := DNext (i : nat) | DCount (i : nat) | DTry (i j : nat) | DAdd (i j : nat) | DPush (i j : nat) | DUnlock (i j : nat) | DSub (i : nat).

Record pstate := {
  dp : dpc;
  ph : nat -> phase;
  nd : nat -> nat;                    (* num_deps *)
  lk : nat -> bool;                   (* dependents locked *)
  dl : nat -> list nat;               (* dependents, last pushed first *)
  out : nat -> option ct;             (* output buffer *)
  store : cty -> nat -> ct;           (* ciphertexts shared with the caller *)
  tok : nat;                          (* tokens in the flow-control channel *)
  rem : nat -> nat;                   (* ops_remaining of a handler *)
  er : nat -> option err;             (* error of a handler *)
  calls : nat -> list (option err);   (* callback invocations of a handler *)
  runs : nat -> nat                   (* how often the closure of a task was run (for the statements) *)
}.

Definition upd {A} (f : nat -> A) (i : nat) (v : A) : nat -> A := fun k => if k =? i then v else f k.
Definition set_err (e : option err) (x : err) : option err := match e with None => Some x | Some _ => e end.
Definition write (s : cty -> nat -> ct) (w : option (cty * nat * ct)) : cty -> nat -> ct :=
  match w with None => s | Some (t, r, c) => fun t' r' => if cty_eqb t' t && (r' =? r) then c else s t' r' end.

Section System.
Context (deg : nat) (plan : list item) (cap : nat) (cells : cty -> nat -> ct).

Definition item_at (i : nat) : option item := nth_error plan i.
Definition is_retire (op : fop) : bool := match op with FRetire => true | _ => false end.

(** mod.rs:92-96 and completion_handler.rs:31: the initial state; the channel is filled with [cap] tokens. *)
Definition pinit : pstate :=
  {| dp := DNext 0; ph := fun _ => PNone; nd := fun _ => 0; lk := fun _ => false; dl := fun _ => []; out := fun _ => None; store := cells;
     tok := cap; rem := fun _ => 1; er := fun _ => None; calls := fun _ => []; runs := fun _ => 0 |}.

(** The labelled inputs of a task: the output buffers of its dependencies (mod.rs:145-147). *)
Definition gather (s : pstate) (deps : list (nat * fedge)) : tinputs := map (fun p => (snd p, out s (fst p))) deps.

Inductive step (s : pstate) : pstate -> Prop :=
(* mod.rs:613-617 *)
| SBad : forall i h, dp s = DNext i -> item_at i = Some (IBad h) ->
    step s {| dp := DNext (S i); ph := ph s; nd := nd s; lk := lk s; dl := dl s; out := out s; store := store s; tok := tok s; rem := rem s;
              er := upd (er s) h (set_err (er s h) EOther); calls := calls s; runs := runs s |}
(* mod.rs:135 flow_control.recv() blocks while the channel is empty *)
| SRecv : forall i h op deps t, dp s = DNext i -> item_at i = Some (ITask h op deps) -> tok s = S t ->
    step s {| dp := DCount i; ph := ph s; nd := nd s; lk := lk s; dl := dl s; out := out s; store := store s; tok := t; rem := rem s;
              er := er s; calls := calls s; runs := runs s |}
(* mod.rs:138-161; completion_handler.rs:38 *)
| SCount : forall i h op deps, dp s = DCount i -> item_at i = Some (ITask h op deps) ->
    step s {| dp := DTry i 0; ph := upd (ph s) i PBlocked; nd := upd (nd s) i 1; lk := upd (lk s) i false; dl := upd (dl s) i []; out := upd (out s) i None;
              store := store s; tok := tok s; rem := if is_retire op then rem s else upd (rem s) h (rem s h + 1);
              er := er s; calls := calls s; runs := runs s |}
(* mod.rs:170 try_lock fails *)
| STryFail : forall i j h op deps d l, dp s = DTry i j -> item_at i = Some (ITask h op deps) -> nth_error deps j = Some (d, l) -> lk s d = true ->
    step s {| dp := DTry i (S j); ph := ph s; nd := nd s; lk := lk s; dl := dl s; out := out s; store := store s; tok := tok s; rem := rem s;
              er := er s; calls := calls s; runs := runs s |}
(* mod.rs:170 try_lock succeeds *)
| STryOk : forall i j h op deps d l, dp s = DTry i j -> item_at i = Some (ITask h op deps) -> nth_error deps j = Some (d, l) -> lk s d = false ->
    step s {| dp := DAdd i j; ph := ph s; nd := nd s; lk := upd (lk s) d true; dl := dl s; out := out s; store := store s; tok := tok s; rem := rem s;
              er := er s; calls := calls s; runs := runs s |}
(* mod.rs:171 *)
| SAdd : forall i j, dp s = DAdd i j ->
    step s {| dp := DPush i j; ph := ph s; nd := upd (nd s) i (nd s i + 1); lk := lk s; dl := dl s; out := out s; store := store s; tok := tok s; rem := rem s;
              er := er s; calls := calls s; runs := runs s |}
(* mod.rs:172 *)
| SPush : forall i j h op deps d l, dp s = DPush i j -> item_at i = Some (ITask h op deps) -> nth_error deps j = Some (d, l) ->
    step s {| dp := DUnlock i j; ph := ph s; nd := nd s; lk := lk s; dl := upd (dl s) d (i :: dl s d); out := out s; store := store s; tok := tok s; rem := rem s;
              er := er s; calls := calls s; runs := runs s |}
(* mod.rs:173, the guard is dropped *)
| SUnlock : forall i j h op deps d l, dp s = DUnlock i j -> item_at i = Some (ITask h op deps) -> nth_error deps j = Some (d, l) ->
    step s {| dp := DTry i (S j); ph := ph s; nd := nd s; lk := upd (lk s) d false; dl := dl s; out := out s; store := store s; tok := tok s; rem := rem s;
              er := er s; calls := calls s; runs := runs s |}
(* the loop over the dependencies ends *)
| SLinked : forall i j h op deps, dp s = DTry i j -> item_at i = Some (ITask h op deps) -> nth_error deps j = None ->
    step s {| dp := DSub i; ph := ph s; nd := nd s; lk := lk s; dl := dl s; out := out s; store := store s; tok := tok s; rem := rem s;
              er := er s; calls := calls s; runs := runs s |}
(* mod.rs:176-177 *)
| SSub : forall i, dp s = DSub i ->
    step s {| dp := DNext (S i); ph := if nd s i =? 1 then upd (ph s) i PReady else ph s; nd := upd (nd s) i (nd s i - 1); lk := lk s; dl := dl s; out := out s;
              store := store s; tok := tok s; rem := rem s; er := er s; calls := calls s; runs := runs s |}
(* mod.rs:213 *)
| SCheck : forall i h op deps, ph s i = PReady -> item_at i = Some (ITask h op deps) ->
    step s {| dp := dp s; ph := upd (ph s) i (match er s h with None => PRun | Some _ => PLock end); nd := nd s; lk := lk s; dl := dl s; out := out s;
              store := store s; tok := tok s; rem := rem s; er := er s; calls := calls s; runs := upd (runs s) i (runs s i + 1) |}
(* mod.rs:214, exec_op succeeds *)
| SExecOk : forall i h op deps o w, ph s i = PRun -> item_at i = Some (ITask h op deps) -> exec_op deg (store s) op (gather s deps) = Ok (o, w) ->
    step s {| dp := dp s; ph := upd (ph s) i PLock; nd := nd s; lk := lk s; dl := dl s; out := upd (out s) i o;
              store := write (store s) w; tok := tok s; rem := rem s; er := er s; calls := calls s; runs := runs s |}
(* mod.rs:214-218, exec_op fails; OnceLock::set keeps the first error *)
| SExecErr : forall i h op deps e, ph s i = PRun -> item_at i = Some (ITask h op deps) -> exec_op deg (store s) op (gather s deps) = Err e ->
    step s {| dp := dp s; ph := upd (ph s) i PLock; nd := nd s; lk := lk s; dl := dl s; out := out s;
              store := store s; tok := tok s; rem := rem s; er := upd (er s) h (set_err (er s h) e); calls := calls s; runs := runs s |}
(* mod.rs:233 lock() spins until the lock is free *)
| SLock : forall i, ph s i = PLock -> lk s i = false ->
    step s {| dp := dp s; ph := upd (ph s) i PDrain; nd := nd s; lk := upd (lk s) i true; dl := dl s; out := out s;
              store := store s; tok := tok s; rem := rem s; er := er s; calls := calls s; runs := runs s |}
(* mod.rs:237-241, one dependent *)
| SPop : forall i d rest, ph s i = PDrain -> dl s i = d :: rest ->
    step s {| dp := dp s; ph := if nd s d =? 1 then upd (ph s) d PReady else ph s; nd := upd (nd s) d (nd s d - 1); lk := lk s; dl := upd (dl s) i rest; out := out s;
              store := store s; tok := tok s; rem := rem s; er := er s; calls := calls s; runs := runs s |}
(* mod.rs:245, the lock stays held *)
| SForget : forall i, ph s i = PDrain -> dl s i = [] ->
    step s {| dp := dp s; ph := upd (ph s) i PSend; nd := nd s; lk := lk s; dl := dl s; out := out s;
              store := store s; tok := tok s; rem := rem s; er := er s; calls := calls s; runs := runs s |}
(* mod.rs:249; send blocks while the channel is full *)
| SSend : forall i, ph s i = PSend -> tok s < cap ->
    step s {| dp := dp s; ph := upd (ph s) i PRetire; nd := nd s; lk := lk s; dl := dl s; out := out s;
              store := store s; tok := S (tok s); rem := rem s; er := er s; calls := calls s; runs := runs s |}
(* mod.rs:250; completion_handler.rs:42-45 *)
| SRetire : forall i h op deps, ph s i = PRetire -> item_at i = Some (ITask h op deps) ->
    step s {| dp := dp s; ph := upd (ph s) i PDone; nd := nd s; lk := lk s; dl := dl s; out := out s;
              store := store s; tok := tok s; rem := upd (rem s) h (rem s h - 1); er := er s;
              calls := if rem s h =? 1 then upd (calls s) h (calls s h ++ [er s h]) else calls s; runs := runs s |}.

Inductive reach : pstate -> Prop :=
| reach_init : reach pinit
| reach_step : forall s s', reach s -> step s s' -> reach s'.
End System.
