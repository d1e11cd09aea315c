(** Specification vocabulary for mux circuits (not a model of code). *)
From Verif Require Import Base Graph MuxGraph.

(** [value g ins n b]: with inputs [ins] the node n of circuit g carries the bit b. This is the meaning the documentation of
    MuxOp gives to each node (mux_circuits/src/lib.rs:56-94). *)
Inductive value (g : mgraph) (ins : list bool) : nat -> bool -> Prop :=
| value_var : forall n x b, node g n = Some (MVar x) -> nth_error ins x = Some b -> value g ins n b
| value_zero : forall n, node g n = Some MZero -> value g ins n false
| value_one : forall n, node g n = Some MOne -> value g ins n true
| value_mux : forall n s l h bs bl bh, node g n = Some MMux ->
    In (s, n, Select) (gedges g) -> In (l, n, Low) (gedges g) -> In (h, n, High) (gedges g) ->
    value g ins s bs -> value g ins l bl -> value g ins h bh -> value g ins n (if bs then bh else bl)
| value_out : forall n i m b, node g n = Some (MOut i) -> In (m, n, OutEdge) (gedges g) ->
    value g ins m b -> value g ins n b.

(** A well-formed circuit, as documented: edges join existing nodes, every Mux has exactly one low, high and select input, every
    Output exactly one input, constants and variables none, and there are no cycles. *)
Record mux_wf (g : mgraph) : Prop := {
  wf_ends : forall s t l, In (s, t, l) (gedges g) -> contains g s = true /\ contains g t = true;
  wf_once : NoDup (map (fun e => (snd (fst e), snd e)) (gedges g));
  wf_mux : forall n, node g n = Some MMux -> forall l, (exists s, In (s, n, l) (gedges g)) <-> l <> OutEdge;
  wf_out : forall n i, node g n = Some (MOut i) -> forall l, (exists s, In (s, n, l) (gedges g)) <-> l = OutEdge;
  wf_source : forall n w, node g n = Some w -> w <> MMux -> (forall i, w <> MOut i) -> forall s l, ~ In (s, n, l) (gedges g);
  wf_acyclic : exists rank : nat -> nat, forall s t l, In (s, t, l) (gedges g) -> (rank s < rank t)%nat
}.

(** The value of decision-diagram node k: node 0 is false, node 1 is true, any other node tests its variable and goes to
    its high or low link. Links go to smaller numbers, so [fuel = k] steps are enough. *)
Fixpoint bdd_node (fuel : nat) (d : bdd) (ins : list bool) (k : nat) : bool :=
  match k with
  | O => false
  | S O => true
  | _ =>
      match fuel, nth_error d k with
      | S fuel, Some (v, lo, hi) => if nth v ins false then bdd_node fuel d ins hi else bdd_node fuel d ins lo
      | _, _ => false
      end
  end.
(** The function a diagram represents: the value of its last node, the root. *)
Definition bdd_value (d : bdd) (ins : list bool) : bool := bdd_node (length d) d ins (length d - 1).

(** A well-formed diagram over nv variables. *)
Definition bdd_wf (nv : nat) (d : bdd) : Prop :=
  d <> [] /\
  forall k v lo hi, nth_error d k = Some (v, lo, hi) ->
    match k with
    | O => v = nv /\ lo = O /\ hi = O
    | S O => v = nv /\ lo = 1%nat /\ hi = 1%nat
    | _ => (v < nv)%nat /\ (lo < k)%nat /\ (hi < k)%nat /\ lo <> hi
    end.
