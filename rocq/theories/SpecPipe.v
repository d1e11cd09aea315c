(** Specification vocabulary for whole encrypted programs (not a model of code). *)
From Verif Require Import Base Graph MuxGraph SpecMux SpecMuxOpt Circuits.
Open Scope nat_scope.

(** The muxes of the circuit can be numbered from 1 to D so that numbers increase along the data (low and high) inputs: no chain of
    muxes feeding one another is longer than D. *)
Definition depth_at_most (g : mgraph) (D : nat) : Prop :=
  exists rank : nat -> nat, (forall n, node g n = Some MMux -> 1 <= rank n <= D) /\
    forall s t l, In (s, t, l) (gedges g) -> l = Low \/ l = High -> node g s = Some MMux -> node g t = Some MMux -> rank s < rank t.

(** The diagrams ds, over the variables of circuit c, give its outputs. *)
Definition diagrams_of (c : circuit) (ds : list bdd) : Prop :=
  ds <> [] /\ Forall (bdd_wf (c_arity c)) ds /\ Forall bdd_ordered ds /\
  forall v, length v = c_arity c -> map (fun d => bdd_value d v) ds = c_fn c v.
