(** Specification vocabulary for optimised mux circuits (not a model of code). *)
From Verif Require Import Base Graph MuxGraph SpecMux.
Open Scope nat_scope.

(** An ordered diagram: the variables along every path increase. Nodes 0 and 1 are the terminals. *)
Definition bdd_ordered (d : bdd) : Prop := forall k v lo hi, nth_error d k = Some (v, lo, hi) -> 2 <= k ->
  forall c v' lo' hi', c = lo \/ c = hi -> 2 <= c -> nth_error d c = Some (v', lo', hi') -> v < v'.

(** No two muxes of the circuit have the same select, low and high inputs. *)
Definition no_duplicates (g : mgraph) : Prop := forall m m' s l h, node g m = Some MMux -> node g m' = Some MMux ->
  In (s, m, Select) (gedges g) -> In (l, m, Low) (gedges g) -> In (h, m, High) (gedges g) ->
  In (s, m', Select) (gedges g) -> In (l, m', Low) (gedges g) -> In (h, m', High) (gedges g) -> m = m'.
