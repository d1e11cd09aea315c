(** Theorems: optimising circuits built from ordered decision diagrams (C27) and running them (C120). *)
From Verif Require Import Base Graph MuxGraph SpecMux SpecMuxOpt MuxGraphProofs4 MuxEval MuxOptProofs3 MuxOptProofs4 Props_Mux.
Open Scope nat_scope.

(** C27. For every non-empty list of well-formed ordered diagrams over the same variables, optimising the circuit built from them
    finishes; the result is well formed, has one input node per variable (listed in order) and one output node per diagram, output j
    carries the value of diagram j on every input assignment, and no two muxes have the same operands: every common subexpression has
    been merged. *)
Theorem optimize_bdds : forall nv ds, ds <> [] -> Forall (bdd_wf nv) ds -> Forall bdd_ordered ds ->
  exists g inputs g' inputs', from_bdds ds = Ok (g, inputs) /\ optimize g = Ok (g', inputs') /\ mux_wf g' /\ no_duplicates g' /\
    length inputs' = nv /\ (forall n x, node g' n = Some (MVar x) <-> nth_error inputs' x = Some n) /\
    (forall j d, nth_error ds j = Some d -> exists n, node g' n = Some (MOut j) /\
       (forall ins, length ins = nv -> value g' ins n (bdd_value d ins)) /\ forall n', node g' n' = Some (MOut j) -> n' = n) /\
    (forall n j, node g' n = Some (MOut j) -> j < length ds).
Proof.
  intros nv ds H W O. destruct (optimized_ok nv ds H W O) as (g & inputs & g' & inputs' & A1 & A2 & A3 & A4 & _ & _ & A5 & A6 & A7 & A8 & _).
  exists g, inputs, g', inputs'. repeat (split; [assumption|]). assumption.
Qed.
Print Assumptions optimize_bdds.

(** C120. Running the circuit built from ordered diagrams, before or after optimisation, on one bit per variable returns the values of
    the diagrams in the order in which they were given. *)
Theorem run_bdds : forall nv ds, ds <> [] -> Forall (bdd_wf nv) ds -> Forall bdd_ordered ds ->
  exists g inputs g' inputs', from_bdds ds = Ok (g, inputs) /\ optimize g = Ok (g', inputs') /\
    forall ins, length ins = nv -> test_mux_circuit g ins = Ok (map (fun d => bdd_value d ins) ds) /\ test_mux_circuit g' ins = Ok (map (fun d => bdd_value d ins) ds).
Proof.
  intros nv ds H W O. destruct (optimized_ok nv ds H W O) as (g & inputs & g' & inputs' & A1 & A2 & _ & _ & _ & _ & _ & _ & _ & _ & A).
  exists g, inputs, g', inputs'. repeat (split; [assumption|]). assumption.
Qed.
Print Assumptions run_bdds.

(** The hypotheses hold of the two-variable example of Props_Mux. *)
Example ex_ordered : Forall bdd_ordered [ex_xor; ex_and].
Proof.
  repeat (apply Forall_cons || apply Forall_nil); intros k v lo hi H Hk c v' lo' hi' Hc Hc2 H';
  do 6 (destruct k as [|k]; [cbn in H; first [discriminate | lia | injection H as <- <- <-;
    destruct Hc as [-> | ->]; first [lia | cbn in H'; injection H' as <- <- <-; lia]]|]); destruct k; discriminate.
Qed.
Example ex_run : exists g inputs g' inputs', from_bdds [ex_xor; ex_and] = Ok (g, inputs) /\ optimize g = Ok (g', inputs') /\
  test_mux_circuit g' [true; true] = Ok [false; true] /\ test_mux_circuit g' [true; false] = Ok [true; false].
Proof. vm_compute. eauto 12. Qed.
