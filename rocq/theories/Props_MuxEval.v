(** Theorems about the graph traversal and about running mux circuits on plain bits. *)
From Coq Require Import Permutation.
From Verif Require Import Base Alu AluProofs Graph MuxGraph SpecMux MuxGraphProofs MuxGraphProofs2 MuxGraphProofs4 MuxEval MuxEvalProofs Props_Mux.
Open Scope nat_scope.

(** * C120 *)

(** [forward_traverse] runs the callback on every node of an acyclic graph exactly once, each node after all its predecessors, in an
    order that does not depend on the callback; the first failing callback ends it. *)
Theorem forward_traverse_topological : forall N E (g : graph N E),
  (forall s t l, In (s, t, l) (gedges g) -> contains g s = true /\ contains g t = true) ->
  (exists rank : nat -> nat, forall s t l, In (s, t, l) (gedges g) -> rank s < rank t) ->
  exists order, Permutation order (node_indices g) /\
    (forall s t l, In (s, t, l) (gedges g) -> forall pre post, order = pre ++ t :: post -> In s pre) /\
    forall St (cb : St -> nat -> res St) s, forward_traverse g cb s = foldM cb order s.
Proof.
  intros N E g He Ha. destruct (traverse_order g He Ha) as (order & ND & Hi & Ht & Hf). exists order. split; [|split; [|exact Hf]].
  - apply NoDup_Permutation; [exact ND|unfold node_indices; apply NoDup_filter, seq_NoDup|]. intros i. now rewrite Hi, node_indices_spec.
  - intros s t l H pre post E1. apply (Ht pre t post E1). unfold preds. apply in_map_iff. exists (s, t, l). split; [reflexivity|]. apply in_edges_spec. split; [exact H|reflexivity].
Qed.
Print Assumptions forward_traverse_topological.

(** The output nodes of a circuit in index order. *)
Definition output_nodes (g : mgraph) : list nat := filter (fun n => match node g n with Some (MOut _) => true | _ => false end) (node_indices g).
Lemma output_nodes_map g : output_nodes g = map fst (outputs_of g).
Proof.
  rewrite outputs_sorted. unfold output_nodes. induction (node_indices g) as [|n l IH]; [reflexivity|]. cbn [filter flat_map]. rewrite map_app, <- IH. destruct (node g n) as [[| | | |i]|]; reflexivity.
Qed.

(** Running a well-formed circuit without holes on the right number of bits gives the value of every output node, in the order of the
    nodes. *)
Theorem test_mux_circuit_values_partial : forall g ins, mux_wf g -> (forall n, n < length (gnodes g) -> contains g n = true) ->
  length (filter (fun n => is_var (node g n)) (node_indices g)) = length ins -> (forall n x, node g n = Some (MVar x) -> x < length ins) ->
  exists outs, test_mux_circuit g ins = Ok outs /\ Forall2 (value g ins) (output_nodes g) outs.
Proof.
  intros g ins W Hf Hc Hv. destruct (eval_all g ins W Hv Hf) as (data & E & K). unfold test_mux_circuit. rewrite Hc, Nat.eqb_refl, E. cbn [bind].
  exists (map (fun n => nth n data false) (output_nodes g)). assert (O : forall n, In n (output_nodes g) -> contains g n = true) by (intros n Hn; apply filter_In in Hn as [Hn _]; now apply node_indices_spec). split.
  - rewrite output_nodes_map, map_map. apply mapM_ok. intros p Hp. destruct (K (fst p)) as (b & Nb & _); [apply O; rewrite output_nodes_map; now apply in_map|].
    unfold get. rewrite Nb. f_equal. symmetry. now apply nth_error_nth.
  - induction (output_nodes g) as [|n l IH]; [constructor|]. cbn [map]. constructor; [|apply IH; intros m Hm; apply O; now right].
    destruct (K n (O n ltac:(now left))) as (b & Nb & V). rewrite (nth_error_nth _ _ _ Nb). exact V.
Qed.
Print Assumptions test_mux_circuit_values_partial.
(** A wrong number of inputs is refused. *)
Theorem test_mux_circuit_refuses : forall g ins, length (filter (fun n => is_var (node g n)) (node_indices g)) <> length ins -> test_mux_circuit g ins = Panic.
Proof. intros g ins H. unfold test_mux_circuit. destruct (Nat.eqb_spec (length ins) (length (filter (fun n => is_var (node g n)) (node_indices g)))); [congruence|reflexivity]. Qed.
Print Assumptions test_mux_circuit_refuses.

(** The results are ordered by node, not by output number: a well-formed circuit whose outputs were added in the other order returns
    output 1 first. *)
Definition ex_swapped : mgraph := {| gnodes := [Some MZero; Some MOne; Some (MOut 1); Some (MOut 0)]; gedges := [(1, 3, OutEdge); (0, 2, OutEdge)] |}.
Lemma ex_swapped_wf : mux_wf ex_swapped.
Proof.
  constructor.
  - intros s t l H. cbn in H. repeat (destruct H as [H|H]; [injection H as <- <- <-; split; reflexivity|]). destruct H.
  - cbn. repeat constructor; cbn; intuition congruence.
  - intros n Hn. do 4 (destruct n as [|n]; [discriminate|]). destruct n; discriminate.
  - intros n i Hn l. do 4 (destruct n as [|n]; [first [discriminate|cbn; split; [intros [s Hs]; intuition congruence|intros ->; eexists; eauto]]|]). destruct n; discriminate.
  - intros n w Hn H1 H2 s l Hs. do 4 (destruct n as [|n]; [cbn in Hn, Hs; first [intuition congruence|injection Hn as <-; eapply H2; reflexivity]|]). destruct n; discriminate.
  - exists (fun n => n). intros s t l H. cbn in H. repeat (destruct H as [H|H]; [injection H as <- <- <-; lia|]). destruct H.
Qed.
Theorem test_mux_circuit_numbering_refuted : mux_wf ex_swapped /\ test_mux_circuit ex_swapped [] = Ok [false; true] /\ exists n, node ex_swapped n = Some (MOut 0) /\ value ex_swapped [] n true.
Proof.
  split; [exact ex_swapped_wf|]. split; [reflexivity|]. exists 3. split; [reflexivity|]. eapply (value_out _ _ 3 0 1); [reflexivity|cbn; auto|]. now apply value_one.
Qed.
Print Assumptions test_mux_circuit_numbering_refuted.
(** A graph with a removed node (an uncompacted circuit) makes it abort. *)
Definition ex_hole : mgraph := remove_node {| gnodes := [Some MZero; Some MOne; Some (MOut 0)]; gedges := [(1, 2, OutEdge)] |} 0.
Theorem test_mux_circuit_holes_refuted : mux_wf ex_hole /\ test_mux_circuit ex_hole [] = Panic.
Proof.
  split; [|reflexivity]. constructor.
  - intros s t l H. cbn in H. repeat (destruct H as [H|H]; [injection H as <- <- <-; split; reflexivity|]). destruct H.
  - cbn. repeat constructor; cbn; intuition congruence.
  - intros n Hn. do 3 (destruct n as [|n]; [discriminate|]). destruct n; discriminate.
  - intros n i Hn l. do 3 (destruct n as [|n]; [first [discriminate|cbn; split; [intros [s Hs]; intuition congruence|intros ->; eexists; eauto]]|]). destruct n; discriminate.
  - intros n w Hn H1 H2 s l Hs. do 3 (destruct n as [|n]; [cbn in Hn, Hs; first [intuition congruence|injection Hn as <-; eapply H2; reflexivity]|]). destruct n; discriminate.
  - exists (fun n => n). intros s t l H. cbn in H. repeat (destruct H as [H|H]; [injection H as <- <- <-; lia|]). destruct H.
Qed.
Print Assumptions test_mux_circuit_holes_refuted.
