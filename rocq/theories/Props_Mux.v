(** Properties C26 and C27: building mux circuits from decision diagrams, and optimising them. *)
From Verif Require Import Base Graph MuxGraph SpecMux MuxGraphProofs MuxGraphProofs2 MuxGraphProofs3 MuxGraphProofs4.
Open Scope nat_scope.

(** C26. A circuit built from decision diagrams is well formed, has one input node per variable (listed in order) and one
    output node per diagram, and output j carries, on every input assignment, the value of diagram j. *)
Theorem from_bdds_computes : forall nv ds, ds <> [] -> Forall (bdd_wf nv) ds ->
  exists g inputs, from_bdds ds = Ok (g, inputs) /\ mux_wf g /\
    length inputs = nv /\ (forall n x, node g n = Some (MVar x) <-> nth_error inputs x = Some n) /\
    (forall j d, nth_error ds j = Some d -> exists n, node g n = Some (MOut j) /\
       (forall ins, length ins = nv -> value g ins n (bdd_value d ins)) /\ forall n', node g n' = Some (MOut j) -> n' = n) /\
    (forall n j, node g n = Some (MOut j) -> j < length ds).
Proof. exact from_bdds_ok. Qed.
Print Assumptions from_bdds_computes.

(** The value relation is a function on well-formed circuits, so "carries the value" above is unambiguous. *)
Theorem circuit_value_unique : forall g ins n b b', mux_wf g -> value g ins n b -> value g ins n b' -> b = b'.
Proof. intros g ins n b b' W V V'. eapply value_fun; [exact (wf_once g W)|exact V|exact V']. Qed.
Print Assumptions circuit_value_unique.
Theorem circuit_value_exists : forall g ins, mux_wf g -> (forall n x, node g n = Some (MVar x) -> x < length ins) ->
  forall n, contains g n = true -> exists b, value g ins n b.
Proof. intros g ins W H n C. eapply value_total; eauto. Qed.
Print Assumptions circuit_value_exists.

(** A two-variable example: x0 xor x1, and x0 and x1. *)
Definition ex_xor : bdd := [(2, 0, 0); (2, 1, 1); (1, 0, 1); (1, 1, 0); (0, 2, 3)].
Definition ex_and : bdd := [(2, 0, 0); (2, 1, 1); (1, 0, 1); (0, 0, 2)].
Example ex_wf : Forall (bdd_wf 2) [ex_xor; ex_and].
Proof.
  repeat (apply Forall_cons || apply Forall_nil); (split; [discriminate|]);
  intros k v lo hi H; do 6 (destruct k as [|k]; [cbn in H; first [discriminate | injection H as <- <- <-; repeat split; lia]|]); destruct k; discriminate.
Qed.
Example ex_xor_values : map (bdd_value ex_xor) [[false; false]; [false; true]; [true; false]; [true; true]] = [false; true; true; false].
Proof. reflexivity. Qed.

(** C27 (partial). When optimisation finishes: every input, constant and output node keeps its label (under the renumbering
    [ren]) and exactly its values; every node of the new circuit carries the values of an old node; the circuit does not
    grow; edges still join existing nodes; and the recomputed input list is in order.
    Missing: that optimisation always finishes. It does not on every well-formed circuit, see below. *)
Theorem optimize_preserves_values_partial : forall g g' inputs, mux_wf g -> optimize g = Ok (g', inputs) ->
  (exists ren, (forall n w, node g n = Some w -> w <> MMux -> node g' (ren n) = Some w) /\
     (forall m w, node g' m = Some w -> exists n, node g n = Some w /\ m = ren n) /\
     (forall n n', contains g n = true -> contains g n' = true -> contains g' (ren n) = true -> ren n = ren n' -> node g n <> Some MMux -> node g n' <> Some MMux -> n = n') /\
     (forall m, contains g' m = true -> exists n, ren n = m /\ forall ins b, value g ins n b <-> value g' ins m b) /\
     (forall n w, node g n = Some w -> w <> MMux -> forall ins b, value g ins n b <-> value g' ins (ren n) b)) /\
  length (gnodes g') <= length (node_indices g) /\
  (forall s t l, In (s, t, l) (gedges g') -> contains g' s = true /\ contains g' t = true) /\
  (forall k, (forall x, x < k <-> exists n, node g n = Some (MVar x)) -> (forall n n' x, node g n = Some (MVar x) -> node g n' = Some (MVar x) -> n = n') ->
     length inputs = k /\ forall x n, nth_error inputs x = Some n <-> node g' n = Some (MVar x)).
Proof. intros g g' inputs W H. apply optimize_ok; auto. exact (wf_ends g W). Qed.
Print Assumptions optimize_preserves_values_partial.

(** The optimiser does merge the two equal sub-diagrams (x1 ? 1 : 0) of the example: 11 nodes become 10. *)
Example ex_optimize : exists g inputs g' inputs', from_bdds [ex_xor; ex_and] = Ok (g, inputs) /\ optimize g = Ok (g', inputs') /\
  length (gnodes g) = 11 /\ length (gnodes g') = 10.
Proof. vm_compute. eauto 10. Qed.

(** C27, the missing part is false in general: a well-formed circuit with two copies of mux(y, y, x) feeding one mux makes the
    optimiser give that mux four inputs, and the assertion on the number of operands then fails. *)
Definition ex_dup : mgraph :=
  {| gnodes := [Some (MVar 0); Some (MVar 1); Some MMux; Some MMux; Some MMux; Some (MOut 0)];
     gedges := [(4, 5, OutEdge); (3, 4, High); (2, 4, Low); (1, 4, Select);
                (0, 3, High); (1, 3, Low); (1, 3, Select); (0, 2, High); (1, 2, Low); (1, 2, Select)] |}.
Lemma ex_dup_wf : mux_wf ex_dup.
Proof.
  constructor.
  - intros s t l H. cbn in H. repeat (destruct H as [H|H]; [injection H as <- <- <-; split; reflexivity|]). destruct H.
  - cbn. repeat constructor; cbn; intuition congruence.
  - intros n Hn l. assert (n = 2 \/ n = 3 \/ n = 4) as Hc.
    { do 6 (destruct n as [|n]; [cbn in Hn; first [discriminate|auto]|]). destruct n; discriminate. }
    destruct Hc as [-> |[-> | ->]]; cbn; split; intros Hx;
      [destruct Hx as [s Hs]; intuition congruence|destruct l; [exists 1|exists 0|exists 1|congruence]; intuition congruence
      |destruct Hx as [s Hs]; intuition congruence|destruct l; [exists 1|exists 0|exists 1|congruence]; intuition congruence
      |destruct Hx as [s Hs]; intuition congruence|destruct l; [exists 2|exists 3|exists 1|congruence]; intuition congruence].
  - intros n i Hn l. assert (n = 5) as ->.
    { do 6 (destruct n as [|n]; [cbn in Hn; first [discriminate|auto]|]). destruct n; discriminate. }
    cbn. split; [intros [s Hs]; intuition congruence|]. intros ->. exists 4. auto.
  - intros n w Hn H1 H2 s l Hs. assert (n = 0 \/ n = 1) as Hc.
    { do 6 (destruct n as [|n]; [cbn in Hn; first [solve [auto]|injection Hn as <-; exfalso; first [now apply H1 | now apply (H2 0)]]|]). destruct n; discriminate. }
    cbn in Hs. destruct Hc as [-> | ->]; intuition congruence.
  - exists (fun n => n). intros s t l H. cbn in H. repeat (destruct H as [H|H]; [injection H as <- <- <-; lia|]). destruct H.
Qed.
Theorem optimize_always_finishes_refuted : mux_wf ex_dup /\ optimize ex_dup = Panic.
Proof. split; [exact ex_dup_wf|]. vm_compute. reflexivity. Qed.
Print Assumptions optimize_always_finishes_refuted.
