(** Properties C28, C29, C30, C68 and C74: FHE circuits. *)
From Coq Require Import Permutation.
From Verif Require Import Base Graph MuxGraph SpecMux FheGraph SpecFhe MuxGraphProofs2 FheProofs FheProofs2 FheProofs3 FheProofs4 FheProofs5 FheProofs6 Props_Mux.
Open Scope nat_scope.

(** The outcome of a node is unique: whatever order the operations run in, a node has at most one result. *)
Theorem circuit_outcome_unique : forall deg cells g n o o', fvalue deg cells g n o -> fvalue deg cells g n o' -> o' = o.
Proof. intros deg cells g n o o' H H'. exact (proj1 (fvalue_fun deg cells g) n o H o' H'). Qed.
Print Assumptions circuit_outcome_unique.

(** C28. Inserting a circuit of the diagram shape succeeds, changes no existing node, and returns one node per output; when the
    host nodes carry GGSW encryptions of the input bits, returned node o carries an encryption of the circuit's output o. *)
Theorem insert_mux_computes : forall h mc inputs hosts mode k, edges_ok h -> mux_wf mc -> diagram_shaped mc inputs k -> length hosts = length inputs ->
  (forall x, In x hosts -> exists op, node h x = Some op /\ ggsw_source op = true) ->
  exists h' outs, insert_mux h mc inputs hosts mode = Ok (h', outs) /\ grows h h' /\ length outs = k /\
    forall n o, node mc n = Some (MOut o) -> exists m, nth_error outs o = Some m /\
      forall deg cells ins b, (forall x b, nth_error ins x = Some b -> exists q, nth_error hosts x = Some q /\ carries deg cells h q (CGgsw1 b)) ->
        value mc ins n b -> carries deg cells h' m (const_of deg mode b).
Proof. exact insert_mux_ok. Qed.
Print Assumptions insert_mux_computes.

(** Circuits built from decision diagrams have that shape. *)
Theorem diagram_circuits_insertable : forall nv ds g inputs, ds <> [] -> Forall (bdd_wf nv) ds -> from_bdds ds = Ok (g, inputs) ->
  diagram_shaped g inputs (length ds).
Proof. exact from_bdds_shaped. Qed.
Print Assumptions diagram_circuits_insertable.

(** End to end: decision diagrams evaluated on encrypted inputs write, for diagram j, an encryption of its value. *)
Theorem diagrams_on_ciphertexts : forall nv ds h refs base, ds <> [] -> Forall (bdd_wf nv) ds -> edges_ok h -> length refs = nv ->
  exists mc inputs h' outs, from_bdds ds = Ok (mc, inputs) /\ insert_and_connect h mc inputs refs base = Ok (h', outs) /\ grows h h' /\ length outs = length ds /\
    forall j d, nth_error ds j = Some d -> exists m, nth_error outs j = Some m /\
      forall deg cells, 0 < deg -> cells_typed cells ->
        fvalue deg cells h' m (None, Some (TGlwe1, base + j, CGlwe1 (pconst deg (bdd_value d (map (fun r => bit_of (cells TGlwe1 r)) refs))))).
Proof.
  intros nv ds h refs base NE F EN L. destruct (from_bdds_ok nv ds NE F) as (mc & inputs & E & W & LI & I & O & B).
  destruct (insert_and_connect_ok h mc inputs refs base (length ds) EN W (from_bdds_shaped nv ds mc inputs NE F E)) as (h' & outs & E' & G & LO & V); [congruence|].
  exists mc, inputs, h', outs. split; [exact E|]. split; [exact E'|]. split; [exact G|]. split; [exact LO|].
  intros j d Hd. destruct (O j d Hd) as (n & Hn & Vn & _). destruct (V n j Hn) as (m & Hm & Vm). exists m. split; [exact Hm|].
  intros deg cells D T. apply Vm; auto. apply Vn. rewrite map_length. congruence.
Qed.
Print Assumptions diagrams_on_ciphertexts.
Example ex_diagrams_on_ciphertexts : Forall (bdd_wf 2) [ex_xor; ex_and] /\ edges_ok (gempty : fgraph) /\ length [7; 8] = 2.
Proof. split; [exact ex_wf|]. split; [intros s t l []|reflexivity]. Qed.

(** C28, outside that shape: a circuit whose output is just its input variable aborts on insertion. *)
Definition ex_wire : mgraph := {| gnodes := [Some (MVar 0); Some (MOut 0)]; gedges := [(0, 1, OutEdge)] |}.
Definition ex_host : fgraph := {| gnodes := [Some (FInput TGgsw1 0)]; gedges := [] |}.
Theorem insert_mux_any_circuit_refuted : mux_wf ex_wire /\ insert_mux ex_host ex_wire [0] [0] MGlwe = Panic.
Proof.
  split; [|reflexivity]. constructor.
  - intros s t l [H|[]]. injection H as <- <- <-. auto.
  - repeat constructor. cbn. tauto.
  - intros [|[|n]] H; [discriminate|discriminate|destruct n; discriminate].
  - intros [|[|n]] i H l; [discriminate| |destruct n; discriminate]. split; [intros [s [E|[]]]; congruence|intros ->; exists 0; now left].
  - intros n w H H1 H2 s l [E|[]]. injection E as <- <- <-. cbn in H. injection H as <-. now apply (H2 0).
  - exists (fun n => n). intros s t l [H|[]]. injection H as <- <- <-. lia.
Qed.
Print Assumptions insert_mux_any_circuit_refuted.

(** C29. Pruning (for any iteration order of its hash map) succeeds; the nodes kept are exactly the ancestors of the requested
    ones, each once; the renaming is injective; every kept node keeps its operation and its labelled inputs; and values are
    unchanged. *)
Theorem prune_keeps_ancestors : forall (g : fgraph) roots order, edges_ok g -> (forall r, In r roots -> contains g r = true) -> (forall l, Permutation l (order l)) ->
  exists out ren, prune order g roots = Ok (out, ren) /\ edges_ok out /\
    (forall n, (exists m, alookup ren n = Some m) <-> ancestor g roots n) /\
    (forall m, contains out m = true <-> exists n, alookup ren n = Some m) /\
    (forall n n' m, alookup ren n = Some m -> alookup ren n' = Some m -> n = n') /\
    (forall n m, alookup ren n = Some m -> node out m = node g n /\ Permutation (in_edges out m) (map (emap (fren ren)) (in_edges g n))).
Proof. intros g roots order EN RC HO. exact (prune_ok g roots EN RC order HO). Qed.
Print Assumptions prune_keeps_ancestors.
Theorem prune_preserves_values : forall (g : fgraph) roots order out ren, edges_ok g -> (forall r, In r roots -> contains g r = true) -> (forall l, Permutation l (order l)) ->
  prune order g roots = Ok (out, ren) ->
  forall n m, alookup ren n = Some m -> forall deg cells o, fvalue deg cells g n o <-> fvalue deg cells out m o.
Proof. intros g roots order out ren EN RC HO E. exact (prune_values g roots EN RC order out ren HO E). Qed.
Print Assumptions prune_preserves_values.
(** Node 1 is not needed for node 3 and is dropped. *)
Definition ex_prune : fgraph :=
  {| gnodes := [Some (FZero TGlwe1); Some (FOne TGlwe1); Some FNot; Some (FMulXN 3)]; gedges := [(2, 3, EUnary); (0, 2, EUnary)] |}.
Example ex_prune_ok : edges_ok ex_prune /\ (forall r, In r [3] -> contains ex_prune r = true) /\
  exists out ren, prune (fun l => rev l) ex_prune [3] = Ok (out, ren) /\ length (gnodes out) = 3 /\ alookup ren 3 = Some 0 /\ alookup ren 1 = None.
Proof.
  split; [intros s t l [H|[H|[]]]; injection H as <- <- <-; auto|]. split; [intros r [<-|[]]; auto|].
  eexists _, _. split; [vm_compute; reflexivity|]. auto.
Qed.

(** C30. Conversion between any two of the five ciphertext types succeeds, changes no existing node, and the returned node
    carries a ciphertext of the requested type encrypting the same bit. *)
Theorem conversion_preserves_bit : forall g cur t out, edges_ok g -> contains g cur = true ->
  exists g' n, convert g cur t out = Ok (g', n) /\ grows g g' /\ contains g' n = true /\
    forall deg cells, 0 < deg -> forall c, ty_of c = t -> carries deg cells g cur c ->
      exists c', ty_of c' = out /\ bit_of c' = bit_of c /\ carries deg cells g' n c'.
Proof. exact convert_ok. Qed.
Print Assumptions conversion_preserves_bit.
Example ex_convert : edges_ok ex_host /\ contains ex_host 0 = true /\ (exists c, ty_of c = TGgsw1 /\ carries 8 (fun _ _ => CGgsw1 true) ex_host 0 c) /\
  exists g n, convert ex_host 0 TGgsw1 TLwe0 = Ok (g, n) /\ n = 4.
Proof.
  split; [intros s t l []|]. split; [auto|]. split; [|vm_compute; eauto]. exists (CGgsw1 true). split; [auto|].
  eapply fv_node; [reflexivity|constructor|reflexivity].
Qed.

(** C68. Executing any operation of the circuit language on any inputs gives a result or an error: no malformed circuit (wrong
    number, labels or types of inputs, missing values, out-of-range sample index) can abort an operation. *)
Theorem malformed_operation_is_an_error : forall deg cells op ins, op <> FZero TLwe1 -> op <> FOne TLwe1 -> exec_op deg cells op ins <> Panic.
Proof. intros deg cells op ins H1 H2. apply exec_no_panic. split; auto. Qed.
Print Assumptions malformed_operation_is_an_error.
(** The order in which the inputs of an operation are listed does not matter. *)
Theorem input_order_irrelevant : forall deg cells op ins ins' o, Permutation ins ins' -> exec_op deg cells op ins = Ok o -> exec_op deg cells op ins' = Ok o.
Proof. exact exec_perm. Qed.
Print Assumptions input_order_irrelevant.
Example ex_exec : exec_op 4 (fun _ _ => CLwe0 true) FCMux [(EHigh, Some (CGlwe1 [true; false; true; true])); (ESel, Some (CGgsw1 true)); (ELow, Some (CGlwe1 [false; false; false; false]))]
  = Ok (Some (CGlwe1 [true; false; true; true]), None) /\ exec_op 4 (fun _ _ => CLwe0 true) FCMux [] = Err EIllegalOperands.
Proof. split; reflexivity. Qed.

(** C74. Multiplying a packed ciphertext by X^n moves coefficient i to (i + n) mod N, for every n, also n >= N (the bit stays the
    same: signs vanish modulo 2). *)
Theorem mulxn_moves_coefficients : forall deg cells n p, exists q, exec_op deg cells (FMulXN n) [(EUnary, Some (CGlwe1 p))] = Ok (Some (CGlwe1 q), None) /\
  length q = length p /\ forall i, i < length p -> nth ((i + n) mod (length p)) q false = nth i p false.
Proof.
  intros deg cells n p. destruct (mulxn_ok deg cells n p) as [c H]. destruct (mulxn_spec deg cells n p c H) as (q & -> & L & N). exists q. auto.
Qed.
Print Assumptions mulxn_moves_coefficients.
(** Not flips the constant coefficient only: on a packed ciphertext it is not the bitwise complement. *)
Theorem not_flips_constant_coefficient : forall deg cells p, length p = deg -> 0 < deg ->
  exists q, exec_op deg cells FNot [(EUnary, Some (CGlwe1 p))] = Ok (Some (CGlwe1 q), None) /\ length q = deg /\
    nth 0 q false = negb (nth 0 p false) /\ forall i, 0 < i -> nth i q false = nth i p false.
Proof. exact not_spec. Qed.
Print Assumptions not_flips_constant_coefficient.
Example ex_mulxn : exec_op 4 (fun _ _ => CLwe0 true) (FMulXN 6) [(EUnary, Some (CGlwe1 [true; false; true; true]))] = Ok (Some (CGlwe1 [true; true; true; false]), None) /\
  exec_op 4 (fun _ _ => CLwe0 true) FNot [(EUnary, Some (CGlwe1 [true; false; true; true]))] = Ok (Some (CGlwe1 [false; false; true; true]), None).
Proof. split; reflexivity. Qed.
