(** Specification vocabulary for FHE circuits (not a model of code). *)
From Verif Require Import Base Graph MuxGraph FheGraph.
Open Scope nat_scope.

(** [fvalue deg cells g n o]: executing the operations of circuit g in any order that respects the edges, node n ends with
    outcome o. Every predecessor has an outcome and the operation, given its labelled inputs, succeeds with o. *)
Inductive fvalue (deg : nat) (cells : cty -> nat -> ct) (g : fgraph) : nat -> outcome -> Prop :=
| fv_node : forall n op ins o, node g n = Some op -> finputs deg cells g (in_edges g n) ins ->
    exec_op deg cells op ins = Ok o -> fvalue deg cells g n o
with finputs (deg : nat) (cells : cty -> nat -> ct) (g : fgraph) : list (nat * nat * fedge) -> tinputs -> Prop :=
| fi_nil : finputs deg cells g [] []
| fi_cons : forall s t l es c w ins, fvalue deg cells g s (c, w) -> finputs deg cells g es ins ->
    finputs deg cells g ((s, t, l) :: es) ((l, c) :: ins).

(** Node n carries ciphertext c. *)
Definition carries deg cells g n c := fvalue deg cells g n (Some c, None).

(** The bit a ciphertext encrypts: for a GLWE ciphertext, its constant coefficient. *)
Definition bit_of (c : ct) : bool :=
  match c with CLwe0 b | CLwe1 b | CGgsw1 b | CGlev1 b => b | CGlwe1 p => nth 0 p false end.

(** A ciphertext of the mux mode's kind encrypting the constant b. *)
Definition const_of (deg : nat) (m : mux_mode) (b : bool) : ct :=
  match m with MGlwe => CGlwe1 (pconst deg b) | MGlev => CGlev1 b end.

(** Shared ciphertexts have the type of their cell. *)
Definition cells_typed (cells : cty -> nat -> ct) : Prop := forall t r, ty_of (cells t r) = t.

(** Edges join existing nodes. *)
Definition edges_ok {N E} (g : graph N E) : Prop := forall s t l, In (s, t, l) (gedges g) -> contains g s = true /\ contains g t = true.

(** n is one of [roots] or feeds, directly or not, one of them. *)
Inductive ancestor {N E} (g : graph N E) (roots : list nat) : nat -> Prop :=
| anc_root : forall n, In n roots -> ancestor g roots n
| anc_step : forall s t l, In (s, t, l) (gedges g) -> ancestor g roots t -> ancestor g roots s.

(** [g'] extends [g]: existing nodes keep their operation, their inputs and hence their values. *)
Definition grows (g g' : fgraph) : Prop :=
  edges_ok g' /\ forall n, contains g n = true -> contains g' n = true /\ node g' n = node g n /\ in_edges g' n = in_edges g n /\
    forall deg cells o, fvalue deg cells g n o <-> fvalue deg cells g' n o.

(** Mux circuits of the shape that decision diagrams give: variables (listed in [inputs] in order) drive exactly the select
    inputs, output nodes drive nothing, and the outputs are numbered 0 .. k-1, each number once. *)
Record diagram_shaped (mc : mgraph) (inputs : list nat) (k : nat) : Prop := {
  ds_inputs : forall n x, node mc n = Some (MVar x) <-> nth_error inputs x = Some n;
  ds_edges : forall s t l, In (s, t, l) (gedges mc) ->
    match node mc s with Some (MVar _) => l = Select | Some (MOut _) => False | _ => l <> Select end;
  ds_outs : forall o, o < k <-> exists n, node mc n = Some (MOut o);
  ds_out_once : forall n n' o, node mc n = Some (MOut o) -> node mc n' = Some (MOut o) -> n = n'
}.

(** An edge with its endpoints renamed, and the renaming a table gives. *)
Definition emap (f : nat -> nat) (e : nat * nat * fedge) : nat * nat * fedge := (f (fst (fst e)), f (snd (fst e)), snd e).
Definition fren (ren : list (nat * nat)) (n : nat) : nat := match alookup ren n with Some m => m | None => 0 end.
