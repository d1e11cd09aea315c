(** Specification vocabulary for the fluent API (not a model of code). *)
From Verif Require Import Base Graph MuxGraph SpecMux Circuits FheGraph SpecFhe FluentInt Fluent.
Open Scope nat_scope.

(** The ciphertext of type t that encrypts the bit b (for GLWE: the constant polynomial b). *)
Definition enc_bit (deg : nat) (t : cty) (b : bool) : ct :=
  match t with TLwe0 => CLwe0 b | TLwe1 => CLwe1 b | TGlwe1 => CGlwe1 (pconst deg b) | TGgsw1 => CGgsw1 b | TGlev1 => CGlev1 b end.

(** The handles ns are nodes of circuit g that hold the bits bs as ciphertexts of type t. *)
Definition holds (deg : nat) (cells : cty -> nat -> ct) (g : fgraph) (t : cty) (ns : list nat) (bs : list bool) : Prop :=
  Forall2 (fun n b => carries deg cells g n (enc_bit deg t b)) ns bs.

(** n is a handle of type t: a node of the circuit, and for GGSW (the only type that may drive a mux) one whose operation makes a
    GGSW ciphertext. *)
Definition handle (g : fgraph) (t : cty) (n : nat) : Prop :=
  match t with TGgsw1 => exists op, node g n = Some op /\ ggsw_source op = true | _ => contains g n = true end.
Definition handles (g : fgraph) (t : cty) (ns : list nat) : Prop := Forall (handle g t) ns.

(** A mux graph that computes the circuit c: well formed, of the decision-diagram shape, one input per variable of c and on
    inputs v its output node o has bit o of c's result. *)
Record compiled (c : circuit) (mc : mgraph) (inputs : list nat) : Prop := {
  cp_wf : mux_wf mc;
  cp_arity : length inputs = c_arity c;
  cp_outs : exists k, diagram_shaped mc inputs k /\
    forall v, length v = c_arity c -> length (c_fn c v) = k /\ forall n o, node mc n = Some (MOut o) -> value mc v n (nth o (c_fn c v) false)
}.
(** The library of mux circuits: it has a graph for every circuit the builders accept. *)
Definition lib_ok (lib : blk -> res (mgraph * list nat)) : Prop :=
  forall b, match builder b with
            | Ok c => exists mc inputs, lib b = Ok (mc, inputs) /\ compiled c mc inputs
            | _ => lib b = Panic
            end.

(** The constants cached by a context are the constants. *)
Definition cache_ok (g : fgraph) (mk : cty -> fop) (cache : list (option nat)) : Prop :=
  forall t n, nth_error cache (tnum t) = Some (Some n) -> t <> TLwe1 /\ node g n = Some (mk t) /\ in_edges g n = [].
Definition ctx_ok (c : ctx) : Prop :=
  edges_ok (cg c) /\ length (zeros c) = 4 /\ length (ones c) = 4 /\ cache_ok (cg c) FZero (zeros c) /\ cache_ok (cg c) FOne (ones c).

(** The calls of the API other than multiplication. *)
Definition not_mul (k : call) : bool := match k with KMul _ _ _ _ _ => false | _ => true end.
