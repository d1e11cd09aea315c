(** Encrypted multiplication on TFHE ciphertexts (parasol_cpu/src/proc/ops/mul.rs on top of parasol_runtime/src/circuits/mul.rs), and programs with it.

    Simplifications: as in Pipe2.v. The mux circuits that multiplication inserts come from a library [lib]: the code deserialises some multipliers from data
    files (mux_circuits/src/mul.rs:62-69), which are not modelled, and makes the other circuits when they are asked for. A plaintext operand
    (ops/mul.rs:119-140), which is encrypted trivially first, is not in these programs. *)
From Verif Require Import Base Alu Circuits Graph MuxGraph SpecMux FheGraph Tfhe TfheGlwe Eval EvalFft SpecEval SpecEvalFft SpecPipe Pipe Pipe2.
From Verif Require Fluent.
From Coq Require Import Permutation.
Open Scope nat_scope.

Definition mux_library := Fluent.blk -> res (mgraph * list nat).
(** ops/mul.rs:78-113: both operands in GGSW form (ops/mod.rs:38-120), the product (circuits/mul.rs:75-86), an output for each bit of its low word, and the
    rest pruned away (fhe_circuit.rs:512-556); the result is the pruned circuit and its output nodes. *)
Definition mul_graph (lib : mux_library) (order : list (nat * nat) -> list (nat * nat)) (ha hb : list nat) (base : nat) : res (fgraph * list nat) :=
  ' (g, a) <- foldM connect_glwe ha (gempty, []) ;;
  ' (g, b) <- foldM connect_glwe hb (g, []) ;;
  if negb (length a =? length b) then Panic
  else
    ' (g, p) <- Fluent.gappend_uint lib MGlwe a b g ;;
    ' (g, outs) <- foldM emit_output (combine (fst p) (seq base (length (fst p)))) (g, []) ;;
    ' (g, ren) <- prune order g outs ;;
    ns <- foldM (fun acc x => match alookup ren x with Some y => Ok (acc ++ [y]) | None => Panic end) outs [] ;; Ok (g, ns).

Inductive yinstr := YX (i : xinstr) | YMul (dst a b : nat).
Inductive ystep (X : ext) (m : mad_kernel) (pc : rproc) (lib : mux_library) (st : pstate) : yinstr -> pstate -> Prop :=
| ys_x i st' : xstep X m pc st i st' -> ystep X m pc lib st (YX i) st'
(* ops/mul.rs:29-117; check_register_width; [order] is the iteration order of the hash map of `prune` *)
| ys_mul dst a b order g outs cs : length (p_regs st a) = length (p_regs st b) -> (forall l, Permutation l (order l)) ->
    mul_graph lib order (p_regs st a) (p_regs st b) (length (p_store st)) = Ok (g, outs) -> runs X m pc st g outs cs ->
    ystep X m pc lib st (YMul dst a b) (put st dst (seq (length (p_store st)) (length outs)) cs).
Inductive yrun (X : ext) (m : mad_kernel) (pc : rproc) (lib : mux_library) : pstate -> list yinstr -> pstate -> Prop :=
| yrun_nil st : yrun X m pc lib st [] st
| yrun_cons st i st' is st'' : ystep X m pc lib st i st' -> yrun X m pc lib st' is st'' -> yrun X m pc lib st (i :: is) st''.
