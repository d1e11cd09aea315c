(** Straight-line programs of encrypted two-operand instructions on TFHE ciphertexts (parasol_cpu on top of parasol_runtime's evaluation): each
    instruction builds its decision diagrams, compiles them into a circuit of muxes, puts one circuit bootstrap per operand bit in front of it and runs
    the result on the ciphertexts of its operands.

    Simplifications. The diagrams themselves come from an external library (biodivine_lib_bdd); here any diagrams, ordered as that library keeps them,
    that have the values the builder asks for ([diagrams_of]). XOR, multiplication, shifts and one-operand instructions are not in these programs.
    The reorder buffer is left out: instructions run one after the other (Tomasulo.v is about their interleaving). *)
From Verif Require Import Base Alu Circuits Graph MuxGraph SpecMux FheGraph Tfhe TfheGlwe Eval EvalFft SpecEval SpecEvalFft SpecPipe.
Open Scope nat_scope.

(** mux_circuits/src/{add,sub,and,or,comparisons}.rs: the builder that an instruction calls (parasol_cpu/src/proc/ops/{add,sub,and,or,comparisons}.rs). *)
Definition bin_circuit (op : binop) (w : nat) : res circuit :=
  match op with
  | BAdd => ripple_carry_adder w w false
  | BSub => full_subtractor w false
  | BAnd => Ok (make_and_circuit w)
  | BOr => Ok (make_or_circuit w)
  | BCmp c => cmp_gen c w
  | BMul | BXor => Panic
  end.
(** and.rs:20, or.rs:20: these builders optimise the circuit, the others (add.rs:55, sub.rs:47, comparisons.rs) do not. *)
Definition bin_optimised (op : binop) : bool := match op with BAnd | BOr => true | _ => false end.
(** MuxCircuit::from(diagrams) (mux_circuits/src/lib.rs:172-260, MuxGraph.from_bdds) and MuxCircuit::optimize. *)
Definition bin_compile (op : binop) (ds : list bdd) : res (mgraph * list nat) :=
  ' (g, inputs) <- from_bdds ds ;; if bin_optimised op then optimize g else Ok (g, inputs).
(** ops/add.rs:60-70, ops/sub.rs: the last output (carry, borrow) is dropped. *)
Definition bin_result {A} (op : binop) (outs : list A) : list A := match op with BAdd | BSub => removelast outs | _ => outs end.

(** The registers hold handles of ciphertexts; a new ciphertext gets the next handle (fhe_circuit.rs insert_mux_circuit_l1glwe_outputs allocates the
    outputs, circuits/{add,sub}.rs the same). *)
Record pstate := { p_regs : nat -> list nat; p_store : list glwe }.
Record pinstr := { pi_op : binop; pi_dst : nat; pi_a : nat; pi_b : nat }.
(** What the Input operations of a circuit read. Circuits made here read only L1 GLWE ciphertexts that exist; the rest of the (total) function is
    filled with zero ciphertexts. *)
Definition store_cells (pc : rproc) (store : list glwe) (t : cty) (r : nat) : rct :=
  let P := rp_params pc in
  match t with
  | TLwe0 => RLwe0 (rp_zero_lwe0 pc) | TLwe1 => RLwe1 (lwe_new (p_k P * p_N P)) | TGlwe1 => RGlwe1 (nth r store (rp_zero_glwe1 pc))
  | TGgsw1 => RGgsw1 (rp_zero_ggsw1 pc) | TGlev1 => RGlev1 (rp_zero_glev1 pc)
  end.

(** One instruction (ops/and.rs:17-98 and its siblings; circuits/{add,sub}.rs:10-32): the operand bits are interleaved, the circuit runs in some order
    that respects its edges, on whatever its scratch buffers hold, and the values of its output nodes become new ciphertexts. *)
Inductive pstep (X : ext) (m : mad_kernel) (pc : rproc) (st : pstate) (i : pinstr) : pstate -> Prop :=
| pstep_intro : forall c ds mc inputs g outs sp cs,
    bin_circuit (pi_op i) (length (p_regs st (pi_a i))) = Ok c ->
    diagrams_of c ds ->
    bin_compile (pi_op i) ds = Ok (mc, inputs) ->
    insert_and_connect gempty mc inputs (interleave (p_regs st (pi_a i)) (p_regs st (pi_b i))) (length (p_store st)) = Ok (g, outs) ->
    (forall n, scratch_ok (rp_params pc) (sp n)) ->
    length cs = length outs ->
    (forall j o r, nth_error outs j = Some o -> nth_error cs j = Some r ->
       rvalue X m pc sp (store_cells pc (p_store st)) g o (None, Some (TGlwe1, length (p_store st) + j, RGlwe1 r))) ->
    pstep X m pc st i {|
      p_regs := fun r => if r =? pi_dst i then bin_result (pi_op i) (seq (length (p_store st)) (length outs)) else p_regs st r;
      p_store := p_store st ++ cs |}.
Inductive prun (X : ext) (m : mad_kernel) (pc : rproc) : pstate -> list pinstr -> pstate -> Prop :=
| prun_nil : forall st, prun X m pc st [] st
| prun_cons : forall st i st' is st'', pstep X m pc st i st' -> prun X m pc st' is st'' -> prun X m pc st (i :: is) st''.
