(** Encrypted addition with carry and subtraction with borrow (parasol_cpu/src/proc/ops/{add,sub}.rs), in programs.

    Simplifications: as in Pipe3.v; the two destinations of an instruction are different registers. *)
From Verif Require Import Base Alu Circuits Graph MuxGraph SpecMux FheGraph Tfhe TfheGlwe Eval EvalFft SpecEval SpecEvalFft SpecPipe Pipe Pipe2 Pipe3.
Open Scope nat_scope.

(** parasol_runtime/src/circuits/{add,sub}.rs:19, with a carry; not optimised. *)
Definition carry_circuit (sub : bool) (w : nat) : res circuit := if sub then full_subtractor w true else ripple_carry_adder w w true.
Inductive zinstr := ZY (i : yinstr) | ZCarry (sub : bool) (dst co a b cin : nat).
Inductive zstep (X : ext) (m : mad_kernel) (pc : rproc) (lib : mux_library) (st : pstate) : zinstr -> pstate -> Prop :=
| zs_y i st' : ystep X m pc lib st i st' -> zstep X m pc lib st (ZY i) st'
(* ops/add.rs:80-177, ops/sub.rs:81-176; circuits/add.rs:10-32: the carry comes before the interleaved operands, the last output is the new one *)
| zs_carry sub dst co a b cin c ds mc inputs g outs cs :
    length (p_regs st a) = length (p_regs st b) -> length (p_regs st cin) = 1 ->
    carry_circuit sub (length (p_regs st a)) = Ok c -> diagrams_of c ds -> from_bdds ds = Ok (mc, inputs) ->
    insert_and_connect gempty mc inputs (p_regs st cin ++ interleave (p_regs st a) (p_regs st b)) (length (p_store st)) = Ok (g, outs) ->
    runs X m pc st g outs cs ->
    zstep X m pc lib st (ZCarry sub dst co a b cin)
      (put (put st dst (removelast (seq (length (p_store st)) (length outs))) cs) co [last (seq (length (p_store st)) (length outs)) 0] []).
Inductive zrun (X : ext) (m : mad_kernel) (pc : rproc) (lib : mux_library) : pstate -> list zinstr -> pstate -> Prop :=
| zrun_nil st : zrun X m pc lib st [] st
| zrun_cons st i st' is st'' : zstep X m pc lib st i st' -> zrun X m pc lib st' is st'' -> zrun X m pc lib st (i :: is) st''.
