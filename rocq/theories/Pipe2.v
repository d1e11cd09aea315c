(** More encrypted instructions on TFHE ciphertexts (parasol_cpu/src/proc/ops on top of parasol_runtime's evaluation): those of Pipe.v, shifts by
    encrypted and by plaintext amounts, exclusive or, complement, selection by an encrypted bit, moves and casts.

    Simplifications: as in Pipe.v. When the code makes several copies of the trivial encryption of zero, one handle stands for all of them (they are
    never written). Multiplication, memory and branch instructions are not in these programs. *)
From Verif Require Import Base Alu Circuits Graph MuxGraph SpecMux FheGraph Tfhe TfheGlwe Eval EvalFft SpecEval SpecEvalFft SpecPipe Pipe.
Open Scope nat_scope.

Inductive xinstr :=
| XBin (i : pinstr)
| XShift (op : shiftop) (dst a s : nat)
| XShiftBy (op : shiftop) (dst a s : nat)
| XXor (dst a b : nat) | XNot (dst a : nat) | XCmux (dst s a b : nat)
| XMov (dst a : nat) | XExt (signed : bool) (dst a w : nat) | XTrunc (dst a w : nat).

(** A node and its incoming edges (`add_node` followed by `add_edge`s). *)
Definition add_op (g : fgraph) (op : fop) (ins : list (nat * fedge)) : res (fgraph * nat) :=
  let '(n, g) := add_node g op in
  g <- foldM (fun g (e : nat * fedge) => add_edge g (fst e) n (snd e)) ins g ;; Ok (g, n).
(** ops/xor.rs:72-80: one bit. *)
Definition xor_bit (st : fgraph * list nat) (p : nat * nat * nat) : res (fgraph * list nat) :=
  ' (g, ia) <- add_op (fst st) (FInput TGlwe1 (fst (fst p))) [] ;;
  ' (g, ib) <- add_op g (FInput TGlwe1 (snd (fst p))) [] ;;
  ' (g, x) <- add_op g FGlweAdd [(ia, ELeft); (ib, ERight)] ;;
  ' (g, o) <- add_op g (FOutput TGlwe1 (snd p)) [(x, EUnary)] ;;
  Ok (g, snd st ++ [o]).
(** ops/xor.rs:65-81. *)
Definition xor_graph (ha hb : list nat) (base : nat) : res (fgraph * list nat) :=
  foldM xor_bit (combine (combine ha hb) (seq base (length ha))) (gempty, []).
(** ops/not.rs:45-51: one bit. *)
Definition not_bit (st : fgraph * list nat) (p : nat * nat) : res (fgraph * list nat) :=
  ' (g, i) <- add_op (fst st) (FInput TGlwe1 (fst p)) [] ;;
  ' (g, x) <- add_op g FNot [(i, EUnary)] ;;
  ' (g, o) <- add_op g (FOutput TGlwe1 (snd p)) [(x, EUnary)] ;;
  Ok (g, snd st ++ [o]).
(** ops/not.rs:39-51. *)
Definition not_graph (ha : list nat) (base : nat) : res (fgraph * list nat) :=
  foldM not_bit (combine ha (seq base (length ha))) (gempty, []).
(** ops/cmux.rs:131-144: one bit; [s] is the node of the circuit bootstrap. *)
Definition cmux_bit (s : nat) (st : fgraph * list nat) (p : nat * nat * nat) : res (fgraph * list nat) :=
  ' (g, ia) <- add_op (fst st) (FInput TGlwe1 (fst (fst p))) [] ;;
  ' (g, ib) <- add_op g (FInput TGlwe1 (snd (fst p))) [] ;;
  ' (g, x) <- add_op g FCMux [(s, ESel); (ia, EHigh); (ib, ELow)] ;;
  ' (g, o) <- add_op g (FOutput TGlwe1 (snd p)) [(x, EUnary)] ;;
  Ok (g, snd st ++ [o]).
(** ops/cmux.rs:98-144, with an encrypted select (L1 GLWE). *)
Definition cmux_graph (hs : nat) (ha hb : list nat) (base : nat) : res (fgraph * list nat) :=
  ' (g, i) <- add_op gempty (FInput TGlwe1 hs) [] ;;
  ' (g, se) <- add_op g (FSampleExtract 0) [(i, EUnary)] ;;
  ' (g, ks) <- add_op g FKeyswitch [(se, EUnary)] ;;
  ' (g, s) <- add_op g FCbs [(ks, EUnary)] ;;
  foldM (cmux_bit s) (combine (combine ha hb) (seq base (length ha))) (g, []).

(** ops/bitshift.rs:50-87, on handles; [zero] is the handle of a trivial encryption of zero. *)
Definition shift_handles (op : shiftop) (zero s : nat) (hs : list nat) : list nat :=
  match op with
  | SShl => repeat zero s ++ skipn s (rotate_right s hs)
  | SShr => firstn (length hs - s) (rotate_left s hs) ++ repeat zero s
  | SShra => firstn (length hs - s) (rotate_left s hs) ++ repeat (last hs 0) s
  | SRotl => rotate_right s hs
  | SRotr => rotate_left s hs
  end.
(** ops/casting.rs:97-114, on handles. *)
Definition ext_handles (signed : bool) (zero w : nat) (hs : list nat) : list nat :=
  hs ++ repeat (if signed then last hs 0 else zero) (w - length hs).

(** The values of the output nodes [outs] of a circuit that ran in some order that respects its edges, on whatever its scratch buffers hold. *)
Definition runs (X : ext) (m : mad_kernel) (pc : rproc) (st : pstate) (g : fgraph) (outs : list nat) (cs : list glwe) : Prop :=
  exists sp, (forall n, scratch_ok (rp_params pc) (sp n)) /\ length cs = length outs /\
    forall j o r, nth_error outs j = Some o -> nth_error cs j = Some r ->
      rvalue X m pc sp (store_cells pc (p_store st)) g o (None, Some (TGlwe1, length (p_store st) + j, RGlwe1 r)).
(** Register [dst] now holds the handles [hs]; the ciphertexts [cs] are new. *)
Definition put (st : pstate) (dst : nat) (hs : list nat) (cs : list glwe) : pstate :=
  {| p_regs := fun r => if r =? dst then hs else p_regs st r; p_store := p_store st ++ cs |}.

Inductive xstep (X : ext) (m : mad_kernel) (pc : rproc) (st : pstate) : xinstr -> pstate -> Prop :=
| xs_bin i st' : pstep X m pc st i st' -> xstep X m pc st (XBin i) st'
(* ops/bitshift.rs:142-178; mux_circuits/src/bitshift.rs:155-156 optimises *)
| xs_shift op dst a s c ds mc inputs g outs cs :
    bitshift (length (p_regs st a)) (length (p_regs st s)) (fst (shift_dm op)) (snd (shift_dm op)) = Ok c -> diagrams_of c ds ->
    (' (g, _) <- from_bdds ds ;; optimize g) = Ok (mc, inputs) ->
    insert_and_connect gempty mc inputs (rev (p_regs st a) ++ rev (p_regs st s)) (length (p_store st)) = Ok (g, outs) ->
    runs X m pc st g outs cs ->
    xstep X m pc st (XShift op dst a s) (put st dst (rev (seq (length (p_store st)) (length outs))) cs)
(* ops/bitshift.rs:127-140; the amount is at most the width, or the slice rotation panics *)
| xs_shift_by op dst a s : 1 <= length (p_regs st a) -> s <= length (p_regs st a) ->
    xstep X m pc st (XShiftBy op dst a s) (put st dst (shift_handles op (length (p_store st)) s (p_regs st a)) [rp_zero_glwe1 pc])
(* ops/xor.rs:51-88; check_register_width *)
| xs_xor dst a b g outs cs : length (p_regs st a) = length (p_regs st b) ->
    xor_graph (p_regs st a) (p_regs st b) (length (p_store st)) = Ok (g, outs) -> runs X m pc st g outs cs ->
    xstep X m pc st (XXor dst a b) (put st dst (seq (length (p_store st)) (length outs)) cs)
(* ops/not.rs:36-60 *)
| xs_not dst a g outs cs : not_graph (p_regs st a) (length (p_store st)) = Ok (g, outs) -> runs X m pc st g outs cs ->
    xstep X m pc st (XNot dst a) (put st dst (seq (length (p_store st)) (length outs)) cs)
(* ops/cmux.rs:29-152 *)
| xs_cmux dst s a b g outs cs : length (p_regs st s) = 1 -> length (p_regs st a) = length (p_regs st b) ->
    cmux_graph (nth 0 (p_regs st s) 0) (p_regs st a) (p_regs st b) (length (p_store st)) = Ok (g, outs) -> runs X m pc st g outs cs ->
    xstep X m pc st (XCmux dst s a b) (put st dst (seq (length (p_store st)) (length outs)) cs)
(* ops/mov.rs:26-33 *)
| xs_mov dst a : xstep X m pc st (XMov dst a) (put st dst (p_regs st a) [])
(* ops/casting.rs:70-119; `data.last().unwrap()` *)
| xs_ext signed dst a w : length (p_regs st a) <= w -> (signed = true -> 1 <= length (p_regs st a)) ->
    xstep X m pc st (XExt signed dst a w) (put st dst (ext_handles signed (length (p_store st)) w (p_regs st a)) [rp_zero_glwe1 pc])
(* ops/casting.rs:143-166 *)
| xs_trunc dst a w : w <= length (p_regs st a) -> xstep X m pc st (XTrunc dst a w) (put st dst (firstn w (p_regs st a)) []).
Inductive xrun (X : ext) (m : mad_kernel) (pc : rproc) : pstate -> list xinstr -> pstate -> Prop :=
| xrun_nil st : xrun X m pc st [] st
| xrun_cons st i st' is st'' : xstep X m pc st i st' -> xrun X m pc st' is st'' -> xrun X m pc st (i :: is) st''.
