(** Model of the fluent circuit-building API: parasol_runtime/src/fluent/{mod,bit,dynamic_generic_int,
    dynamic_generic_int_graph_nodes,packed_dynamic_generic_int_graph_node,uint,int}.rs and of the graph-level multiplication
    parasol_runtime/src/circuits/mul.rs.

    Simplifications.
    - A handle (BitNode, ...GraphNodes) is the list of node numbers it holds; the ciphertext type is an explicit argument where
      the code has a type parameter. The statically sized GenericIntGraphNodes wrap these (their length assertions are not modelled).
    - The mux circuits come from a library [mux_of] from circuit names to mux graphs: mux_circuits' builders followed by the
      conversion from decision diagrams, remapping and optimisation, which MuxGraph.v models and whose correctness is stated
      separately. What a theorem needs of the library is the explicit hypothesis [lib_ok] (SpecFluent.v).
    - The bump allocator and the run-time borrow checks of the context are not modelled (one thread). *)
From Verif Require Import Base Graph MuxGraph Circuits FheGraph FluentInt.
Open Scope nat_scope.

(** The circuits the API asks for, by builder and arguments (the second argument of `ripple_carry_adder` etc.). *)
Inductive blk :=
| BAdd (n m : nat) | BSub (n : nat) | BNeg (n : nat) | BAnd (n : nat) | BCmp (sg : sign) (n : nat) (gt eq : bool)
| BEq (n : nat) | BNeq (n : nat) | BMul (n m : nat) | BReduce (n m : nat).
(** The builder functions of mux_circuits (Circuits.v); uint.rs:38-40 and int.rs:55-57 gen_compare_circuit. *)
Definition builder (b : blk) : res circuit :=
  match b with
  | BAdd n m => ripple_carry_adder n m false
  | BSub n => full_subtractor n false
  | BNeg n => negator n
  | BAnd n => Ok (make_and_circuit n)
  | BCmp Unsigned n gt eq => compare_or_maybe_equal n gt eq
  | BCmp Signed n gt eq => compare_or_maybe_equal_signed n gt eq
  | BEq n => compare_equal n
  | BNeq n => compare_not_equal n
  | BMul n m => unsigned_multiplier n m
  | BReduce n m => gradeschool_reduce n m
  end.

(** fluent/mod.rs:55-79 FheCircuitCtx: the circuit and the two caches of constant nodes (four entries each). *)
Record ctx := mkCtx { cg : fgraph; zeros : list (option nat); ones : list (option nat) }.
Definition ctx_new : ctx := mkCtx gempty (repeat None 4) (repeat None 4).
Definition with_graph (c : ctx) (g : fgraph) : ctx := mkCtx g (zeros c) (ones c).
(** crypto/ciphertext.rs:8-23: the discriminants of CiphertextType. *)
Definition tnum (t : cty) : nat := match t with TLwe0 => 0 | TLwe1 => 1 | TGlwe1 => 2 | TGgsw1 => 3 | TGlev1 => 4 end.
Definition nadd (g : fgraph) (op : fop) (es : nat -> list (nat * nat * fedge)) : res (fgraph * nat) :=
  let '(i, g) := add_node g op in g <- add_edges g (es i) ;; Ok (g, i).
(** A loop that adds to the graph and collects one node per element. *)
Definition gmap {A} (f : fgraph -> A -> res (fgraph * nat)) (l : list A) (g : fgraph) : res (fgraph * list nat) :=
  foldM (fun st x => ' (g', n) <- f (fst st) x ;; Ok (g', snd st ++ [n])) l (g, []).

(** dynamic_generic_int.rs:96-106 graph_inputs; [refs] names the shared ciphertexts. *)
Definition inputs (t : cty) (refs : list nat) (c : ctx) : res (ctx * list nat) :=
  ' (g, ns) <- gmap (fun g r => nadd g (FInput t r) (fun _ => [])) refs (cg c) ;; Ok (with_graph c g, ns).
(** bit.rs:192-204 and dynamic_generic_int_graph_nodes.rs:67-76 convert. *)
Definition gconvert (t t' : cty) (ns : list nat) (g : fgraph) : res (fgraph * list nat) := gmap (fun g n => convert g n t t') ns g.
Definition convert_bits (t t' : cty) (ns : list nat) (c : ctx) : res (ctx * list nat) :=
  ' (g, ns) <- gconvert t t' ns (cg c) ;; Ok (with_graph c g, ns).
(** bit.rs:133-141 and dynamic_generic_int_graph_nodes.rs:88-103 collect_outputs; [ps] pairs each node with the name of the fresh
    result ciphertext; returns the output nodes. *)
Definition collect_outputs (t : cty) (ps : list (nat * nat)) (c : ctx) : res (ctx * list nat) :=
  ' (g, ns) <- gmap (fun g p => nadd g (FOutput t (snd p)) (fun o => [(fst p, o, EUnary)])) ps (cg c) ;; Ok (with_graph c g, ns).
(** bit.rs:147-188 one / zero: a cached constant node per type. The cache has four entries, so type number 4 is out of bounds;
    L1LweCiphertext::graph_trivial_* is unimplemented!() (mod.rs:217-223). *)
Definition const_bit (v : bool) (t : cty) (c : ctx) : res (ctx * nat) :=
  let cache := if v then ones c else zeros c in
  match nth_error cache (tnum t) with
  | None => Panic
  | Some (Some n) => Ok (c, n)
  | Some None =>
      match t with
      | TLwe1 => Panic
      | _ =>
          let '(n, g) := add_node (cg c) (if v then FOne t else FZero t) in
          let cache' := firstn (tnum t) cache ++ [Some n] ++ skipn (S (tnum t)) cache in
          Ok (if v then mkCtx g (zeros c) cache' else mkCtx g cache' (ones c), n)
      end
  end.
(** bit.rs:95-120 select. *)
Definition select (s : nat) (if_true if_false : list nat) (c : ctx) : res (ctx * list nat) :=
  ' (g, ns) <- gmap (fun g (p : nat * nat) => nadd g FCMux (fun m => [(snd p, m, ELow); (fst p, m, EHigh); (s, m, ESel)]))
    (combine if_true if_false) (cg c) ;; Ok (with_graph c g, ns).

(** uint.rs:50-59 and int.rs:67-76 resize_config: (bits to keep, bits to append, append the most significant bit?). With overflow
    checks off, 0 - 1 is usize::MAX, more than any length. *)
Definition resize_config (p : profile) (sg : sign) (old new : nat) : res (nat * nat * bool) :=
  match sg with
  | Unsigned => Ok (Nat.min new old, new - old, false)
  | Signed =>
      match Nat.min new old with
      | O => match p with Debug => Panic | Release => Ok (old, (new - old) + 1, true) end
      | S k => Ok (k, (new - old) + 1, true)
      end
  end.
(** dynamic_generic_int_graph_nodes.rs:106-130 resize. *)
Definition resize (p : profile) (sg : sign) (t : cty) (bits : list nat) (new : nat) (c : ctx) : res (ctx * list nat) :=
  ' (min_len, extend, use_msb) <- resize_config p sg (length bits) new ;;
  ' (c, bit) <- (if use_msb : bool then match rev bits with b :: _ => Ok (c, b) | [] => Panic end else const_bit false t c) ;;
  Ok (c, firstn min_len bits ++ repeat bit extend).

(** dynamic_generic_int_graph_nodes.rs:154-171: the i'th bit times X^i. *)
Definition shift_bit (g : fgraph) (p : nat * nat) : res (fgraph * nat) :=
  if 0 <? snd p then nadd g (FMulXN (snd p)) (fun i => [(fst p, i, EUnary)]) else Ok (g, fst p).
(** dynamic_generic_int_graph_nodes.rs:175-196, one level of the tree reduction; slice::chunks(2). *)
Fixpoint chunks2 (l : list nat) : list (list nat) :=
  match l with a :: b :: l => [a; b] :: chunks2 l | [a] => [[a]] | [] => [] end.
Definition add_pair (g : fgraph) (x : list nat) : res (fgraph * nat) :=
  match x with
  | [a; b] => nadd g FGlweAdd (fun i => [(a, i, ELeft); (b, i, ERight)])
  | [a] => Ok (g, a)
  | _ => Panic
  end.
Definition reduce_level (st : fgraph * list nat) (_ : nat) : res (fgraph * list nat) :=
  let '(g, reduction) := st in
  if 1 <? length reduction then gmap add_pair (chunks2 reduction) g else Panic.
(** dynamic_generic_int_graph_nodes.rs:139-206 pack: returns the node and bit_len. n.next_power_of_two().ilog2() is the number of
    binary digits of n - 1. *)
Definition next_log2 (n : nat) : nat := Nat.log2_up n.
Definition pack (deg : nat) (bits : list nat) (c : ctx) : res (ctx * (nat * nat)) :=
  let n := length bits in
  if negb (n <=? deg) then Panic
  else if n =? 0 then Panic
  else
    ' (g, shifted) <- gmap shift_bit (combine bits (seq 0 n)) (cg c) ;;
    ' (g, reduction) <- foldM reduce_level (seq 0 (next_log2 n)) (g, shifted) ;;
    match reduction with
    | [id] => Ok (with_graph c g, (id, n))
    | _ => Panic
    end.
(** packed_dynamic_generic_int_graph_node.rs:24-39 unpack. *)
Definition unpack (id bit_len : nat) (c : ctx) : res (ctx * list nat) :=
  ' (g, ns) <- gmap (fun g i => nadd g (FSampleExtract i) (fun n => [(id, n, EUnary)])) (seq 0 bit_len) (cg c) ;; Ok (with_graph c g, ns).

(** mux_circuits/src/mul.rs:286-387 encode_gradeschool_reduction is generic in the element type; Circuits.v has the instance for
    bits. [d] stands for an out-of-bounds access, which the length assertions exclude. *)
Definition encode_reduction {A} (d : A) (n m : nat) (ll lh hl hh : list A) : res (list A) :=
  let '(a_lo, a_hi) := partition_integer n in
  let '(b_lo, b_hi) := partition_integer m in
  if negb ((length ll =? a_lo + b_lo) && (length lh =? a_lo + b_hi) && (length hl =? a_hi + b_lo)
           && (length hh =? a_hi + b_hi) && (b_lo <=? a_lo) && (a_hi <=? a_lo) && (b_hi <=? b_lo)) then Panic
  else if a_hi <? b_hi then Panic
  else
    let g (l : list A) i := nth i l d in
    let o2 := a_lo - b_lo in
    Ok (map (fun i => g ll i) (seq 0 b_lo)
    ++ flat_map (fun i => [g ll (b_lo + i); g lh i]) (seq 0 o2)
    ++ flat_map (fun i => [g ll (b_lo + o2 + i); g hl i; g lh (o2 + i)]) (seq 0 b_lo)
    ++ flat_map (fun i => [g hl (b_lo + i); g lh (o2 + b_lo + i); g hh i]) (seq 0 b_hi)
    ++ flat_map (fun i => [g hl (b_lo + b_hi + i); g hh (b_hi + i)]) (seq 0 (a_hi - b_hi))
    ++ map (fun i => g hh (b_hi + (a_hi - b_hi) + i)) (seq 0 b_hi)).

Section Lib.
Context (mux_of : blk -> res (mgraph * list nat)).

(** Building a circuit and inserting it: fhe_circuit.rs:264-420. *)
Definition insert (b : blk) (hosts : list nat) (mode : mux_mode) (g : fgraph) : res (fgraph * list nat) :=
  ' (mc, inputs) <- mux_of b ;; insert_mux g mc inputs hosts mode.

(** dynamic_generic_int_graph_nodes.rs:224-231 (and 263-270, 302-309): the operands interleaved, the shorter one padded. *)
Definition pad_interleave (zero : nat) (a b : list nat) : list nat :=
  interleave a b ++ flat_map (fun x => [x; zero]) (skipn (length b) a) ++ flat_map (fun x => [zero; x]) (skipn (length a) b).
(** dynamic_generic_int_graph_nodes.rs:209-243 cmp, 250-282 eq, 289-321 neq. `cmp_result[0]` panics without outputs. *)
Definition compare_with (blk_of : nat -> blk) (mode : mux_mode) (a b : list nat) (c : ctx) : res (ctx * list nat) :=
  let b0 := blk_of (Nat.max (length b) (length a)) in
  _ <- mux_of b0 ;;
  let '(zero, g) := add_node (cg c) (FZero TGgsw1) in
  ' (g, outs) <- insert b0 (pad_interleave zero a b) mode g ;;
  match outs with o :: _ => Ok (with_graph c g, [o]) | [] => Panic end.
Definition cmp (sg : sign) (gt eq : bool) := compare_with (fun n => BCmp sg n gt eq).
Definition feq := compare_with BEq.
Definition fneq := compare_with BNeq.
(** dynamic_generic_int_graph_nodes.rs:380-405 sub, 412-437 and (`n as u16`), 444-469 add. *)
Definition binop (b0 : blk) (mode : mux_mode) (a b : list nat) (c : ctx) : res (ctx * list nat) :=
  ' (g, outs) <- insert b0 (interleave a b) mode (cg c) ;; Ok (with_graph c g, firstn (length a) outs).
Definition fsub mode (a b : list nat) := binop (BSub (length a)) mode a b.
Definition fand mode (a b : list nat) := binop (BAnd (Z.to_nat (Z.of_nat (length a) mod 2 ^ 16))) mode a b.
Definition fadd mode (a b : list nat) := binop (BAdd (length a) (length a)) mode a b.

(** circuits/mul.rs:90-193 mul_impl; [fuel] as in Circuits.mul_impl. The conversions of the last branch (180-190) are from
    L1GlweCiphertext whatever the output type is. *)
Fixpoint gmul_impl (fuel : nat) (mode : mux_mode) (a0 b0 : list nat) (g : fgraph) : res (fgraph * list nat) :=
  match fuel with
  | O => Err EOther
  | S f =>
      let '(a, b) := if length a0 <? length b0 then (b0, a0) else (a0, b0) in
      let '(a_lo_len, a_hi_len) := partition_integer (length a) in
      let '(b_lo_len, b_hi_len) := partition_integer (length b) in
      let a_lo := firstn a_lo_len a in let a_hi := skipn a_lo_len a in
      let b_lo := firstn b_lo_len b in let b_hi := skipn b_lo_len b in
      if (a_hi_len =? 0) && (b_hi_len =? 0) then insert (BMul (length a) (length b)) (a ++ b) mode g
      else if b_hi_len =? 0 then
        ' (g, ll) <- gmul_impl f mode a_lo b_lo g ;;
        ' (g, hl) <- gmul_impl f mode a_hi b_lo g ;;
        let lo := firstn a_lo_len ll in
        let hi := skipn a_lo_len ll in
        ' (g, adder_inputs) <- gconvert (mode_ty mode) TGgsw1 (interleave hi (firstn a_lo_len hl) ++ skipn a_lo_len hl) g ;;
        ' (g, sum_out) <- insert (BAdd b_lo_len (a_hi_len + b_lo_len)) adder_inputs mode g ;;
        if length lo + length sum_out =? length a + length b then Ok (g, lo ++ sum_out) else Panic
      else
        ' (g, ll) <- gmul_impl f mode a_lo b_lo g ;;
        ' (g, lh) <- gmul_impl f mode a_lo b_hi g ;;
        ' (g, hl) <- gmul_impl f mode a_hi b_lo g ;;
        ' (g, hh) <- gmul_impl f mode a_hi b_hi g ;;
        bits <- encode_reduction 0 (length a) (length b) ll lh hl hh ;;
        ' (g, bits) <- gconvert TGlwe1 TGgsw1 bits g ;;
        insert (BReduce (length a) (length b)) bits mode g
  end.
(** circuits/mul.rs:75-86 append_uint_multiply. *)
Definition gappend_uint (mode : mux_mode) (a b : list nat) (g : fgraph) : res (fgraph * (list nat * list nat)) :=
  ' (g, p) <- gmul_impl (S (length a + length b)) mode a b g ;;
  if length a <=? length p then Ok (g, (firstn (length a) p, skipn (length a) p)) else Panic.
(** circuits/mul.rs:199-203 neg. *)
Definition gneg (input : list nat) (g : fgraph) : res (fgraph * list nat) := insert (BNeg (length input)) input MGlwe g.
(** A CMux node. *)
Definition cmux_node (sel low high : nat) (g : fgraph) : res (fgraph * nat) :=
  nadd g FCMux (fun i => [(sel, i, ESel); (low, i, ELow); (high, i, EHigh)]).
(** circuits/mul.rs:209-242 abs. *)
Definition gabs (input : list nat) (g : fgraph) : res (fgraph * list nat) :=
  ' (g, input_glwe) <- gconvert TGgsw1 TGlwe1 input g ;;
  ' (g, neg_input) <- gneg input g ;;
  match rev input with
  | [] => Panic
  | sel :: _ =>
      gmap (fun g (p : nat * nat) => ' (g, m) <- cmux_node sel (fst p) (snd p) g ;; convert g m TGlwe1 TGgsw1) (combine input_glwe neg_input) g
  end.
(** circuits/mul.rs:18-72 append_int_multiply. *)
Definition gappend_int (mode : mux_mode) (a b : list nat) (g : fgraph) : res (fgraph * (list nat * list nat)) :=
  ' (g, abs_a) <- gabs a g ;;
  ' (g, abs_b) <- gabs b g ;;
  ' (g, pos) <- gmul_impl (S (length a + length b)) MGlwe abs_a abs_b g ;;
  ' (g, pos_ggsw) <- gconvert TGlwe1 TGgsw1 pos g ;;
  ' (g, neg) <- gneg pos_ggsw g ;;
  match rev a, rev b with
  | s1 :: _, s2 :: _ =>
      ' (g, result) <- gmap (fun g (p : nat * nat) =>
          ' (g, m11) <- cmux_node s1 (fst p) (snd p) g ;;
          ' (g, m12) <- cmux_node s1 (snd p) (fst p) g ;;
          ' (g, m2) <- cmux_node s2 m11 m12 g ;;
          convert g m2 TGlwe1 (mode_ty mode)) (combine pos neg) g ;;
      if length a <=? length result then Ok (g, (firstn (length a) result, skipn (length a) result)) else Panic
  | _, _ => Panic
  end.
(** dynamic_generic_int_graph_nodes.rs:488-505: output nodes that nothing reads. *)
Definition is_output (op : fop) : bool := match op with FOutput _ _ => true | _ => false end.
Definition existing_outputs (g : fgraph) : list nat :=
  filter (fun n => match node g n with Some op => is_output op && (length (succs g n) =? 0) | None => false end) (node_indices g).
(** dynamic_generic_int_graph_nodes.rs:476-519 mul: [order] is the iteration order of prune's hash map. Only the result's handles
    are renamed. *)
Definition fmul (order : list (nat * nat) -> list (nat * nat)) (sg : sign) (mode : mux_mode) (a b : list nat) (c : ctx) : res (ctx * list nat) :=
  let existing := existing_outputs (cg c) in
  ' (g, (lo, _)) <- (match sg with Unsigned => gappend_uint mode a b (cg c) | Signed => gappend_int mode a b (cg c) end) ;;
  ' (pruned, rename) <- prune order g (lo ++ existing) ;;
  lo <- foldM (fun acc x => match alookup rename x with Some y => Ok (acc ++ [y]) | None => Panic end) lo [] ;;
  Ok (with_graph c pruned, lo).

(** The operations of the API, as data: what a program can do with a context. *)
Inductive call :=
| KInputs (t : cty) (refs : list nat) | KConvert (t t' : cty) (ns : list nat) | KOutputs (t : cty) (ps : list (nat * nat))
| KConst (v : bool) (t : cty) | KSelect (s : nat) (if_true if_false : list nat) | KResize (p : profile) (sg : sign) (t : cty) (ns : list nat) (new : nat)
| KPack (deg : nat) (ns : list nat) | KUnpack (id n : nat)
| KCmp (sg : sign) (gt eq : bool) (m : mux_mode) (a b : list nat) | KEq (m : mux_mode) (a b : list nat) | KNeq (m : mux_mode) (a b : list nat)
| KSub (m : mux_mode) (a b : list nat) | KAnd (m : mux_mode) (a b : list nat) | KAdd (m : mux_mode) (a b : list nat)
| KMul (order : list (nat * nat) -> list (nat * nat)) (sg : sign) (m : mux_mode) (a b : list nat).
Definition run_call (c : ctx) (k : call) : res (ctx * list nat) :=
  match k with
  | KInputs t refs => inputs t refs c
  | KConvert t t' ns => convert_bits t t' ns c
  | KOutputs t ps => collect_outputs t ps c
  | KConst v t => ' (c, n) <- const_bit v t c ;; Ok (c, [n])
  | KSelect s x y => select s x y c
  | KResize p sg t ns new => resize p sg t ns new c
  | KPack deg ns => ' (c, (id, _)) <- pack deg ns c ;; Ok (c, [id])
  | KUnpack id n => unpack id n c
  | KCmp sg gt eq m a b => cmp sg gt eq m a b c
  | KEq m a b => feq m a b c
  | KNeq m a b => fneq m a b c
  | KSub m a b => fsub m a b c
  | KAnd m a b => fand m a b c
  | KAdd m a b => fadd m a b c
  | KMul order sg m a b => fmul order sg m a b c
  end.
(** A program chooses each operation knowing the handles returned so far. *)
Fixpoint run_calls (c : ctx) (handles : list (list nat)) (ks : list (list (list nat) -> call)) : res (ctx * list (list nat)) :=
  match ks with
  | [] => Ok (c, handles)
  | k :: ks => ' (c, ns) <- run_call c (k handles) ;; run_calls c (handles ++ [ns]) ks
  end.
End Lib.
