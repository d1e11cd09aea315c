(** Model of FHE circuits: parasol_runtime/src/fhe_circuit.rs (FheOp, insert_mux_circuit, prune, insert_ciphertext_conversion)
    and the execution of one operation, parasol_runtime/src/circuit_processor/{mod.rs,task.rs} (validate, exec_op).

    Ciphertexts are replaced by the messages they encrypt (the ideal functionality): noise, keys and the torus are not part of
    this file. A GLWE ciphertext carries a polynomial with coefficients in {0,1} (plaintext modulus 2), every other ciphertext
    carries one bit. *)
From Verif Require Import Base Graph MuxGraph.
Open Scope nat_scope.

(** crypto/ciphertext.rs CiphertextType. *)
Inductive cty := TLwe0 | TLwe1 | TGlwe1 | TGgsw1 | TGlev1.
Definition cty_eqb (a b : cty) : bool :=
  match a, b with TLwe0, TLwe0 | TLwe1, TLwe1 | TGlwe1, TGlwe1 | TGgsw1, TGgsw1 | TGlev1, TGlev1 => true | _, _ => false end.

Inductive ct := CLwe0 (b : bool) | CLwe1 (b : bool) | CGlwe1 (p : list bool) | CGgsw1 (b : bool) | CGlev1 (b : bool).
Definition ty_of (c : ct) : cty :=
  match c with CLwe0 _ => TLwe0 | CLwe1 _ => TLwe1 | CGlwe1 _ => TGlwe1 | CGgsw1 _ => TGgsw1 | CGlev1 _ => TGlev1 end.

(** fhe_circuit.rs:34-128 FheOp. The shared ciphertext of an Input or Output is named by a number; Zero and One are indexed by
    type ([TLwe1] has no such operation in the code). *)
Inductive fop :=
| FInput (t : cty) (r : nat) | FOutput (t : cty) (r : nat)
| FSampleExtract (i : nat) | FKeyswitch | FNot | FGlweAdd | FCMux | FGlevCMux | FMultiply | FCbs | FSchemeSwitch
| FZero (t : cty) | FOne (t : cty) | FRetire | FNop | FMulXN (n : nat).
(** fhe_circuit.rs:172-198 FheEdge. *)
Inductive fedge := ELow | EHigh | ESel | EUnary | EGlwe | EGgsw | ELeft | ERight.
Definition fedge_eqb (a b : fedge) : bool :=
  match a, b with
  | ELow, ELow | EHigh, EHigh | ESel, ESel | EUnary, EUnary | EGlwe, EGlwe | EGgsw, EGgsw | ELeft, ELeft | ERight, ERight => true
  | _, _ => false
  end.
Definition fgraph := graph fop fedge.

(** * Executing one operation *)

(** The inputs of a task: the edge label and the output buffer of the producer (None until something was written). *)
Definition tinputs := list (fedge * option ct).
Definition find_in (l : fedge) (ins : tinputs) : option (option ct) := option_map snd (find (fun p => fedge_eqb (fst p) l) ins).

(** task.rs:43-83 validate_op_input. The [Panic] is the unreachable!() arm. *)
Definition validate_op_input (op : fop) (e : fedge) (c : option ct) : res unit :=
  match c with
  | None => Err ENotCiphertext                                       (* missing_ciphertext_input *)
  | Some c =>
      let check t := if cty_eqb (ty_of c) t then Ok tt else Err EEncryptionMismatch in  (* invalid_ciphertext_kind *)
      match op, e with
      | FOutput TLwe0 _, EUnary | FCbs, EUnary => check TLwe0
      | FOutput TLwe1 _, EUnary | FKeyswitch, EUnary => check TLwe1
      | FOutput TGlwe1 _, EUnary | FSampleExtract _, EUnary | FMulXN _, EUnary | FNot, EUnary
      | FGlweAdd, ELeft | FGlweAdd, ERight | FCMux, ELow | FCMux, EHigh | FMultiply, EGlwe => check TGlwe1
      | FOutput TGlev1 _, EUnary | FGlevCMux, ELow | FGlevCMux, EHigh | FSchemeSwitch, EUnary => check TGlev1
      | FOutput TGgsw1 _, EUnary | FCMux, ESel | FGlevCMux, ESel | FMultiply, EGgsw => check TGgsw1
      | _, _ => Panic
      end
  end.

(** task.rs:85-170 validate_inputs. EIllegalOperands stands for invalid_node_inputs. *)
Definition validate_inputs (op : fop) (ins : tinputs) : res unit :=
  match op with
  | FInput _ _ | FZero _ | FOne _ | FNop | FRetire => match ins with [] => Ok tt | _ => Err EIllegalOperands end
  | FOutput _ _ | FSampleExtract _ | FKeyswitch | FNot | FCbs | FSchemeSwitch | FMulXN _ =>
      match ins with
      | [(EUnary, c)] => validate_op_input op EUnary c
      | _ => Err EIllegalOperands
      end
  | FGlweAdd =>
      match (length ins =? 2), find_in ELeft ins, find_in ERight ins with
      | true, Some l, Some r => _ <- validate_op_input op ELeft l ;; validate_op_input op ERight r
      | _, _, _ => Err EIllegalOperands
      end
  | FGlevCMux | FCMux =>
      match (length ins =? 3), find_in ESel ins, find_in ELow ins, find_in EHigh ins with
      | true, Some s, Some l, Some h =>
          _ <- validate_op_input op ESel s ;; _ <- validate_op_input op ELow l ;; validate_op_input op EHigh h
      | _, _, _, _ => Err EIllegalOperands
      end
  | FMultiply =>
      match (length ins =? 2), find_in EGlwe ins, find_in EGgsw ins with
      | true, Some g, Some s => _ <- validate_op_input op EGlwe g ;; validate_op_input op EGgsw s
      | _, _, _ => Err EIllegalOperands
      end
  end.
(** task.rs:24-41 validate, validate_op. EOutOfRange stands for illegal_sample_extract. *)
Definition validate (deg : nat) (op : fop) (ins : tinputs) : res unit :=
  _ <- validate_inputs op ins ;;
  match op with FSampleExtract i => if deg <=? i then Err EOutOfRange else Ok tt | _ => Ok tt end.

(** ** Ideal functionality of the evaluation primitives: crypto/evaluation.rs *)
Definition pzero (deg : nat) : list bool := repeat false deg.
Definition pconst (deg : nat) (b : bool) : list bool := match deg with O => [] | S d => b :: repeat false d end.
Fixpoint pxor (a b : list bool) : list bool := match a, b with x :: a, y :: b => xorb x y :: pxor a b | _, _ => [] end.
(** Multiplication by X^n modulo X^N + 1; signs vanish modulo 2 (sunscreen_tfhe/src/entities/polynomial.rs:200-236). *)
Definition rotr (n : nat) (l : list bool) : list bool :=
  let k := n mod (length l) in skipn (length l - k) l ++ firstn (length l - k) l.

Definition glwe (c : option ct) : res (list bool) := match c with Some (CGlwe1 p) => Ok p | _ => Panic end.
Definition ggsw (c : option ct) : res bool := match c with Some (CGgsw1 p) => Ok p | _ => Panic end.
Definition glev (c : option ct) : res bool := match c with Some (CGlev1 p) => Ok p | _ => Panic end.
Definition lwe0 (c : option ct) : res bool := match c with Some (CLwe0 p) => Ok p | _ => Panic end.
Definition lwe1 (c : option ct) : res bool := match c with Some (CLwe1 p) => Ok p | _ => Panic end.
Definition inp0 (ins : tinputs) : res (option ct) := match ins with p :: _ => Ok (snd p) | [] => Panic end.
Definition inp1 (ins : tinputs) : res (option ct) := match ins with _ :: p :: _ => Ok (snd p) | _ => Panic end.
Definition inpl (l : fedge) (ins : tinputs) : res (option ct) := match find_in l ins with Some c => Ok c | None => Panic end.

(** The constants: mod.rs:101-111. *)
Definition const_ct (deg : nat) (t : cty) (b : bool) : res ct :=
  match t with
  | TLwe0 => Ok (CLwe0 b) | TGlwe1 => Ok (CGlwe1 (pconst deg b)) | TGgsw1 => Ok (CGgsw1 b) | TGlev1 => Ok (CGlev1 b)
  | TLwe1 => Panic
  end.

(** What an operation leaves behind: its output buffer, and a write to the shared ciphertext of an Output node. *)
Definition outcome := (option ct * option (cty * nat * ct))%type.

(** mod.rs:250-530, after validation: unwrap and borrow_xxx panic on a value of another kind. [cells] gives the contents of
    the shared input ciphertexts. *)
Definition run_op (deg : nat) (cells : cty -> nat -> ct) (op : fop) (ins : tinputs) : res outcome :=
  let out c := Ok (Some c, None) in
  match op with
  | FInput t r => out (cells t r)
  | FOutput t r =>
      c <- inp0 ins ;;
      match c with Some c => if cty_eqb (ty_of c) t then Ok (None, Some (t, r, c)) else Panic | None => Panic end
  | FCbs => c <- inp0 ins ;; b <- lwe0 c ;; out (CGgsw1 b)
  | FNot => c <- inp0 ins ;; p <- glwe c ;; out (CGlwe1 (pxor p (pconst deg true)))
  | FGlweAdd => c <- inp0 ins ;; p <- glwe c ;; c' <- inp1 ins ;; q <- glwe c' ;; out (CGlwe1 (pxor p q))
  | FMultiply => c <- inpl EGlwe ins ;; p <- glwe c ;; c' <- inpl EGgsw ins ;; b <- ggsw c' ;; out (CGlwe1 (if b then p else pzero deg))
  | FCMux =>
      c <- inpl ELow ins ;; a <- glwe c ;; c' <- inpl EHigh ins ;; b <- glwe c' ;; s <- inpl ESel ins ;; s <- ggsw s ;;
      out (CGlwe1 (if (s : bool) then b else a))
  | FGlevCMux =>
      c <- inpl ELow ins ;; a <- glev c ;; c' <- inpl EHigh ins ;; b <- glev c' ;; s <- inpl ESel ins ;; s <- ggsw s ;;
      out (CGlev1 (if (s : bool) then b else a))
  | FKeyswitch => c <- inp0 ins ;; b <- lwe1 c ;; out (CLwe0 b)
  | FSampleExtract i => c <- inp0 ins ;; p <- glwe c ;; out (CLwe1 (nth i p false))
  | FZero t => c <- const_ct deg t false ;; out c
  | FOne t => c <- const_ct deg t true ;; out c
  | FMulXN n => c <- inpl EUnary ins ;; p <- glwe c ;; out (CGlwe1 (rotr n p))
  | FSchemeSwitch => c <- inpl EUnary ins ;; b <- glev c ;; out (CGgsw1 b)
  | FRetire | FNop => Ok (None, None)
  end.
(** mod.rs:250-252 exec_op. *)
Definition exec_op (deg : nat) (cells : cty -> nat -> ct) (op : fop) (ins : tinputs) : res outcome :=
  _ <- validate deg op ins ;; run_op deg cells op ins.

(** * insert_mux_circuit: fhe_circuit.rs:264-420 *)

(** fhe_circuit.rs:228-259 MuxMode. *)
Inductive mux_mode := MGlwe | MGlev.
Definition mode_mux m := match m with MGlwe => FCMux | MGlev => FGlevCMux end.
Definition mode_ty m := match m with MGlwe => TGlwe1 | MGlev => TGlev1 end.

Fixpoint alookup (l : list (nat * nat)) (k : nat) : option nat :=
  match l with [] => None | (a, b) :: l => if a =? k then Some b else alookup l k end.

(** fhe_circuit.rs:297-313: copy all non-I/O nodes. *)
Definition copy_node (mode : mux_mode) (mc : mgraph) (st : list (nat * nat) * fgraph) (i : nat) : list (nat * nat) * fgraph :=
  let '(ren, h) := st in
  let op := match node mc i with
            | Some MMux => Some (mode_mux mode) | Some MOne => Some (FOne (mode_ty mode)) | Some MZero => Some (FZero (mode_ty mode))
            | _ => None end in
  match op with
  | Some op => let '(n, h') := add_node h op in ((i, n) :: ren, h')
  | None => (ren, h)
  end.
(** fhe_circuit.rs:496-503 map_edge. *)
Definition map_edge (e : medge) : res fedge :=
  match e with High => Ok EHigh | Low => Ok ELow | Select => Ok ESel | OutEdge => Panic end.
(** fhe_circuit.rs:352-362: the nodes a mux input may be connected to. *)
Definition ggsw_source (op : fop) : bool :=
  match op with FInput TGgsw1 _ | FCbs | FZero TGgsw1 | FOne TGgsw1 | FSchemeSwitch => true | _ => false end.
(** fhe_circuit.rs:341-373, one input. *)
Definition connect_input (mc : mgraph) (ren : list (nat * nat)) (h : fgraph) (p : nat * nat) : res fgraph :=
  let '(host, inp) := p in
  match node mc inp with
  | Some (MVar _) =>
      match node h host with
      | Some op =>
          if ggsw_source op then
            foldM (fun h (e : nat * nat * medge) =>
                     match alookup ren (snd (fst e)) with
                     | Some t => l <- map_edge (snd e) ;; add_edge h host t l
                     | None => Panic
                     end) (out_edges mc inp) h
          else Panic
      | None => Panic
      end
  | _ => Panic
  end.
Fixpoint set_nth {A} (l : list A) (i : nat) (x : A) : res (list A) :=
  match l, i with
  | [], _ => Panic
  | _ :: l, O => Ok (x :: l)
  | y :: l, S i => l' <- set_nth l i x ;; Ok (y :: l')
  end.
(** fhe_circuit.rs:375-396, one output. *)
Definition connect_output (mc : mgraph) (ren : list (nat * nat)) (outs : list nat) (i : nat) : res (list nat) :=
  match node mc i with
  | Some (MOut o) =>
      match in_edges mc i with
      | e :: _ => match alookup ren (fst (fst e)) with Some n => set_nth outs o n | None => Panic end
      | [] => Panic
      end
  | _ => Ok outs
  end.
(** fhe_circuit.rs:398-417, the out-edges of one node. *)
Definition connect_rest (mc : mgraph) (ren : list (nat * nat)) (h : fgraph) (i : nat) : res fgraph :=
  match node mc i with
  | Some (MOut _) | Some (MVar _) => Ok h
  | _ =>
      foldM (fun h (e : nat * nat * medge) =>
               match alookup ren (fst (fst e)) with
               | None => Panic
               | Some s => match alookup ren (snd (fst e)) with
                           | Some t => l <- map_edge (snd e) ;; add_edge h s t l
                           | None => Ok h
                           end
               end) (out_edges mc i) h
  end.
Definition is_out (mc : mgraph) (i : nat) : bool := match node mc i with Some (MOut _) => true | _ => false end.
(** fhe_circuit.rs:264-420. *)
Definition insert_mux (h : fgraph) (mc : mgraph) (inputs hosts : list nat) (mode : mux_mode) : res (fgraph * list nat) :=
  if negb (length inputs =? length hosts) then Panic
  else
    let '(ren, h1) := fold_left (copy_node mode mc) (node_indices mc) ([], h) in
    h2 <- foldM (connect_input mc ren) (combine hosts inputs) h1 ;;
    let outs0 := repeat 0 (length (filter (is_out mc) (node_indices mc))) in
    outs <- foldM (connect_output mc ren) (node_indices mc) outs0 ;;
    h3 <- foldM (connect_rest mc ren) (node_indices mc) h2 ;;
    Ok (h3, outs).

(** * prune: fhe_circuit.rs:512-554 *)
Section Prune.
Context {N E : Type}.
Implicit Types g : graph N E.

(** fhe_circuit.rs:532-543, the loop over the predecessors of one node. *)
Definition prune_pred g (st : graph N E * list (nat * nat) * list nat) (next : nat) : res (graph N E * list (nat * nat) * list nat) :=
  let '(out, ren, queue) := st in
  match alookup ren next with
  | Some _ => Ok (out, ren, queue)
  | None => match node g next with
            | Some w => let '(n, out') := add_node out w in Ok (out', (next, n) :: ren, queue ++ [next])
            | None => Panic
            end
  end.
(** fhe_circuit.rs:524-544. The fuel bounds the number of iterations; running out of it counts as a panic. *)
Fixpoint prune_loop (fuel : nat) g (out : graph N E) (ren : list (nat * nat)) (queue : list nat) : res (graph N E * list (nat * nat)) :=
  match queue with
  | [] => Ok (out, ren)
  | cur :: queue =>
      match fuel with
      | O => Panic
      | S fuel =>
          ' (out1, ren1) <- (match alookup ren cur with
                             | Some _ => Ok (out, ren)
                             | None => match node g cur with
                                       | Some w => let '(n, out') := add_node out w in Ok (out', (cur, n) :: ren)
                                       | None => Panic
                                       end
                             end) ;;
          ' (out2, ren2, queue2) <- foldM (prune_pred g) (preds g cur) (out1, ren1, queue) ;;
          prune_loop fuel g out2 ren2 queue2
      end
  end.
(** fhe_circuit.rs:546-553, the in-edges of one copied node. *)
Definition prune_edges g (ren : list (nat * nat)) (out : graph N E) (p : nat * nat) : res (graph N E) :=
  foldM (fun out (e : nat * nat * E) =>
           match alookup ren (fst (fst e)), alookup ren (snd (fst e)) with
           | Some s, Some t => add_edge out s t (snd e)
           | _, _ => Panic
           end) (in_edges g (fst p)) out.
(** fhe_circuit.rs:512-556. [order] is the iteration order of the hash map: any permutation of its entries. *)
Definition prune (order : list (nat * nat) -> list (nat * nat)) g (nodes : list nat) : res (graph N E * list (nat * nat)) :=
  ' (out, ren) <- prune_loop (length nodes + length (gnodes g)) g gempty [] nodes ;;
  out' <- foldM (prune_edges g ren) (order ren) out ;;
  Ok (out', ren).
End Prune.

(** * insert_ciphertext_conversion: fhe_circuit.rs:563-622 *)
Definition add_edges (g : fgraph) (es : list (nat * nat * fedge)) : res fgraph :=
  foldM (fun g (e : nat * nat * fedge) => add_edge g (fst (fst e)) (snd (fst e)) (snd e)) es g.
Definition convert_step (g : fgraph) (cur : nat) (t out : cty) : res (fgraph * nat * cty) :=
  let unary op next :=
    let '(i, g1) := add_node g op in g2 <- add_edges g1 [(cur, i, EUnary)] ;; Ok (g2, i, next) in
  match t with
  | TLwe0 => unary FCbs TGgsw1
  | TGgsw1 =>
      if cty_eqb out TGlev1 then
        let '(i, g1) := add_node g FGlevCMux in let '(z, g2) := add_node g1 (FZero TGlev1) in let '(o, g3) := add_node g2 (FOne TGlev1) in
        g4 <- add_edges g3 [(z, i, ELow); (o, i, EHigh); (cur, i, ESel)] ;; Ok (g4, i, out)
      else
        let '(i, g1) := add_node g FMultiply in let '(o, g2) := add_node g1 (FOne TGlwe1) in
        g3 <- add_edges g2 [(o, i, EGlwe); (cur, i, EGgsw)] ;; Ok (g3, i, TGlwe1)
  | TGlwe1 => unary (FSampleExtract 0) TLwe1
  | TLwe1 => unary FKeyswitch TLwe0
  | TGlev1 => unary FSchemeSwitch TGgsw1
  end.
(** The recursion; the fuel is the documented bound ("can recurse up to 4 times"), running out of it counts as a panic. *)
Fixpoint convert_rec (fuel : nat) (g : fgraph) (cur : nat) (t out : cty) : res (fgraph * nat) :=
  if cty_eqb t out then Ok (g, cur)
  else match fuel with
       | O => Panic
       | S fuel => ' (g', i, t') <- convert_step g cur t out ;; convert_rec fuel g' i t' out
       end.
Definition convert (g : fgraph) (cur : nat) (t out : cty) : res (fgraph * nat) := convert_rec 4 g cur t out.

(** * Whole circuits on GLWE inputs and outputs *)
(** fhe_circuit.rs:478-492, one input: a GLWE ciphertext (named r) is brought to GGSW form. *)
Definition connect_glwe (st : fgraph * list nat) (r : nat) : res (fgraph * list nat) :=
  let '(g, acc) := st in
  let '(i, g) := add_node g (FInput TGlwe1 r) in
  let '(se, g) := add_node g (FSampleExtract 0) in g <- add_edges g [(i, se, EUnary)] ;;
  let '(ks, g) := add_node g FKeyswitch in g <- add_edges g [(se, ks, EUnary)] ;;
  let '(cbs, g) := add_node g FCbs in g <- add_edges g [(ks, cbs, EUnary)] ;;
  Ok (g, acc ++ [cbs]).
(** fhe_circuit.rs:436-445, one output: p = (mux node, name of the fresh output ciphertext). *)
Definition emit_output (st : fgraph * list nat) (p : nat * nat) : res (fgraph * list nat) :=
  let '(g, acc) := st in
  let '(o, g) := add_node g (FOutput TGlwe1 (snd p)) in g <- add_edges g [(fst p, o, EUnary)] ;;
  Ok (g, acc ++ [o]).
(** fhe_circuit.rs:472-494 insert_mux_circuit_and_connect_inputs, with 425-468 inlined; the fresh output ciphertexts get the
    names base, base + 1, ... and the output nodes are returned. *)
Definition insert_and_connect (h : fgraph) (mc : mgraph) (inputs refs : list nat) (base : nat) : res (fgraph * list nat) :=
  ' (g, hosts) <- foldM connect_glwe refs (h, []) ;;
  ' (g, outs) <- insert_mux g mc inputs hosts MGlwe ;;
  foldM emit_output (combine outs (seq base (length outs))) (g, []).
