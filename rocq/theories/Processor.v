(** Model of the out-of-order processor: parasol_cpu/src/proc/fhe_processor.rs, parasol_cpu/src/tomasulo/*.rs and the operand
    columns of parasol_cpu/src/proc/assembly.rs.

    The main thread fetches, renames and dispatches instructions, executes ready ones and retires the plaintext ones; encrypted
    instructions are handed to the circuit processor and retired by a pool thread. The model is a transition system whose steps are
    the atomic actions of the code: any enabled step of the main thread or of any retirement may happen next.

    Simplifications.
    - An encrypted instruction writes the handles of its (not yet computed) result ciphertexts into its destination when it is
      executed, and retires when its circuit is done. The model gives the destination its final bits at execution; nothing reads
      them before retirement except the test whether the register is encrypted. A spawned circuit always completes without an error
      (CircuitProc.v; Props_Proc.v).
    - Linking to one dependency (try_lock, push, fetch_add, unlock: lines 357-362) is one step, a critical section of the main
      thread; hence only retired instructions are ever seen locked.
    - Memory is sequentially consistent. [nat] arithmetic replaces usize counters.
    - Error values are identified up to their kind (Base.err). *)
From Verif Require Import Base Alu Memory Isa.
Open Scope nat_scope.

(** * Instructions *)

(** assembly.rs:364-480: how many of the leading register operands are destinations. *)
Definition num_dst (o : opcode) : nat :=
  match o with
  | OStore | OBranchNonZero | OBranchZero | OBranch | ORet | ODbg => 0
  | OAddC | OSubB => 2
  | _ => 1
  end.
Definition is_freg (f : field) : bool := match f with FReg => true | _ => false end.
Definition num_reg (o : opcode) : nat := length (filter is_freg (shape o)).
Definition dst_regs (i : instr) : list Z := firstn (num_dst (op i)) (operands i).
Definition src_regs (i : instr) : list Z := firstn (num_reg (op i) - num_dst (op i)) (skipn (num_dst (op i)) (operands i)).
Definition metas (i : instr) : list Z := skipn (num_reg (op i)) (operands i).

Definition is_cipher_reg (r : reg) : bool := match r with RCipher _ _ => true | _ => false end.
Definition one_dst (r : res reg) : M (list reg) := mres (x <- r ;; Ok [x]).
Definition two_dst (r : res (reg * reg)) : M (list reg) := mres (' (x, y) <- r ;; Ok [x; y]).

(** fhe_processor.rs:761-905 exec_instruction and ops/*.rs: what an instruction computes from its source registers and memory, i.e.
    the values of its destination registers. The operands of a decoded instruction always have the right number (assembly.rs). *)
Definition exec_instr (p : profile) (i : instr) (srcs : list reg) : M (list reg) :=
  match op i, srcs, metas i with
  | OLoad, [s], [w; off] => x <-- mread (op_load s off w) ;; mret [x]
  | OStore, [d; s], [w; off] =>
      (* store.rs:23-26: the pointer is borrowed mutably before the value is borrowed; try_read().unwrap() *)
      match src_regs i with
      | [a; b] => if (a =? b)%Z then mres Panic else _ <-- op_store p s d off w ;; mret []
      | _ => mres Panic
      end
  | OLoadI, [], [imm; w] => one_dst (op_loadi p imm w)
  | OTrunc, [s], [w] => one_dst (op_trunc p s w)
  | OZext, [s], [w] => one_dst (op_ext p false s w)
  | OSext, [s], [w] => one_dst (op_ext p true s w)
  | OMove, [s], [] => one_dst (op_mov s)
  | ONot, [s], [] => one_dst (op_not p s)
  | ONeg, [s], [] => one_dst (op_neg p s)
  | OAnd, [a; b], [] => one_dst (op_and p a b)
  | OOr, [a; b], [] => one_dst (op_or p a b)
  | OXor, [a; b], [] => one_dst (op_xor p a b)
  | OAdd, [a; b], [] => one_dst (op_add p a b)
  | OSub, [a; b], [] => one_dst (op_sub p a b)
  | OMul, [a; b], [] => one_dst (op_mul p a b)
  | OAddC, [a; b; c], [] => two_dst (op_add_carry p a b c)
  | OSubB, [a; b; c], [] => two_dst (op_sub_borrow p a b c)
  | ORotl, [a; b], [] => one_dst (op_shift p SRotl a b)
  | ORotr, [a; b], [] => one_dst (op_shift p SRotr a b)
  | OShl, [a; b], [] => one_dst (op_shift p SShl a b)
  | OShr, [a; b], [] => one_dst (op_shift p SShr a b)
  | OShra, [a; b], [] => one_dst (op_shift p SShra a b)
  | OCmpEq, [a; b], [] => one_dst (op_cmp p CEq a b)
  | OCmpGt, [a; b], [] => one_dst (op_cmp p (COrd false true false) a b)
  | OCmpGe, [a; b], [] => one_dst (op_cmp p (COrd false true true) a b)
  | OCmpLt, [a; b], [] => one_dst (op_cmp p (COrd false false false) a b)
  | OCmpLe, [a; b], [] => one_dst (op_cmp p (COrd false false true) a b)
  | OCmpGtS, [a; b], [] => one_dst (op_cmp p (COrd true true false) a b)
  | OCmpGeS, [a; b], [] => one_dst (op_cmp p (COrd true true true) a b)
  | OCmpLtS, [a; b], [] => one_dst (op_cmp p (COrd true false false) a b)
  | OCmpLeS, [a; b], [] => one_dst (op_cmp p (COrd true false true) a b)
  | OCmux, [c; a; b], [] => one_dst (op_cmux p c a b)
  | OBranchNonZero, [_], [_] | OBranchZero, [_], [_] | OBranch, [], [_] | ORet, [], [] | ODbg, [_], [_] => mret []
  | _, _, _ => mres Panic
  end.

(** ops/*.rs: whether a successful execution hands a circuit to the circuit processor (spawn_graph) instead of retiring at once. *)
Definition spawns (i : instr) (srcs : list reg) : bool :=
  match op i with
  | OAdd | OSub | OMul | OAnd | OOr | OXor | ONot | ONeg | OAddC | OSubB
  | OCmpEq | OCmpGt | OCmpGe | OCmpLt | OCmpLe | OCmpGtS | OCmpGeS | OCmpLtS | OCmpLeS => existsb is_cipher_reg srcs
  | ORotl | ORotr | OShl | OShr | OShra => match srcs with [_; s] => is_cipher_reg s | _ => false end
  | OCmux => match srcs with c :: _ => is_cipher_reg c | _ => false end
  | _ => false
  end.

(** fhe_processor.rs:140-205: the addresses a load or store touches. *)
Definition footprint (i : instr) (srcs : list reg) : res (list Z) :=
  let go (ptr : reg) (w off : Z) :=
    match ptr with
    | RPlain v _ =>
        let n := (w / 8)%Z in
        addr <- ptr_signed_offset (uwrap 32 v) off ;;
        if invalid_alignment addr n then Err EUnaligned
        else mapM (fun k => unwrap (ptr_offset addr (Z.of_nat k))) (seq 0 (Z.to_nat n))
    | RCipher _ _ => Err EIllegalOperands
    end in
  match op i, srcs, metas i with
  | OLoad, [s], [w; off] => go s w off
  | OStore, [d; _], [w; off] => go d w off
  | _, _, _ => Ok []
  end.

(** fhe_processor.rs:207-297 compute_gas, on the values the source registers hold when the instruction is dispatched. *)
Definition compute_gas (i : instr) (srcs : list reg) : Z :=
  let c b (g : Z) := if b : bool then g else 1%Z in
  match op i with
  | OLoad | OLoadI | OStore | OBranchNonZero | OBranchZero | OBranch | OMove | ODbg | OSext | OZext | OTrunc => 1%Z
  | OMul => c (existsb is_cipher_reg srcs) 500000%Z
  | ORotl | ORotr | OShl | OShr | OShra => c (match srcs with [_; s] => is_cipher_reg s | _ => false end) 100000%Z
  | ORet => 0%Z
  | _ => c (existsb is_cipher_reg srcs) 100000%Z
  end.

(** fhe_processor.rs:911-946 next_program_counter. *)
Inductive next := NGoto (pc : Z) | NHalt.
Definition next_pc (p : profile) (i : instr) (srcs : list reg) (pc : Z) : res next :=
  let seqp := x <- uadd p 32 pc 8 ;; Ok (NGoto x) in
  match op i, srcs, metas i with
  | OBranchNonZero, [RPlain v _], [off] => if negb (v =? 0)%Z then Ok (NGoto (uwrap 32 (pc + off))) else seqp
  | OBranchZero, [RPlain v _], [off] => if (v =? 0)%Z then Ok (NGoto (uwrap 32 (pc + off))) else seqp
  | OBranchNonZero, _, _ | OBranchZero, _, _ => Err EBranchOnCiphertext
  | OBranch, _, [off] => Ok (NGoto (uwrap 32 (pc + off)))
  | ORet, _, _ => Ok NHalt
  | _, _, _ => seqp
  end.

(** fhe_processor.rs:664-665: fetch and decode. *)
Definition fetch (m : mem) (pc : Z) : res instr := w <- try_load_plaintext_dword pc m ;; decode w.

(** * The transition system *)

(** A physical register: the value register r had when the program started, or the q-th destination of instruction j
    (registers.rs:38-64 rename creates one; a rename entry remembers its producer j). *)
Inductive rid := RInit (r : Z) | RDst (j q : nat).
Definition producer (x : rid) : list nat := match x with RInit _ => [] | RDst j _ => [j] end.

(** scoreboard.rs ScoreboardEntry and the dispatched operation. *)
Record entry := { e_ins : instr; e_pc : Z; e_src : list rid; e_deps : list nat; e_foot : list Z; e_gas : Z }.

(** Where an instruction is: not dispatched; waiting for dependencies; in the channel; executed with this result and about to
    publish a fault; about to lock its dependents; releasing them; retired. *)
Inductive phase := PNone | PBlocked | PQueued | PRet (r : option err) | PLock (r : option err) | PDrain (r : option err) | PDone.
(** Outcome of an instruction: not executed; executed; failed; skipped because of an earlier fault. *)
Inductive xst := XNo | XOk | XFail | XSkip.
(** tomasulo_processor.rs:34-37. *)
Inductive msg := MExec (j : nat) | MRetire (r : option err).
(** Where the main thread is: about to fetch; linking instruction n to the remaining dependencies ds; processing the channel
    (for dispatch n, or in the final wait); retiring j; about to record an error of the front end; finished; panicked. *)
Inductive front :=
| FFetch | FLink (n : nat) (ds : list nat) | FPump (o : option nat) | FBusy (o : option nat) (j : nat) | FFail (e : err) | FEnd | FAbort.

Record cpu := {
  fe : front;  (* where the front end is *)
  pcv : Z;  (* program counter (u32) *)
  gasv : Z;  (* gas counted so far (u32) *)
  ents : list entry;  (* instructions dispatched, in program order *)
  rm : Z -> rid;  (* rename table *)
  mops : Z -> option nat;  (* inflight_memory_ops *)
  ph : nat -> phase;  (* where each instruction is *)
  nd : nat -> nat;  (* deps counter *)
  dl : nat -> list nat;  (* dependents, last pushed first *)
  dv : nat -> list reg;  (* values of the destination registers *)
  chan : list msg;  (* ready_instructions channel *)
  infl : nat;  (* instructions_inflight *)
  fault : option err;  (* fault cell *)
  mm : mem;  (* memory *)
  dbg : list (nat * reg);  (* calls of debug handlers: instruction id, value *)
  xs : nat -> xst;  (* (statements only) outcome of each instruction *)
  hazard : bool;  (* (statements only) a pending value was consulted *)
  leak : nat  (* (statements only) instructions counted but never queued *)
}.
Definition set_fe (v : front) (s : cpu) : cpu := {| fe := v; pcv := pcv s; gasv := gasv s; ents := ents s; rm := rm s; mops := mops s; ph := ph s; nd := nd s; dl := dl s; dv := dv s; chan := chan s; infl := infl s; fault := fault s; mm := mm s; dbg := dbg s; xs := xs s; hazard := hazard s; leak := leak s |}.
Definition set_pcv (v : Z) (s : cpu) : cpu := {| fe := fe s; pcv := v; gasv := gasv s; ents := ents s; rm := rm s; mops := mops s; ph := ph s; nd := nd s; dl := dl s; dv := dv s; chan := chan s; infl := infl s; fault := fault s; mm := mm s; dbg := dbg s; xs := xs s; hazard := hazard s; leak := leak s |}.
Definition set_gasv (v : Z) (s : cpu) : cpu := {| fe := fe s; pcv := pcv s; gasv := v; ents := ents s; rm := rm s; mops := mops s; ph := ph s; nd := nd s; dl := dl s; dv := dv s; chan := chan s; infl := infl s; fault := fault s; mm := mm s; dbg := dbg s; xs := xs s; hazard := hazard s; leak := leak s |}.
Definition set_ents (v : list entry) (s : cpu) : cpu := {| fe := fe s; pcv := pcv s; gasv := gasv s; ents := v; rm := rm s; mops := mops s; ph := ph s; nd := nd s; dl := dl s; dv := dv s; chan := chan s; infl := infl s; fault := fault s; mm := mm s; dbg := dbg s; xs := xs s; hazard := hazard s; leak := leak s |}.
Definition set_rm (v : Z -> rid) (s : cpu) : cpu := {| fe := fe s; pcv := pcv s; gasv := gasv s; ents := ents s; rm := v; mops := mops s; ph := ph s; nd := nd s; dl := dl s; dv := dv s; chan := chan s; infl := infl s; fault := fault s; mm := mm s; dbg := dbg s; xs := xs s; hazard := hazard s; leak := leak s |}.
Definition set_mops (v : Z -> option nat) (s : cpu) : cpu := {| fe := fe s; pcv := pcv s; gasv := gasv s; ents := ents s; rm := rm s; mops := v; ph := ph s; nd := nd s; dl := dl s; dv := dv s; chan := chan s; infl := infl s; fault := fault s; mm := mm s; dbg := dbg s; xs := xs s; hazard := hazard s; leak := leak s |}.
Definition set_ph (v : nat -> phase) (s : cpu) : cpu := {| fe := fe s; pcv := pcv s; gasv := gasv s; ents := ents s; rm := rm s; mops := mops s; ph := v; nd := nd s; dl := dl s; dv := dv s; chan := chan s; infl := infl s; fault := fault s; mm := mm s; dbg := dbg s; xs := xs s; hazard := hazard s; leak := leak s |}.
Definition set_nd (v : nat -> nat) (s : cpu) : cpu := {| fe := fe s; pcv := pcv s; gasv := gasv s; ents := ents s; rm := rm s; mops := mops s; ph := ph s; nd := v; dl := dl s; dv := dv s; chan := chan s; infl := infl s; fault := fault s; mm := mm s; dbg := dbg s; xs := xs s; hazard := hazard s; leak := leak s |}.
Definition set_dl (v : nat -> list nat) (s : cpu) : cpu := {| fe := fe s; pcv := pcv s; gasv := gasv s; ents := ents s; rm := rm s; mops := mops s; ph := ph s; nd := nd s; dl := v; dv := dv s; chan := chan s; infl := infl s; fault := fault s; mm := mm s; dbg := dbg s; xs := xs s; hazard := hazard s; leak := leak s |}.
Definition set_dv (v : nat -> list reg) (s : cpu) : cpu := {| fe := fe s; pcv := pcv s; gasv := gasv s; ents := ents s; rm := rm s; mops := mops s; ph := ph s; nd := nd s; dl := dl s; dv := v; chan := chan s; infl := infl s; fault := fault s; mm := mm s; dbg := dbg s; xs := xs s; hazard := hazard s; leak := leak s |}.
Definition set_chan (v : list msg) (s : cpu) : cpu := {| fe := fe s; pcv := pcv s; gasv := gasv s; ents := ents s; rm := rm s; mops := mops s; ph := ph s; nd := nd s; dl := dl s; dv := dv s; chan := v; infl := infl s; fault := fault s; mm := mm s; dbg := dbg s; xs := xs s; hazard := hazard s; leak := leak s |}.
Definition set_infl (v : nat) (s : cpu) : cpu := {| fe := fe s; pcv := pcv s; gasv := gasv s; ents := ents s; rm := rm s; mops := mops s; ph := ph s; nd := nd s; dl := dl s; dv := dv s; chan := chan s; infl := v; fault := fault s; mm := mm s; dbg := dbg s; xs := xs s; hazard := hazard s; leak := leak s |}.
Definition set_fault (v : option err) (s : cpu) : cpu := {| fe := fe s; pcv := pcv s; gasv := gasv s; ents := ents s; rm := rm s; mops := mops s; ph := ph s; nd := nd s; dl := dl s; dv := dv s; chan := chan s; infl := infl s; fault := v; mm := mm s; dbg := dbg s; xs := xs s; hazard := hazard s; leak := leak s |}.
Definition set_mm (v : mem) (s : cpu) : cpu := {| fe := fe s; pcv := pcv s; gasv := gasv s; ents := ents s; rm := rm s; mops := mops s; ph := ph s; nd := nd s; dl := dl s; dv := dv s; chan := chan s; infl := infl s; fault := fault s; mm := v; dbg := dbg s; xs := xs s; hazard := hazard s; leak := leak s |}.
Definition set_dbg (v : list (nat * reg)) (s : cpu) : cpu := {| fe := fe s; pcv := pcv s; gasv := gasv s; ents := ents s; rm := rm s; mops := mops s; ph := ph s; nd := nd s; dl := dl s; dv := dv s; chan := chan s; infl := infl s; fault := fault s; mm := mm s; dbg := v; xs := xs s; hazard := hazard s; leak := leak s |}.
Definition set_xs (v : nat -> xst) (s : cpu) : cpu := {| fe := fe s; pcv := pcv s; gasv := gasv s; ents := ents s; rm := rm s; mops := mops s; ph := ph s; nd := nd s; dl := dl s; dv := dv s; chan := chan s; infl := infl s; fault := fault s; mm := mm s; dbg := dbg s; xs := v; hazard := hazard s; leak := leak s |}.
Definition set_hazard (v : bool) (s : cpu) : cpu := {| fe := fe s; pcv := pcv s; gasv := gasv s; ents := ents s; rm := rm s; mops := mops s; ph := ph s; nd := nd s; dl := dl s; dv := dv s; chan := chan s; infl := infl s; fault := fault s; mm := mm s; dbg := dbg s; xs := xs s; hazard := v; leak := leak s |}.
Definition set_leak (v : nat) (s : cpu) : cpu := {| fe := fe s; pcv := pcv s; gasv := gasv s; ents := ents s; rm := rm s; mops := mops s; ph := ph s; nd := nd s; dl := dl s; dv := dv s; chan := chan s; infl := infl s; fault := fault s; mm := mm s; dbg := dbg s; xs := xs s; hazard := hazard s; leak := v |}.

Definition upd {A} (f : nat -> A) (i : nat) (v : A) : nat -> A := fun k => if k =? i then v else f k.
Definition set_first (a : option err) (b : option err) : option err := match a with Some _ => a | None => b end.

Section System.
Context (p : profile) (glim : option Z) (r0 : Z -> reg) (m0 : mem) (pc0 : Z).

(** fhe_processor.rs:593-609, 651-662. *)
Definition cpu_init : cpu :=
  {| fe := FFetch; pcv := pc0; gasv := 0%Z; ents := []; rm := RInit; mops := fun _ => None; ph := fun _ => PNone; nd := fun _ => 0;
     dl := fun _ => []; dv := fun _ => []; chan := []; infl := 0; fault := None; mm := m0; dbg := []; xs := fun _ => XNo; hazard := false; leak := 0 |}.

(** The current contents of a physical register; a fresh one holds the default (registers.rs:293-299). *)
Definition rob (s : cpu) (x : rid) : reg := match x with RInit r => r0 r | RDst j q => nth q (dv s j) reg_default end.

(** (Statements only) the value is final: nobody has yet to write it. *)
Definition settled (s : cpu) (j : nat) : bool := match xs s j with XOk => true | _ => false end.
Definition resolved (s : cpu) (x : rid) : bool := match x with RInit _ => true | RDst j _ => settled s j end.
Definition consult (s : cpu) (ok : bool) : bool := hazard s || (match fault s with None => negb ok | Some _ => false end).
(** The registers a load, store or conditional branch consults while it is being dispatched. *)
Definition address_reg (i : instr) (srcs : list rid) : list rid :=
  match op i with OLoad | OStore => firstn 1 srcs | _ => [] end.
Definition condition_reg (i : instr) (srcs : list rid) : list rid :=
  match op i with OBranchNonZero | OBranchZero => srcs | _ => [] end.
Definition code_clear (s : cpu) (pc : Z) : bool :=
  forallb (fun k => match mops s (pc + Z.of_nat k)%Z with None => true | Some j => settled s j end) (seq 0 8).

(** assembly.rs:302-307: destinations are renamed in order. *)
Fixpoint rename (n q : nat) (ds : list Z) (f : Z -> rid) : Z -> rid :=
  match ds with [] => f | d :: ds => rename n (S q) ds (fun r => if (r =? d)%Z then RDst n q else f r) end.

(** fhe_processor.rs:181-193. *)
Definition mem_deps (s : cpu) (foot : list Z) : list nat := flat_map (fun a => match mops s a with Some j => [j] | None => [] end) foot.
Definition touch (n : nat) (foot : list Z) (f : Z -> option nat) : Z -> option nat := fun a => if existsb (Z.eqb a) foot then Some n else f a.

(** fhe_processor.rs:671-690: the front end stops with an error. *)
Definition fail_with {A} (r : res A) (s : cpu) : cpu := match r with Err e => set_fe (FFail e) s | _ => set_fe FAbort s end.

(** fhe_processor.rs:300-354: dispatch up to the loop over the dependencies. Renaming before the gas check is not modelled: after the
    error no register is read again. The counter is incremented before the address is computed, and not decremented on failure. *)
Definition dispatch (i : instr) (s : cpu) : cpu :=
  let n := length (ents s) in
  let srcs := map (rm s) (src_regs i) in
  let vals := map (rob s) srcs in
  let g := compute_gas i vals in
  if match glim with Some l => (l <? g)%Z | None => false end then set_fe (FFail EOutOfGas) s
  else
    let s := set_hazard (consult s (forallb (resolved s) (address_reg i srcs))) s in
    let s := set_infl (infl s + 1) s in
    match footprint i vals with
    | Ok foot =>
        let deps := flat_map producer srcs ++ mem_deps s foot in
        set_fe (FLink n deps) (set_nd (upd (nd s) n 1) (set_ph (upd (ph s) n PBlocked) (set_mops (touch n foot (mops s))
          (set_rm (rename n 0 (dst_regs i) (rm s))
          (set_ents (ents s ++ [{| e_ins := i; e_pc := pcv s; e_src := srcs; e_deps := deps; e_foot := foot; e_gas := g |}]) s)))))
    | r => fail_with r (set_leak (leak s + 1) s)
    end.

(** fhe_processor.rs:661-669: check for a fault, fetch, decode. *)
Definition fetch_step (s : cpu) : cpu :=
  match fault s with
  | Some _ => set_fe (FPump None) s
  | None =>
      let s := set_hazard (consult s (code_clear s (pcv s))) s in
      match fetch (mm s) (pcv s) with
      | Ok i => dispatch i s
      | r => fail_with r s
      end
  end.

(** fhe_processor.rs:369-377 and 488-496: decrement a counter and queue the instruction when it reaches zero. *)
Definition release (d : nat) (s : cpu) : cpu :=
  let s' := set_nd (upd (nd s) d (nd s d - 1)) s in
  if nd s d =? 1 then set_chan (chan s' ++ [MExec d]) (set_ph (upd (ph s') d PQueued) s') else s'.

(** scoreboard.rs / spinlock: the list of dependents of a retired instruction stays locked. *)
Definition locked (s : cpu) (d : nat) : bool := match ph s d with PDrain _ | PDone => true | _ => false end.

(** fhe_processor.rs:355-377. *)
Definition link_step (n : nat) (ds : list nat) (s : cpu) : cpu :=
  match ds with
  | [] => set_fe (FPump (Some n)) (release n s)
  | d :: ds =>
      if d =? n then set_fe FAbort s                                                 (* assert_ne!, line 355 *)
      else if locked s d then set_fe (FLink n ds) s
      else set_fe (FLink n ds) (set_nd (upd (nd s) n (nd s n + 1)) (set_dl (upd (dl s) d (n :: dl s d)) s))
  end.

(** fhe_processor.rs:745-905 exec_instruction. *)
Definition exec_step (o : option nat) (j : nat) (s : cpu) : cpu :=
  match fault s, nth_error (ents s) j with
  | _, None => set_fe FAbort s
  | Some _, Some _ => set_fe (FBusy o j) (set_ph (upd (ph s) j (PRet None)) (set_xs (upd (xs s) j XSkip) s))
  | None, Some e =>
      let vals := map (rob s) (e_src e) in
      match exec_instr p (e_ins e) vals (mm s) with
      | (m, Ok vs) =>
          let s := set_xs (upd (xs s) j XOk) (set_dv (upd (dv s) j vs) (set_mm m s)) in
          let s := match op (e_ins e) with ODbg => set_dbg (dbg s ++ map (fun v => (j, v)) vals) s | _ => s end in
          let s := set_ph (upd (ph s) j (PRet None)) s in
          if spawns (e_ins e) vals then set_fe (FPump o) s else set_fe (FBusy o j) s
      | (m, Err x) => set_fe (FBusy o j) (set_ph (upd (ph s) j (PRet (Some x))) (set_xs (upd (xs s) j XFail) (set_mm m s)))
      | (m, Panic) => set_fe FAbort s
      end
  end.

(** fhe_processor.rs:436-458: one message. *)
Definition recv_step (o : option nat) (m : msg) (s : cpu) : cpu :=
  match m with
  | MRetire r => set_infl (infl s - 1) (set_fault (set_first (fault s) r) s)
  | MExec j => exec_step o j s
  end.

(** fhe_processor.rs:382, 671-683: the next program counter, the gas total. *)
Definition next_step (n : nat) (s : cpu) : cpu :=
  match nth_error (ents s) n with
  | None => set_fe FAbort s
  | Some e =>
      let s := set_hazard (consult s (forallb (resolved s) (condition_reg (e_ins e) (e_src e)))) s in
      match next_pc p (e_ins e) (map (rob s) (e_src e)) (e_pc e) with
      | Ok NHalt => set_fe (FPump None) s
      | Ok (NGoto pc) => match uadd p 32 (gasv s) (e_gas e) with Ok g => set_fe FFetch (set_gasv g (set_pcv pc s)) | _ => set_fe FAbort s end
      | r => fail_with r s
      end
  end.

(** The main thread. *)
Definition main_step (s : cpu) : option cpu :=
  match fe s with
  | FFetch => Some (fetch_step s)
  | FLink n ds => Some (link_step n ds s)
  | FPump (Some n) =>
      match chan s with
      | [] => Some (next_step n s)
      | m :: rest => Some (recv_step (Some n) m (set_chan rest s))
      end
  | FPump None =>
      if infl s =? 0 then Some (set_fe FEnd s)
      else match chan s with [] => None | m :: rest => Some (recv_step None m (set_chan rest s)) end
  | FBusy o j => match ph s j with PDone => Some (set_fe (FPump o) s) | _ => None end
  | FFail e => Some (set_fe (FPump None) (set_fault (set_first (fault s) (Some e)) s))
  | FEnd | FAbort => None
  end.

(** fhe_processor.rs:474-510 retire, run by the main thread (which then is in FBusy) or by a pool thread. *)
Definition retire_step (j : nat) (s : cpu) : option cpu :=
  match ph s j with
  | PRet r => Some (set_ph (upd (ph s) j (PLock r)) (set_fault (set_first (fault s) r) s))
  | PLock r => Some (set_ph (upd (ph s) j (PDrain r)) s)
  | PDrain r =>
      match dl s j with
      | d :: rest => Some (release d (set_dl (upd (dl s) j rest) s))
      | [] => Some (set_chan (chan s ++ [MRetire r]) (set_ph (upd (ph s) j PDone) s))
      end
  | _ => None
  end.

Inductive label := LMain | LRet (j : nat).
Definition stepf (l : label) (s : cpu) : option cpu := match l with LMain => main_step s | LRet j => retire_step j s end.
Definition step (s s' : cpu) : Prop := exists l, stepf l s = Some s'.
Inductive reach : cpu -> Prop :=
| reach_init : reach cpu_init
| reach_step : forall s s', reach s -> step s s' -> reach s'.
Fixpoint runf (ls : list label) (s : cpu) : option cpu := match ls with [] => Some s | l :: ls => match stepf l s with Some s => runf ls s | None => None end end.

(** fhe_processor.rs:692-711: what run_program_with_options returns once the front end has finished: the first fault, or the gas and
    the bytes of the return value. *)
Definition cpu_result (ret_size rp : Z) (s : cpu) : res (Z * list byte) :=
  match fault s with Some e => Err e | None => b <- capture_return ret_size rp (mm s) ;; Ok (gasv s, b) end.
End System.

(** fhe_processor.rs:574-588, 593-601: the register file a program starts with: zero except the return pointer (x10) and the stack
    pointer (x2). *)
Definition initial_regs (rp spv : Z) : Z -> reg :=
  fun r => if (r =? 2)%Z then RPlain spv 32 else if (r =? 10)%Z then RPlain rp 32 else RPlain 0 32.
