(** Properties of the out-of-order processor (C36-C40, C69, C75). The model is Processor.v; the reference machine that runs one
    instruction at a time is in SpecCpu.v. *)
From Coq Require Import ZifyBool ZifyNat.
From Verif Require Import Base Alu Memory Isa SpecMem Processor SpecCpu ProcessorProofs7 ProcessorProofs8 ProcessorProofs9 ProcessorProofs10 ProcessorProofs11 CpuExamples.
Open Scope nat_scope.

(** A run starts with these registers, this memory and this program counter. *)
Definition start (r0 : Z -> reg) (m0 : mem) (pc0 : Z) : mach := {| m_pc := pc0; m_regs := r0; m_mem := m0 |}.

(** C75. A direct program (SpecCpu.direct) that halts one instruction at a time, with enough gas: whatever the schedule, the
    processor's run is finite, never blocks before its end, reports no fault, and ends with the registers, memory and return value
    of program order. *)
Theorem direct_programs_run_in_program_order : forall p glim r0 m0 pc0 N s' ret_size rp, (0 <= pc0)%Z -> (0 <= rp)%Z ->
  direct p (start r0 m0 pc0) -> seq_halts p (start r0 m0 pc0) N s' ->
  (p = Release \/ forall k s1 g, gas_run p (start r0 m0 pc0) k s1 g -> (g < 2 ^ 32)%Z) ->
  (forall l k s1, glim = Some l -> seq_run p (start r0 m0 pc0) k s1 -> (seq_gas s1 <= l)%Z) ->
  Acc (fun y x => step p glim r0 x y) (cpu_init m0 pc0) /\
  forall s, reach p glim r0 m0 pc0 s -> fault s = None /\
    ((exists s2, step p glim r0 s s2) \/
     fe s = FEnd /\ length (ents s) = N /\ same_regs (fun r => rob r0 s (rm s r)) (m_regs s') /\ same_mem (mm s) (m_mem s') /\
     cpu_result ret_size rp s = (b <- capture_return ret_size rp (m_mem s') ;; Ok (gasv s, b))).
Proof.
  intros p glim r0 m0 pc0 N s' n rp P P' D H G A. destruct (ooo_total p glim r0 m0 pc0 N s' P D H G) as [F R].
  { unfold affordable. destruct glim as [l|] eqn:E; [|exact Logic.I]. intros k s1. now apply A. }
  split; [exact F|]. intros s RS. destruct (R s RS) as (_ & Fa & [S2|(FE & L & RG & MM)]); (split; [exact Fa|]); [left; exact S2|right].
  split; [exact FE|]. split; [exact L|]. split; [exact RG|]. split; [exact MM|]. unfold cpu_result. rewrite Fa. now rewrite (return_same n rp _ _ P' MM).
Qed.
(** ... and the instructions it dispatches are those of program order. *)
Theorem direct_programs_branch_correctly : forall p glim r0 m0 pc0 s k e, (0 <= pc0)%Z -> direct p (start r0 m0 pc0) -> ~ seq_faults p (start r0 m0 pc0) ->
  reach p glim r0 m0 pc0 s -> fe s <> FAbort -> nth_error (ents s) k = Some e ->
  exists s1, seq_run p (start r0 m0 pc0) k s1 /\ m_pc s1 = e_pc e /\ fetch (m_mem s1) (m_pc s1) = Ok (e_ins e).
Proof.
  intros p glim r0 m0 pc0 s k e P D NF R F E. destruct (reach_direct p glim r0 m0 pc0 NF D s P R) as [H _].
  destruct (dispatched_in_order p glim r0 m0 pc0 s k e P R H F E) as [X|X]; [contradiction|exact X].
Qed.

(** An encrypted value is doubled and written back, a loop counter in plaintext decides how often: hypotheses met, 16 instructions. *)
Definition loop_program : list instr :=
  [I_loadi 4 65536 32; I_loadi 2 3 32; I_loadi 6 4294967295 32; I_load 1 4 8 0; I_add 1 1 1; I_store 4 1 8 0; I_add 2 2 6; I_bnz 2 (-32); I_ret].
Definition loop_mem := load_program Debug loop_program.
Example direct_programs_ex : exists s', seq_halts Debug (start regs0 loop_mem 4096) 19 s' /\ direct Debug (start regs0 loop_mem 4096) /\
  (forall k s1 g, gas_run Debug (start regs0 loop_mem 4096) k s1 g -> (g < 2 ^ 32)%Z) /\
  (forall l k s1, Some 500000%Z = Some l -> seq_run Debug (start regs0 loop_mem 4096) k s1 -> (seq_gas s1 <= l)%Z) /\
  capture_return 1 65536 (m_mem s') = Ok [BCipher [false; false; false; true; true; false; false; false]].
Proof.
  assert (T : match walk Debug 100 (start regs0 loop_mem 4096) no_shadow with
              | Some (n, s) => n = 19 /\ capture_return 1 65536 (m_mem s) = Ok [BCipher [false; false; false; true; true; false; false; false]] | None => False end) by (vm_compute; split; reflexivity).
  destruct (walk Debug 100 (start regs0 loop_mem 4096) no_shadow) as [[n s]|] eqn:W; [|contradiction]. destruct T as [-> T]. exists s.
  pose proof (walk_halts _ _ _ _ _ _ W) as H. split; [exact H|]. split; [eapply walk_direct; eauto|]. split; [|split; [|exact T]].
  - intros k s1 g G. apply gas_run_max in G as [G R]. pose proof (halts_bound _ _ _ _ _ _ H R). lia.
  - intros l k s1 E _. injection E as <-. apply seq_gas_max.
Qed.
(** Both schedules of CpuExamples run it to the end. *)
Example direct_programs_runs : forall fast, let s := drive Debug (Some 500000%Z) regs0 fast 1000 (cpu_init loop_mem 4096) in
  fe s = FEnd /\ fault s = None /\ length (ents s) = 19 /\ capture_return 1 65536 (mm s) = Ok [BCipher [false; false; false; true; true; false; false; false]].
Proof. intros [|]; vm_compute; repeat split. Qed.
Print Assumptions direct_programs_run_in_program_order.
Print Assumptions direct_programs_branch_correctly.
Print Assumptions direct_programs_ex.

(** C36. For any program: a run in which no pending result was consulted for an address, a branch or an instruction fetch, and which
    ends without a fault, leaves the registers and memory of program order. *)
Theorem program_order_partial : forall p glim r0 m0 pc0 s, (0 <= pc0)%Z -> reach p glim r0 m0 pc0 s -> hazard s = false -> fe s = FEnd -> fault s = None ->
  exists s', seq_halts p (start r0 m0 pc0) (length (ents s)) s' /\ same_regs (fun r => rob r0 s (rm s r)) (m_regs s') /\ same_mem (mm s) (m_mem s').
Proof. exact ooo_end. Qed.
Print Assumptions program_order_partial.
(** The condition is needed even for programs without branches. An encrypted result is written to a cell, then a pointer is written
    to the same cell, loaded back and used for a store; the value stored is loaded through another register and returned. *)
Definition pointer_program : list instr :=
  [I_loadi 4 65536 32; I_load 1 4 8 0; I_add 3 1 1; I_store 4 3 8 0; I_loadi 2 65600 32; I_store 4 2 32 0; I_load 5 4 32 0;
   I_loadi 6 7 8; I_store 5 6 8 0; I_load 7 10 8 0; I_store 10 7 8 1; I_ret].
Definition pointer_mem := load_program Release pointer_program.
Theorem program_order_refuted :
  (forall i, In i pointer_program -> condition_regs i = [] /\ op i <> OBranch) /\
  (exists N s', seq_halts Release (start regs0 pointer_mem 4096) N s' /\ capture_return 1 65601 (m_mem s') = Ok [BPlain 7]) /\
  (exists s, reach Release None regs0 pointer_mem 4096 s /\ fe s = FEnd /\ exists g, cpu_result 1 65601 s = Ok (g, [BPlain 7])) /\
  (exists s, reach Release None regs0 pointer_mem 4096 s /\ fe s = FEnd /\ exists g, cpu_result 1 65601 s = Ok (g, [BPlain 0])).
Proof.
  split; [|split; [|split]].
  - intros i H. repeat (destruct H as [<-|H]; [split; [reflexivity|discriminate]|]). contradiction.
  - assert (T : match seq_walk Release 100 (start regs0 pointer_mem 4096) with Some (n, Ok s) => capture_return 1 65601 (m_mem s) = Ok [BPlain 7] | _ => False end) by (vm_compute; reflexivity).
    destruct (seq_walk Release 100 (start regs0 pointer_mem 4096)) as [[n [s| |]]|] eqn:W; try contradiction. exists n, s. split; [eapply seq_walk_halts; eauto|exact T].
  - exists (drive Release None regs0 true 1000 (cpu_init pointer_mem 4096)). split; [apply drive_reach|]. split; [vm_compute; reflexivity|]. eexists. vm_compute. reflexivity.
  - exists (drive Release None regs0 false 1000 (cpu_init pointer_mem 4096)). split; [apply drive_reach|]. split; [vm_compute; reflexivity|]. eexists. vm_compute. reflexivity.
Qed.
Print Assumptions program_order_refuted.

(** C37. In a run that has not consulted a pending result, the instructions dispatched are those of program order: every branch so
    far was decided by the value its condition has in program order. *)
Theorem branch_condition_partial : forall p glim r0 m0 pc0 s k e, (0 <= pc0)%Z -> reach p glim r0 m0 pc0 s -> hazard s = false -> fe s <> FAbort ->
  nth_error (ents s) k = Some e ->
  seq_faults p (start r0 m0 pc0) \/ exists s1, seq_run p (start r0 m0 pc0) k s1 /\ m_pc s1 = e_pc e /\ fetch (m_mem s1) (m_pc s1) = Ok (e_ins e).
Proof. exact dispatched_in_order. Qed.
Print Assumptions branch_condition_partial.
(** A branch on a register that holds a ciphertext is reported. *)
Theorem branch_on_ciphertext_reported_partial : forall p glim r0 s n e x, fe s = FPump (Some n) -> chan s = [] -> nth_error (ents s) n = Some e ->
  op (e_ins e) = OBranchNonZero \/ op (e_ins e) = OBranchZero -> map (rob r0 s) (e_src e) = [x] -> is_cipher_reg x = true ->
  exists s', main_step p glim r0 s = Some s' /\ fe s' = FFail EBranchOnCiphertext.
Proof.
  intros p glim r0 s n e x F C N O M X. unfold main_step. rewrite F, C. eexists. split; [reflexivity|]. unfold next_step. rewrite N. cbn [set_hazard].
  change (map (rob r0 (set_hazard (consult s (forallb (resolved s) (condition_reg (e_ins e) (e_src e)))) s))) with (map (rob r0 s)). rewrite M. destruct x as [|]; [discriminate|].
  unfold next_pc. destruct O as [-> | ->]; destruct (metas (e_ins e)) as [|? [|]]; reflexivity.
Qed.
Print Assumptions branch_on_ciphertext_reported_partial.
(** A plaintext condition loaded from a cell an encrypted result was written to before: program order branches and returns 1, the
    processor may fall through and return 0. *)
Definition branch_program : list instr :=
  [I_loadi 4 65536 32; I_load 1 4 8 0; I_add 3 1 1; I_store 4 3 8 0; I_loadi 2 1 8; I_store 4 2 8 0; I_load 5 4 8 0; I_bnz 5 16; I_ret; I_store 10 2 8 0; I_ret].
Definition branch_mem := load_program Release branch_program.
Theorem branch_condition_refuted :
  (exists N s', seq_halts Release (start regs0 branch_mem 4096) N s' /\ capture_return 1 65600 (m_mem s') = Ok [BPlain 1]) /\
  (exists s, reach Release None regs0 branch_mem 4096 s /\ fe s = FEnd /\ exists g, cpu_result 1 65600 s = Ok (g, [BPlain 1])) /\
  (exists s, reach Release None regs0 branch_mem 4096 s /\ fe s = FEnd /\ exists g, cpu_result 1 65600 s = Ok (g, [BPlain 0])).
Proof.
  split; [|split].
  - assert (T : match seq_walk Release 100 (start regs0 branch_mem 4096) with Some (n, Ok s) => capture_return 1 65600 (m_mem s) = Ok [BPlain 1] | _ => False end) by (vm_compute; reflexivity).
    destruct (seq_walk Release 100 (start regs0 branch_mem 4096)) as [[n [s| |]]|] eqn:W; try contradiction. exists n, s. split; [eapply seq_walk_halts; eauto|exact T].
  - exists (drive Release None regs0 true 1000 (cpu_init branch_mem 4096)). split; [apply drive_reach|]. split; [vm_compute; reflexivity|]. eexists. vm_compute. reflexivity.
  - exists (drive Release None regs0 false 1000 (cpu_init branch_mem 4096)). split; [apply drive_reach|]. split; [vm_compute; reflexivity|]. eexists. vm_compute. reflexivity.
Qed.
Print Assumptions branch_condition_refuted.
(** A branch on an encrypted sum: program order reports it, the processor may silently take it for zero. *)
Definition secret_branch : list instr := [I_loadi 4 65536 32; I_load 1 4 8 0; I_add 3 1 1; I_add 6 3 3; I_bnz 6 16; I_ret; I_ret].
Definition secret_branch_mem := load_program Release secret_branch.
Theorem branch_on_ciphertext_refuted :
  (exists N s1, seq_run Release (start regs0 secret_branch_mem 4096) N s1 /\ seq_step Release s1 = Err EBranchOnCiphertext) /\
  (exists s, reach Release None regs0 secret_branch_mem 4096 s /\ fe s = FEnd /\ cpu_result 1 65600 s = Err EBranchOnCiphertext) /\
  (exists s, reach Release None regs0 secret_branch_mem 4096 s /\ fe s = FEnd /\ exists g, cpu_result 1 65600 s = Ok (g, [BPlain 0])).
Proof.
  split; [|split].
  - assert (T : match seq_walk Release 100 (start regs0 secret_branch_mem 4096) with Some (n, Err EBranchOnCiphertext) => True | _ => False end) by (vm_compute; exact Logic.I).
    destruct (seq_walk Release 100 (start regs0 secret_branch_mem 4096)) as [[n [s|e|]]|] eqn:W; try contradiction. destruct e; try contradiction. exists n. eapply seq_walk_fails; eauto.
  - exists (drive Release None regs0 true 1000 (cpu_init secret_branch_mem 4096)). split; [apply drive_reach|]. split; vm_compute; reflexivity.
  - exists (drive Release None regs0 false 1000 (cpu_init secret_branch_mem 4096)). split; [apply drive_reach|]. split; [vm_compute; reflexivity|]. eexists. vm_compute. reflexivity.
Qed.
Print Assumptions branch_on_ciphertext_refuted.

(** C38. A run that ends without a fault reports the sum of the gas of the instructions dispatched, modulo 2^32 (exactly, in a debug
    build), and no single instruction exceeds the limit. *)
Definition gas_of_all (es : list entry) : Z := fold_right (fun e a => (e_gas e + a)%Z) 0%Z es.
Theorem gas_limit_partial : forall p glim r0 m0 pc0 s, reach p glim r0 m0 pc0 s -> fe s = FEnd -> fault s = None ->
  gasv s = (gas_of_all (ents s) mod 2 ^ 32)%Z /\ (p = Debug -> gasv s = gas_of_all (ents s)) /\
  forall e, In e (ents s) -> (0 <= e_gas e)%Z /\ forall l, glim = Some l -> (e_gas e <= l)%Z.
Proof. exact gas_reported. Qed.
Print Assumptions gas_limit_partial.
(** An instruction that alone exceeds the limit is refused. *)
Theorem gas_limit_refuses : forall p l r0 s i, fe s = FFetch -> fault s = None -> fetch (mm s) (pcv s) = Ok i ->
  (l < compute_gas i (map (rob r0 s) (map (rm s) (src_regs i))))%Z ->
  exists s', main_step p (Some l) r0 s = Some s' /\ fe s' = FFail EOutOfGas /\ ents s' = ents s.
Proof.
  intros p l r0 s i F Fa Fe G. unfold main_step. rewrite F. eexists. split; [reflexivity|]. unfold fetch_step. rewrite Fa. cbn [set_hazard mm pcv]. rewrite Fe. unfold dispatch. cbn [set_hazard ents rm].
  change (map (rob r0 (set_hazard (consult s (code_clear s (pcv s))) s))) with (map (rob r0 s)). apply Z.ltb_lt in G. rewrite G. split; reflexivity.
Qed.
Print Assumptions gas_limit_refuses.
(** The total is not limited: with a limit of 150000 a program may be charged 200002. *)
Definition two_adds : list instr := [I_loadi 4 65536 32; I_load 1 4 8 0; I_add 3 1 1; I_add 6 3 3; I_ret].
Definition two_adds_mem := load_program Release two_adds.
Theorem gas_limit_refuted : exists s, reach Release (Some 150000%Z) regs0 two_adds_mem 4096 s /\ fe s = FEnd /\
  exists b, cpu_result 1 65600 s = Ok (200002%Z, b).
Proof.
  exists (drive Release (Some 150000%Z) regs0 true 1000 (cpu_init two_adds_mem 4096)). split; [apply drive_reach|]. split; [vm_compute; reflexivity|]. eexists. vm_compute. reflexivity.
Qed.
Print Assumptions gas_limit_refuted.

(** C69. The gas of a run depends on the schedule; it never exceeds the gas of program order. *)
Theorem gas_deterministic_partial : forall p glim r0 m0 pc0 s, (0 <= pc0)%Z -> reach p glim r0 m0 pc0 s -> hazard s = false -> fe s = FEnd -> fault s = None ->
  exists k s1 s' g, gas_run p (start r0 m0 pc0) k s1 g /\ seq_step p s1 = Ok (s', true) /\ (0 <= gasv s <= g + seq_gas s1)%Z.
Proof. exact ooo_gas. Qed.
Print Assumptions gas_deterministic_partial.
Definition three_adds : list instr := [I_loadi 4 65536 32; I_load 1 4 8 0; I_add 3 1 1; I_add 6 3 3; I_add 7 6 6; I_ret].
Definition three_adds_mem := load_program Release three_adds.
Theorem gas_deterministic_refuted :
  (exists s, reach Release None regs0 three_adds_mem 4096 s /\ fe s = FEnd /\ cpu_result 1 65600 s = Ok (300002%Z, [BPlain 0])) /\
  (exists s, reach Release None regs0 three_adds_mem 4096 s /\ fe s = FEnd /\ cpu_result 1 65600 s = Ok (200003%Z, [BPlain 0])) .
Proof.
  split.
  - exists (drive Release None regs0 true 1000 (cpu_init three_adds_mem 4096)). split; [apply drive_reach|]. split; vm_compute; reflexivity.
  - exists (drive Release None regs0 false 1000 (cpu_init three_adds_mem 4096)). split; [apply drive_reach|]. split; vm_compute; reflexivity.
Qed.
Print Assumptions gas_deterministic_refuted.

(** C39. The processor never blocks before its end, unless the address of a load or store could not be computed ([leak] counts
    these); once a fault is recorded the run finishes and reports it. *)
Theorem run_never_blocks_partial : forall p glim r0 m0 pc0 s, reach p glim r0 m0 pc0 s -> fe s <> FEnd -> fe s <> FAbort -> leak s = 0 -> exists s', step p glim r0 s s'.
Proof. exact progress. Qed.
Theorem fault_ends_run_partial : forall p glim r0 m0 pc0 s e, reach p glim r0 m0 pc0 s -> fault s = Some e -> fe s <> FAbort -> leak s = 0 ->
  Acc (fun y x => step p glim r0 x y /\ fe y <> FAbort) s /\
  forall s', steps p glim r0 s s' -> fe s' = FAbort \/ fault s' = Some e /\ (fe s' = FEnd \/ exists s2, step p glim r0 s' s2).
Proof. exact fault_finishes. Qed.
Print Assumptions run_never_blocks_partial.
Print Assumptions fault_ends_run_partial.
(** Whenever the address of the load or store about to be dispatched cannot be computed (it is unaligned, overflows or is encrypted),
    every continuation is finite, and none returns or panics: the run hangs. *)
Theorem bad_address_always_hangs : forall p glim r0 m0 pc0 s i x s1, reach p glim r0 m0 pc0 s -> fe s = FFetch -> fault s = None -> fetch (mm s) (pcv s) = Ok i ->
  (match glim with Some l => (compute_gas i (map (rob r0 s) (map (rm s) (src_regs i))) <= l)%Z | None => True end) ->
  footprint i (map (rob r0 s) (map (rm s) (src_regs i))) = Err x -> main_step p glim r0 s = Some s1 ->
  Acc (fun y x => step p glim r0 x y) s1 /\ forall s', steps p glim r0 s1 s' -> fe s' <> FEnd /\ fe s' <> FAbort.
Proof. exact bad_address_hangs. Qed.
Print Assumptions bad_address_always_hangs.
(** An unaligned load. *)
Definition unaligned : list instr := [I_load 1 10 32 1; I_ret].
Definition unaligned_mem := load_program Release unaligned.
Theorem fault_reported_refuted :
  seq_step Release (start regs0 unaligned_mem 4096) = Err EUnaligned /\
  (exists s, reach Release None regs0 unaligned_mem 4096 s /\ fault s = Some EUnaligned /\ fe s = FPump None /\ forall s', ~ step Release None regs0 s s').
Proof.
  split; [vm_compute; reflexivity|]. pose proof (drive_reach Release None regs0 unaligned_mem 4096 true 10) as R.
  assert (K : forall s, s = drive Release None regs0 true 10 (cpu_init unaligned_mem 4096) -> fault s = Some EUnaligned /\ fe s = FPump None /\ main_step Release None regs0 s = None /\ ents s = []).
  { intros s ->. split; [vm_compute; reflexivity|]. split; [vm_compute; reflexivity|]. split; vm_compute; reflexivity. }
  assert (P : forall s, s = drive Release None regs0 true 10 (cpu_init unaligned_mem 4096) -> forall j, ph s j = PNone) by (intros s ->; vm_compute; reflexivity).
  revert R K P. generalize (drive Release None regs0 true 10 (cpu_init unaligned_mem 4096)). intros s R K P. destruct (K s eq_refl) as (K1 & K2 & K3 & _). specialize (P s eq_refl).
  exists s. split; [exact R|]. split; [exact K1|]. split; [exact K2|]. intros s' (l & H). destruct l as [|j]; cbn [stepf] in H; [congruence|]. unfold retire_step in H. rewrite P in H. discriminate.
Qed.
Print Assumptions fault_reported_refuted.

(** C40. Once a fault is recorded, registers, memory and debug calls stay as they are, nothing more is dispatched, and that fault is
    what the run reports. *)
Theorem first_fault_wins : forall p glim r0 s e s' ret_size rp, fault s = Some e -> steps p glim r0 s s' ->
  mm s' = mm s /\ (forall r, rob r0 s' (rm s' r) = rob r0 s (rm s r)) /\ dbg s' = dbg s /\ ents s' = ents s /\ cpu_result ret_size rp s' = Err e.
Proof.
  intros p glim r0 s e s' n rp F ST. destruct (fault_freezes p glim r0 s e s' F ST) as (A & B & C & D & E). do 4 (split; [assumption|]). unfold cpu_result. now rewrite A.
Qed.
Print Assumptions first_fault_wins.
(** Two faulty instructions in flight: a store through a wild pointer, after an encrypted load of a mixed word. *)
Definition two_faults : list instr := [I_loadi 4 65536 32; I_load 1 4 32 0; I_loadi 2 1048576 32; I_store 2 4 32 0; I_store 10 4 32 0; I_ret].
Definition two_faults_mem := load_program Release two_faults.
Example first_fault_wins_ex : let s := drive Release None regs0 false 1000 (cpu_init two_faults_mem 4096) in
  fe s = FEnd /\ fault s <> None /\ capture_return 1 65600 (mm s) = Ok [BPlain 0].
Proof. vm_compute. repeat split. discriminate. Qed.

(** A store of a register through itself is accepted by the decoder and aborts the processor. *)
Definition self_store : list instr := [I_store 10 10 32 0; I_ret].
Example self_store_aborts : exists s, reach Release None regs0 (load_program Release self_store) 4096 s /\ fe s = FAbort.
Proof. exists (drive Release None regs0 true 100 (cpu_init (load_program Release self_store) 4096)). split; [apply drive_reach|vm_compute; reflexivity]. Qed.
