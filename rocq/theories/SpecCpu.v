(** Specification vocabulary for the processor theorems (not a model of code): a machine that runs one instruction at a time. *)
From Verif Require Import Base Alu Memory Isa SpecMem Processor.
Open Scope nat_scope.

(** Program counter, registers, memory. *)
Record mach := { m_pc : Z; m_regs : Z -> reg; m_mem : mem }.

(** Write the values to the registers, in order (a missing value counts as the default register). *)
Fixpoint write_regs (ds : list Z) (vs : list reg) (f : Z -> reg) : Z -> reg :=
  match ds with [] => f | d :: ds => write_regs ds (tl vs) (fun r => if (r =? d)%Z then hd reg_default vs else f r) end.

Section Sequential.
Context (p : profile).

(** One instruction: fetch it at the program counter, run it to completion on the current registers and memory, write its
    destinations, move to the next program counter. The flag says whether the program has halted. *)
Definition seq_step (s : mach) : res (mach * bool) :=
  i <- fetch (m_mem s) (m_pc s) ;;
  let vals := map (m_regs s) (src_regs i) in
  let (m, r) := exec_instr p i vals (m_mem s) in
  vs <- r ;;
  n <- next_pc p i vals (m_pc s) ;;
  let regs := write_regs (dst_regs i) vs (m_regs s) in
  match n with
  | NGoto pc => Ok ({| m_pc := pc; m_regs := regs; m_mem := m |}, false)
  | NHalt => Ok ({| m_pc := m_pc s; m_regs := regs; m_mem := m |}, true)
  end.

(** k instructions, none of which halts the program. *)
Inductive seq_run (s : mach) : nat -> mach -> Prop :=
| seq_none : seq_run s 0 s
| seq_more k s1 s2 : seq_run s k s1 -> seq_step s1 = Ok (s2, false) -> seq_run s (S k) s2.

(** The program halts normally after k instructions, in state s'. *)
Definition seq_halts (s : mach) (k : nat) (s' : mach) : Prop := exists k' s1, k = S k' /\ seq_run s k' s1 /\ seq_step s1 = Ok (s', true).
(** The program runs into a fault: an instruction that cannot be fetched or fails. *)
Definition seq_faults (s : mach) : Prop := exists k s1, seq_run s k s1 /\ match seq_step s1 with Ok _ => False | _ => True end.

(** The gas one instruction costs in this state. *)
Definition seq_gas (s : mach) : Z := match fetch (m_mem s) (m_pc s) with Ok i => compute_gas i (map (m_regs s) (src_regs i)) | _ => 0%Z end.
End Sequential.

Definition same_regs (f g : Z -> reg) : Prop := forall r, f r = g r.
Definition same_mem (m1 m2 : mem) : Prop := forall a, peek m1 a = peek m2 a.

(** ** Programs that never need a pending result to find their way.

    An instruction is slow if it starts an encrypted computation, or reads a register or touches an address last written (or, for
    an address, last touched) by a slow instruction. A program is direct if, along its run one instruction at a time, no slow
    result is ever used as an address or a branch condition and no slow instruction has touched the code about to be executed. *)
Record shadow := { t_regs : Z -> bool; t_mem : Z -> bool }.
Definition no_shadow : shadow := {| t_regs := fun _ => false; t_mem := fun _ => false |}.
Definition touched (i : instr) (vals : list reg) : list Z := match footprint i vals with Ok f => f | _ => [] end.
Definition slow (i : instr) (vals : list reg) (sh : shadow) : bool :=
  spawns i vals || existsb (t_regs sh) (src_regs i) || existsb (t_mem sh) (touched i vals).
Definition mark (i : instr) (vals : list reg) (sh : shadow) : shadow :=
  {| t_regs := fun r => if existsb (Z.eqb r) (dst_regs i) then slow i vals sh else t_regs sh r;
     t_mem := fun a => if existsb (Z.eqb a) (touched i vals) then slow i vals sh else t_mem sh a |}.
Definition address_regs (i : instr) : list Z := match op i with OLoad | OStore => firstn 1 (src_regs i) | _ => [] end.
Definition condition_regs (i : instr) : list Z := match op i with OBranchNonZero | OBranchZero => src_regs i | _ => [] end.
Definition calm (s : mach) (sh : shadow) : Prop :=
  (forall k, k < 8 -> t_mem sh (m_pc s + Z.of_nat k)%Z = false) /\
  forall i, fetch (m_mem s) (m_pc s) = Ok i -> forall r, In r (address_regs i ++ condition_regs i) -> t_regs sh r = false.

Section Direct.
Context (p : profile).
(** A run with its shadow: k instructions, none of which halts the program. *)
Inductive shadow_run (s : mach) : nat -> mach -> shadow -> Prop :=
| shadow_none : shadow_run s 0 s no_shadow
| shadow_more k s1 sh1 s2 i : shadow_run s k s1 sh1 -> seq_step p s1 = Ok (s2, false) -> fetch (m_mem s1) (m_pc s1) = Ok i ->
    shadow_run s (S k) s2 (mark i (map (m_regs s1) (src_regs i)) sh1).
Definition direct (s : mach) : Prop := forall k s1 sh, shadow_run s k s1 sh -> calm s1 sh.
End Direct.

Section Gas.
Context (p : profile).
(** k instructions, none of which halts the program, and the gas they cost together. *)
Inductive gas_run (s : mach) : nat -> mach -> Z -> Prop :=
| gas_none : gas_run s 0 s 0%Z
| gas_more k s1 g s2 : gas_run s k s1 g -> seq_step p s1 = Ok (s2, false) -> gas_run s (S k) s2 (g + seq_gas s1)%Z.
End Gas.

(** Any number of steps of the processor. *)
Inductive steps (p : profile) (glim : option Z) (r0 : Z -> reg) (s : cpu) : cpu -> Prop :=
| steps_none : steps p glim r0 s s
| steps_more s1 s2 : steps p glim r0 s s1 -> step p glim r0 s1 s2 -> steps p glim r0 s s2.
