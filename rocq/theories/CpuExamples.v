(** Concrete programs and schedules for the examples and counterexamples of Props_Cpu.v (not a model of code). *)
From Coq Require Import ZifyBool ZifyNat.
From Verif Require Import Base Alu Memory Isa SpecMem Processor SpecCpu.
Open Scope nat_scope.

(** Two schedules. With [fast] retirements happen as soon as they can, otherwise only when the main thread can do nothing else. *)
Section Schedules.
Context (p : profile) (glim : option Z) (r0 : Z -> reg) (m0 : mem) (pc0 : Z).
Definition lowest (s : cpu) : option cpu :=
  fold_right (fun j acc => match retire_step j s with Some s' => Some s' | None => acc end) None (seq 0 (length (ents s))).
Definition some_retire (s : cpu) : option cpu :=
  match fe s with FBusy _ j => match retire_step j s with Some s' => Some s' | None => lowest s end | _ => lowest s end.
Definition or_else {A} (a b : option A) : option A := match a with Some _ => a | None => b end.
Definition next_state (fast : bool) (s : cpu) : option cpu :=
  if fast then or_else (some_retire s) (main_step p glim r0 s) else or_else (main_step p glim r0 s) (some_retire s).
Fixpoint drive (fast : bool) (fuel : nat) (s : cpu) : cpu :=
  match fuel with O => s | S n => match next_state fast s with Some s' => drive fast n s' | None => s end end.

Lemma lowest_step s s' : lowest s = Some s' -> step p glim r0 s s'.
Proof.
  unfold lowest. induction (seq 0 (length (ents s))) as [|j js IH]; cbn; [discriminate|]. destruct (retire_step j s) as [x|] eqn:E; [|auto]. intros K. injection K as ->. exists (LRet j). exact E.
Qed.
Lemma some_retire_step s s' : some_retire s = Some s' -> step p glim r0 s s'.
Proof.
  unfold some_retire. destruct (fe s); try apply lowest_step. destruct (retire_step j s) as [x|] eqn:E; [|apply lowest_step]. intros K. injection K as ->. exists (LRet j). exact E.
Qed.
Lemma next_state_step fast s s' : next_state fast s = Some s' -> step p glim r0 s s'.
Proof.
  unfold next_state, or_else. destruct fast.
  - destruct (some_retire s) eqn:E; intros K; [injection K as ->; now apply some_retire_step|exists LMain; exact K].
  - destruct (main_step p glim r0 s) eqn:E; intros K; [injection K as ->; exists LMain; exact E|now apply some_retire_step].
Qed.
Lemma drive_steps fast n : forall s, steps p glim r0 s (drive fast n s).
Proof.
  assert (G : forall s a, steps p glim r0 s a -> steps p glim r0 s (drive fast n a)).
  { induction n as [|n IH]; intros s a R; cbn; [auto|]. destruct (next_state fast a) eqn:E; [|auto]. apply IH. econstructor; eauto. eapply next_state_step; eauto. }
  intros s. apply G. constructor.
Qed.
Lemma drive_reach fast n : reach p glim r0 m0 pc0 (drive fast n (cpu_init m0 pc0)).
Proof. pose proof (drive_steps fast n (cpu_init m0 pc0)) as H. induction H as [|a b R IH ST]; [constructor|econstructor; eauto]. Qed.
End Schedules.

(** Following the sequential machine and checking what [direct] and the gas conditions ask. *)
Section Walk.
Context (p : profile).
Definition calmb (s : mach) (sh : shadow) : bool :=
  forallb (fun k => negb (t_mem sh (m_pc s + Z.of_nat k)%Z)) (seq 0 8) &&
  match fetch (m_mem s) (m_pc s) with Ok i => forallb (fun r => negb (t_regs sh r)) (address_regs i ++ condition_regs i) | _ => true end.
Lemma calmb_calm s sh : calmb s sh = true -> calm s sh.
Proof.
  unfold calmb. rewrite andb_true_iff. intros [A B]. rewrite forallb_forall in A. split.
  - intros k L. specialize (A k ltac:(apply in_seq; lia)). now apply negb_true_iff.
  - intros i E r I. rewrite E in B. rewrite forallb_forall in B. specialize (B r I). now apply negb_true_iff.
Qed.
Fixpoint walk (fuel : nat) (s : mach) (sh : shadow) : option (nat * mach) :=
  match fuel with
  | O => None
  | S n =>
      if calmb s sh then
        match fetch (m_mem s) (m_pc s), seq_step p s with
        | Ok i, Ok (s2, false) => match walk n s2 (mark i (map (m_regs s) (src_regs i)) sh) with Some (k, s3) => Some (S k, s3) | None => None end
        | Ok _, Ok (s2, true) => Some (1, s2)
        | _, _ => None
        end
      else None
  end.
Lemma shadow_seq s k s1 sh : shadow_run p s k s1 sh -> seq_run p s k s1.
Proof. induction 1; econstructor; eauto. Qed.
Inductive shadow_from (s : mach) (sh : shadow) : nat -> mach -> shadow -> Prop :=
| from_none : shadow_from s sh 0 s sh
| from_more k i s1 s2 sh2 : seq_step p s = Ok (s1, false) -> fetch (m_mem s) (m_pc s) = Ok i -> shadow_from s1 (mark i (map (m_regs s) (src_regs i)) sh) k s2 sh2 -> shadow_from s sh (S k) s2 sh2.
Lemma from_snoc s sh k s1 sh1 i s2 : shadow_from s sh k s1 sh1 -> seq_step p s1 = Ok (s2, false) -> fetch (m_mem s1) (m_pc s1) = Ok i ->
  shadow_from s sh (S k) s2 (mark i (map (m_regs s1) (src_regs i)) sh1).
Proof. induction 1; intros A B; [econstructor; eauto; constructor|econstructor; eauto]. Qed.
Lemma run_from s k s1 sh : shadow_run p s k s1 sh -> shadow_from s no_shadow k s1 sh.
Proof. induction 1; [constructor|]. eapply from_snoc; eauto. Qed.
Lemma walk_calm n : forall s sh N s', walk n s sh = Some (N, s') -> forall k s1 sh1, shadow_from s sh k s1 sh1 -> calm s1 sh1.
Proof.
  induction n as [|n IH]; intros s sh N s' H; [discriminate|]. cbn [walk] in H. destruct (calmb s sh) eqn:C; [|discriminate].
  destruct (fetch (m_mem s) (m_pc s)) as [i|e|] eqn:F; try discriminate. destruct (seq_step p s) as [[s2 [|]]|e|] eqn:E; try discriminate.
  - intros k s1 sh1 K. inversion K; subst; [now apply calmb_calm|congruence].
  - destruct (walk n s2 (mark i (map (m_regs s) (src_regs i)) sh)) as [[k0 s3]|] eqn:W; [|discriminate]. intros k s1 sh1 K. inversion K as [|k' i' a b c A1 A2 A3]; subst; [now apply calmb_calm|].
    assert (i' = i) by congruence. assert (a = s2) by congruence. subst. eapply IH; eauto.
Qed.
Lemma walk_direct n s N s' : walk n s no_shadow = Some (N, s') -> direct p s.
Proof. intros H k s1 sh K. apply (walk_calm n s no_shadow N s' H k). now apply run_from. Qed.
Lemma seq_cons s s1 : seq_step p s = Ok (s1, false) -> forall k s2, seq_run p s1 k s2 -> seq_run p s (S k) s2.
Proof. intros A k s2 H. induction H; [econstructor; eauto; constructor|econstructor; eauto]. Qed.
Lemma walk_halts n : forall s sh N s', walk n s sh = Some (N, s') -> seq_halts p s N s'.
Proof.
  induction n as [|n IH]; intros s sh N s' H; [discriminate|]. cbn [walk] in H. destruct (calmb s sh) eqn:C; [|discriminate].
  destruct (fetch (m_mem s) (m_pc s)) as [i|e|] eqn:F; try discriminate. destruct (seq_step p s) as [[s2 [|]]|e|] eqn:E; try discriminate.
  - injection H as <- <-. exists 0, s. split; [auto|]. split; [constructor|auto].
  - destruct (walk n s2 (mark i (map (m_regs s) (src_regs i)) sh)) as [[k0 s3]|] eqn:W; [|discriminate]. injection H as <- <-. destruct (IH _ _ _ _ W) as (k' & s1 & -> & R & L).
    exists (S k'), s1. split; [auto|]. split; [eapply seq_cons; eauto|auto].
Qed.
(** The same without the checks. *)
Fixpoint seq_walk (fuel : nat) (s : mach) : option (nat * res mach) :=
  match fuel with
  | O => None
  | S n => match seq_step p s with
           | Ok (s2, false) => match seq_walk n s2 with Some (k, r) => Some (S k, r) | None => None end
           | Ok (s2, true) => Some (1, Ok s2)
           | Err e => Some (0, Err e)
           | Panic => Some (0, Panic)
           end
  end.
Lemma seq_walk_halts n : forall s N s', seq_walk n s = Some (N, Ok s') -> seq_halts p s N s'.
Proof.
  induction n as [|n IH]; intros s N s' H; [discriminate|]. cbn [seq_walk] in H. destruct (seq_step p s) as [[s2 [|]]|e|] eqn:E; try discriminate.
  - injection H as <- <-. exists 0, s. split; [auto|]. split; [constructor|auto].
  - destruct (seq_walk n s2) as [[k r]|] eqn:W; [|discriminate]. injection H as <- ->. destruct (IH _ _ _ W) as (k' & s1 & -> & R & L). exists (S k'), s1. split; [auto|]. split; [eapply seq_cons; eauto|auto].
Qed.
Lemma seq_walk_fails n : forall s N e, seq_walk n s = Some (N, Err e) -> exists s1, seq_run p s N s1 /\ seq_step p s1 = Err e.
Proof.
  induction n as [|n IH]; intros s N e H; [discriminate|]. cbn [seq_walk] in H. destruct (seq_step p s) as [[s2 [|]]|e'|] eqn:E; try discriminate.
  - destruct (seq_walk n s2) as [[k r]|] eqn:W; [|discriminate]. injection H as <- ->. destruct (IH _ _ _ W) as (s1 & R & L). exists s1. split; [eapply seq_cons; eauto|auto].
  - injection H as <- <-. exists s. split; [constructor|auto].
Qed.
End Walk.

Lemma seq_gas_max s : (seq_gas s <= 500000)%Z.
Proof.
  unfold seq_gas. destruct (fetch (m_mem s) (m_pc s)) as [i|e|]; try lia. unfold compute_gas.
  destruct (op i); repeat match goal with |- context [if ?c then _ else _] => destruct c end; lia.
Qed.
Lemma gas_run_max p s k s1 g : gas_run p s k s1 g -> (g <= 500000 * Z.of_nat k)%Z /\ seq_run p s k s1.
Proof. induction 1 as [|k s1 g s2 R [IH RU] ST]; [split; [lia|constructor]|]. split; [pose proof (seq_gas_max s1); lia|econstructor; eauto]. Qed.

(** ** Programs *)
Local Open Scope Z_scope.
Definition I_load d a w off := {| op := OLoad; operands := [d; a; w; off] |}.
Definition I_store a v w off := {| op := OStore; operands := [a; v; w; off] |}.
Definition I_loadi d imm w := {| op := OLoadI; operands := [d; imm; w] |}.
Definition I_add d a b := {| op := OAdd; operands := [d; a; b] |}.
Definition I_bnz r off := {| op := OBranchNonZero; operands := [r; off] |}.
Definition I_ret := {| op := ORet; operands := [] |}.

Definition words (p : profile) (is : list instr) : list Z := map (fun i => match encode p i with Ok w => w | _ => 0 end) is.
(** A program at address 4096, a data page at 65536 whose first bytes are the encryptions of the number 3. *)
Definition secret : byte := BCipher [true; true; false; false; false; false; false; false].
Definition data_mem : mem := match mem_new 65536 4096 with Ok m => m | _ => {| pages := fun _ => None; sp := 0 |} end.
Definition load_program (p : profile) (is : list instr) : mem :=
  fst (try_store 65537 secret (fst (try_store 65536 secret (fst (allocate_program p (words p is) data_mem))))).
Definition regs0 : Z -> reg := initial_regs 65600 69632.
