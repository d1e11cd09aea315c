(** Properties of the shared cells and spin locks (C41, C42). [rrun T os (rcell_new v) = Some s]: after the atomic steps os of any of
    the T threads, in any interleaving, the cell is in state s. *)
From Coq Require Import ZifyBool ZifyNat.
From Verif Require Import Base Sync SyncProofs.
Open Scope nat_scope.
Local Ltac witness t := let v := eval vm_compute in t in match v with Some ?s => exists s end.

(** C41. As long as no immutable borrow has been refused because of a mutable one: there is at most one mutable borrow, and no
    immutable one beside it; borrow succeeds exactly when there is no mutable borrow (and fewer than about 2^63 immutable ones);
    borrow_mut succeeds exactly when there is no borrow at all. Refused mutable borrows, leaked borrows and the reference-count
    limit are included. *)
Theorem borrow_exclusion_partial : forall A T v os (s : rcell A), (Z.of_nat T <= 2 ^ 62)%Z -> rrun T os (rcell_new v) = Some s -> failed s = false ->
  muts s <= 1 /\ (0 < muts s -> refs s = 0) /\
  (borrow_ok s = true <-> muts s + lost_mut s = 0 /\ (Z.of_nat (refs s + lost s + undoing s) < 2 ^ 63 - 2)%Z) /\
  (borrow_mut_ok s = true <-> muts s + lost_mut s + refs s + lost s + undoing s = 0).
Proof. intros A T v os s HT. exact (cell_exclusion T HT v os s). Qed.
(** The two tests describe what the calls do. *)
Theorem borrow_outcome : forall A T (s s' : rcell A),
  (rstep T RBorrow s = Some s' -> refs s' = if borrow_ok s then refs s + 1 else refs s) /\
  (rstep T RBorrowMut s = Some s' -> muts s' = if borrow_mut_ok s then muts s + 1 else muts s).
Proof.
  intros A T s s'. split; cbn [rstep]; unfold borrow_ok, borrow_mut_ok; intros H.
  - destruct (word s =? 0)%Z eqn:E0; cbn [negb andb]; [injection H as <-; reflexivity|]. destruct ((USIZE - 1) / 2 <=? word s)%Z eqn:E1.
    + destruct (undoing s <? T); [|discriminate]. injection H as <-. cbn [refs]. replace (word s <? (USIZE - 1) / 2)%Z with false by (symmetry; lia). reflexivity.
    + injection H as <-. cbn [refs]. replace (word s <? (USIZE - 1) / 2)%Z with true by (symmetry; lia). reflexivity.
  - destruct (word s =? 1)%Z; injection H as <-; reflexivity.
Qed.
(** The value does not change while an immutable borrow is alive. *)
Theorem borrowed_value_stable_partial : forall A T v os (s : rcell A) o s', (Z.of_nat T <= 2 ^ 62)%Z -> rrun T os (rcell_new v) = Some s -> failed s = false ->
  0 < refs s -> rstep T o s = Some s' -> value s' = value s.
Proof. intros A T v os s o s' HT. exact (cell_stable T HT v os s o s'). Qed.
Example borrow_exclusion_ex : exists s, rrun 4 [RBorrow; RBorrow; RBorrowMut; RDropRef; RDropRef; RBorrowMut; RWrite 8; RBorrowMut; RDropMut; RBorrow] (rcell_new 7) = Some s /\
  failed s = false /\ refs s = 1 /\ muts s = 0 /\ value s = 8 /\ borrow_ok s = true /\ borrow_mut_ok s = false.
Proof. match goal with |- exists s, ?t = Some s /\ _ => witness t end. vm_compute. repeat split. Qed.
(** One refused borrow is enough: then a second mutable borrow is granted, or an immutable one under which the value changes. *)
Theorem borrow_exclusion_refuted :
  (exists s, rrun 2 [RBorrowMut; RBorrow; RBorrowMut] (rcell_new 7) = Some s /\ muts s = 2) /\
  (exists s s', rrun 2 [RBorrowMut; RBorrow; RBorrow] (rcell_new 7) = Some s /\ muts s = 1 /\ refs s = 1 /\ rstep 2 (RWrite 8) s = Some s' /\ value s = 7 /\ value s' = 8).
Proof.
  split; [match goal with |- exists s, ?t = Some s /\ _ => witness t end; vm_compute; repeat split|].
  match goal with |- exists s s', ?t = Some s /\ _ => witness t end. match goal with |- exists s', _ /\ _ /\ _ /\ ?t = Some s' /\ _ => witness t end. vm_compute. repeat split.
Qed.
Print Assumptions borrow_exclusion_partial.
Print Assumptions borrow_outcome.
Print Assumptions borrowed_value_stable_partial.
Print Assumptions borrow_exclusion_refuted.

(** C42. *)
Theorem spinlock_exclusion : forall A v os (s : spin A), srun os (spin_new v) = Some s ->
  length (owner s) <= 1 /\ (flag s = true <-> owner s <> [] \/ kept s = true).
Proof. intros A. exact lock_exclusion. Qed.
Theorem spinlock_acquires_when_free : forall A v os (s : spin A) t s', srun os (spin_new v) = Some s ->
  (sstep (STryLock t) s = Some s' -> (owner s = [] /\ kept s = false /\ owner s' = [t]) \/ ((owner s <> [] \/ kept s = true) /\ s' = s)) /\
  (sstep (SSpin t) s = Some s' -> (owner s = [] /\ kept s = false /\ owner s' = [t]) \/ ((owner s <> [] \/ kept s = true) /\ s' = s)).
Proof. intros A. exact lock_acquires. Qed.
Theorem spinlock_only_holder_writes : forall A v os (s : spin A) o s', srun os (spin_new v) = Some s -> sstep o s = Some s' ->
  inner_val s' = inner_val s \/ exists t, owner s = [t] /\ exists x, o = SWrite t x.
Proof. intros A. exact lock_value. Qed.
(** A lock kept locked stays locked, with its value, for ever: what the retirement of instructions and tasks relies on. *)
Theorem spinlock_kept_forever : forall A v os (s : spin A) os' s', srun os (spin_new v) = Some s -> kept s = true -> srun os' s = Some s' ->
  owner s' = [] /\ kept s' = true /\ inner_val s' = inner_val s.
Proof. intros A. exact kept_forever. Qed.
Example spinlock_ex : match srun [STryLock 1; SLock 2; SSpin 2; SSpin 2; STryLock 3; SWrite 1 8; SDrop 1; SSpin 2] (spin_new 7) with
  | Some s => owner s = [2] /\ inner_val s = 8 /\
      match srun [SWrite 2 9; SKeep 2; STryLock 1; SLock 4; SSpin 4] s with Some s' => kept s' = true /\ inner_val s' = 9 /\ waiting s' = [4] | None => False end
  | None => False end.
Proof. vm_compute. repeat split. Qed.
Print Assumptions spinlock_exclusion.
Print Assumptions spinlock_acquires_when_free.
Print Assumptions spinlock_only_holder_writes.
Print Assumptions spinlock_kept_forever.
