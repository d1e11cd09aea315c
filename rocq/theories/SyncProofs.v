(** Proofs about AtomicRefCell and Spinlock. *)
From Coq Require Import ZifyBool ZifyNat.
From Verif Require Import Base Sync.
Open Scope Z_scope.

Section Cell.
Context {A : Type} (T : nat) (HT : Z.of_nat T <= 2 ^ 62).

Lemma half : (USIZE - 1) / 2 = 2 ^ 63 - 1. Proof. reflexivity. Qed.
Record rinv (s : rcell A) : Prop := {
  r_word : word s = if Nat.eqb (muts s + lost_mut s) 0 then 1 + Z.of_nat (refs s + lost s + undoing s) else 0;
  r_excl : (muts s + lost_mut s <= 1)%nat;
  r_alone : (0 < muts s + lost_mut s)%nat -> (refs s = 0 /\ lost s = 0 /\ undoing s = 0)%nat;
  r_max : Z.of_nat (refs s + lost s) <= 2 ^ 63;
  r_thr : (undoing s <= T)%nat
}.
Lemma rinv_step o (s s' : rcell A) : rinv s -> rstep T o s = Some s' -> failed s' = false -> rinv s'.
Proof.
  intros [W X L M U] H F. unfold rstep in H. destruct o; rewrite ?half in H.
  - destruct (word s =? 0) eqn:E0; [injection H as <-; discriminate|]. destruct (Nat.eqb (muts s + lost_mut s) 0) eqn:E1; [|lia].
    rewrite (Z.mod_small (word s + 1) USIZE) in H by (unfold USIZE; lia).
    destruct (2 ^ 63 - 1 <=? word s) eqn:E2.
    + destruct (Nat.ltb (undoing s) T) eqn:E3; [|discriminate]. injection H as <-. split; cbn [word refs muts lost lost_mut undoing]; try rewrite E1; lia.
    + injection H as <-. split; cbn [word refs muts lost lost_mut undoing]; try rewrite E1; lia.
  - destruct (Nat.ltb 0 (undoing s)) eqn:E; [|discriminate]. injection H as <-. destruct (Nat.eqb (muts s + lost_mut s) 0) eqn:E1; [|lia].
    split; cbn [word refs muts lost lost_mut undoing]; try rewrite E1; try lia. rewrite Z.mod_small by (unfold USIZE; lia). lia.
  - destruct (word s =? 1) eqn:E; [|injection H as <-; split; auto]. injection H as <-. destruct (Nat.eqb (muts s + lost_mut s) 0) eqn:E1; [|lia].
    split; cbn [word refs muts lost lost_mut undoing]; try lia. replace (Nat.eqb (muts s + 1 + lost_mut s) 0) with false by lia. reflexivity.
  - destruct (Nat.ltb 0 (refs s)) eqn:E; [|discriminate]. injection H as <-. destruct (Nat.eqb (muts s + lost_mut s) 0) eqn:E1; [|lia].
    split; cbn [word refs muts lost lost_mut undoing]; try rewrite E1; try lia. rewrite Z.mod_small by (unfold USIZE; lia). lia.
  - destruct (Nat.ltb 0 (muts s)) eqn:E; [|discriminate]. injection H as <-. split; cbn [word refs muts lost lost_mut undoing]; try lia.
    replace (Nat.eqb (muts s - 1 + lost_mut s) 0) with true by lia. destruct L as (L1 & L2 & L3); lia.
  - destruct (Nat.ltb 0 (refs s)) eqn:E; [|discriminate]. injection H as <-. destruct (Nat.eqb (muts s + lost_mut s) 0) eqn:E1; [|lia].
    split; cbn [word refs muts lost lost_mut undoing]; try rewrite E1; lia.
  - destruct (Nat.ltb 0 (muts s)) eqn:E; [|discriminate]. injection H as <-. destruct (Nat.eqb (muts s + lost_mut s) 0) eqn:E1; [lia|].
    split; cbn [word refs muts lost lost_mut undoing]; try lia. replace (Nat.eqb (muts s - 1 + (lost_mut s + 1)) 0) with false by lia. auto.
  - destruct (Nat.ltb 0 (muts s)) eqn:E; [|discriminate]. injection H as <-. split; cbn [word refs muts lost lost_mut undoing]; auto.
Qed.
Lemma failed_step o (s s' : rcell A) : rstep T o s = Some s' -> failed s' = false -> failed s = false.
Proof.
  unfold rstep. intros H F. destruct o; repeat match type of H with context [if ?c then _ else _] => destruct c end; try discriminate; injection H as <-; cbn in F; auto; discriminate.
Qed.
Lemma rinv_run os : forall s s', rinv s -> rrun T os s = Some s' -> failed s' = false -> rinv s'.
Proof.
  induction os as [|o os IH]; intros s s' I H F; cbn in H; [injection H as <-; auto|]. destruct (rstep T o s) as [s1|] eqn:E; [|discriminate].
  assert (F1 : failed s1 = false). { clear - H F. revert s1 H. induction os as [|o os IH]; intros s1 H; cbn in H; [injection H as <-; auto|]. destruct (rstep T o s1) as [s2|] eqn:E; [|discriminate]. eapply failed_step; eauto. }
  apply (IH s1 s'); auto. apply (rinv_step o s s1); auto.
Qed.
Lemma rinv_new v : rinv (rcell_new v).
Proof. split; cbn; lia. Qed.

Theorem cell_exclusion v os (s : rcell A) : rrun T os (rcell_new v) = Some s -> failed s = false ->
  (muts s <= 1)%nat /\ ((0 < muts s)%nat -> refs s = 0%nat) /\
  (borrow_ok s = true <-> (muts s + lost_mut s = 0)%nat /\ (Z.of_nat (refs s + lost s + undoing s) < 2 ^ 63 - 2)) /\
  (borrow_mut_ok s = true <-> (muts s + lost_mut s + refs s + lost s + undoing s = 0)%nat).
Proof.
  intros R F. pose proof (rinv_run os _ _ (rinv_new v) R F) as [W X L M U]. split; [lia|]. split; [lia|]. unfold borrow_ok, borrow_mut_ok. rewrite half.
  destruct (Nat.eqb (muts s + lost_mut s) 0) eqn:E1; split; split; intros; lia.
Qed.
(** While an immutable borrow lives, the value does not change. *)
Lemma write_needs_mut o (s s' : rcell A) : rstep T o s = Some s' -> value s' = value s \/ (0 < muts s)%nat.
Proof. unfold rstep. intros H. destruct o; repeat match type of H with context [if ?c then _ else _] => destruct c eqn:? end; try discriminate; injection H as <-; cbn; auto; right; lia. Qed.
Theorem cell_stable v os (s : rcell A) o s' : rrun T os (rcell_new v) = Some s -> failed s = false -> (0 < refs s)%nat -> rstep T o s = Some s' -> value s' = value s.
Proof. intros R F N H. destruct (cell_exclusion v os s R F) as (_ & X & _). destruct (write_needs_mut o s s' H) as [K|K]; [auto|]. specialize (X K). lia. Qed.
End Cell.

Section Lock.
Context {A : Type}.
Lemma remove1_in t x l : In x (remove1 t l) -> In x l.
Proof. induction l as [|y l IH]; cbn; [auto|]. destruct (Nat.eqb t y); [auto|]. intros [H|H]; auto. Qed.
Lemma mem_nat_in t l : mem_nat t l = true <-> In t l.
Proof. unfold mem_nat. rewrite existsb_exists. split; [intros (x & I & E); apply Nat.eqb_eq in E; now subst|intros I; exists t; split; [auto|apply Nat.eqb_refl]]. Qed.
Record sinv (s : spin A) : Prop := {
  l_one : owner s = [] \/ exists t, owner s = [t];
  l_flag : flag s = true <-> owner s <> [] \/ kept s = true;
  l_kept : kept s = true -> owner s = []
}.
Lemma sinv_step o s s' : sinv s -> sstep o s = Some s' -> sinv s'.
Proof.
  intros [O F K] H. unfold sstep in H. destruct o.
  - injection H as <-. split; cbn; auto.
  - destruct (mem_nat t (waiting s)); [|discriminate]. destruct (flag s) eqn:E; injection H as <-; [split; auto; now rewrite E|]. destruct O as [O|(x & O)].
    + split; cbn; rewrite ?O; eauto; [split; [left; discriminate|auto]|]. intros KK. exfalso. assert (false = true) by (apply F; auto). discriminate.
    + exfalso. assert (false = true) by (apply F; left; rewrite O; discriminate). discriminate.
  - destruct (flag s) eqn:E; injection H as <-; [split; auto; now rewrite E|]. destruct O as [O|(x & O)].
    + split; cbn; rewrite ?O; eauto; [split; [left; discriminate|auto]|]. intros KK. exfalso. assert (false = true) by (apply F; auto). discriminate.
    + exfalso. assert (false = true) by (apply F; left; rewrite O; discriminate). discriminate.
  - destruct (mem_nat t (owner s)) eqn:E; [|discriminate]. injection H as <-. apply mem_nat_in in E. destruct O as [O|(x & O)]; rewrite O in E; [contradiction|]. destruct E as [->|[]].
    assert (NK : kept s <> true) by (intros KK; apply K in KK; congruence). split; cbn; rewrite ?O; cbn; rewrite ?Nat.eqb_refl; auto. split; [discriminate|]. intros [?|?]; congruence.
  - destruct (mem_nat t (owner s)) eqn:E; [|discriminate]. injection H as <-. apply mem_nat_in in E. destruct O as [O|(x & O)]; rewrite O in E; [contradiction|]. destruct E as [->|[]].
    split; cbn; rewrite ?O; cbn; rewrite ?Nat.eqb_refl; auto. split; [auto|]. intros _. apply F. left. rewrite O. discriminate.
  - destruct (mem_nat t (owner s)) eqn:E; [|discriminate]. injection H as <-. split; cbn; auto.
Qed.
Lemma sinv_run os : forall s s', sinv s -> srun os s = Some s' -> sinv s'.
Proof. induction os as [|o os IH]; intros s s' I H; cbn in H; [injection H as <-; auto|]. destruct (sstep o s) as [s1|] eqn:E; [|discriminate]. apply (IH s1 s'); auto. apply (sinv_step o s s1); auto. Qed.
Lemma sinv_new v : sinv (spin_new v).
Proof. split; cbn; auto. - split; [discriminate|]. intros [H|H]; [congruence|discriminate]. Qed.

Theorem lock_exclusion v os (s : spin A) : srun os (spin_new v) = Some s ->
  (length (owner s) <= 1)%nat /\ (flag s = true <-> owner s <> [] \/ kept s = true).
Proof. intros R. destruct (sinv_run os _ _ (sinv_new v) R) as [O F K]. split; [destruct O as [->|(t & ->)]; cbn; lia|auto]. Qed.
(** try_lock succeeds exactly when nobody holds the lock; so does an iteration of lock. *)
Theorem lock_acquires v os (s : spin A) t s' : srun os (spin_new v) = Some s ->
  (sstep (STryLock t) s = Some s' -> (owner s = [] /\ kept s = false /\ owner s' = [t]) \/ ((owner s <> [] \/ kept s = true) /\ s' = s)) /\
  (sstep (SSpin t) s = Some s' -> (owner s = [] /\ kept s = false /\ owner s' = [t]) \/ ((owner s <> [] \/ kept s = true) /\ s' = s)).
Proof.
  intros R. destruct (sinv_run os _ _ (sinv_new v) R) as [O F K]. cbn [sstep].
  assert (G : flag s = false -> owner s = [] /\ kept s = false).
  { intros E. destruct O as [O|(x & O)]; [|exfalso; assert (X : flag s = true) by (apply F; left; rewrite O; discriminate); congruence]. split; [auto|]. destruct (kept s) eqn:KK; [|auto]. exfalso. assert (X : flag s = true) by (apply F; auto). congruence. }
  split.
  - destruct (flag s) eqn:E; intros H; injection H as <-; [right; split; [now apply F|auto]|]. destruct (G eq_refl) as [G1 G2]. left. cbn. rewrite G1. auto.
  - destruct (mem_nat t (waiting s)); [|discriminate]. destruct (flag s) eqn:E; intros H; injection H as <-; [right; split; [now apply F|auto]|]. destruct (G eq_refl) as [G1 G2]. left. cbn. rewrite G1. auto.
Qed.
(** Only the holder changes the value; a lock kept locked is never acquired again and its value never changes. *)
Theorem lock_value v os (s : spin A) o s' : srun os (spin_new v) = Some s -> sstep o s = Some s' -> inner_val s' = inner_val s \/ exists t, owner s = [t] /\ exists x, o = SWrite t x.
Proof.
  intros R H. destruct (sinv_run os _ _ (sinv_new v) R) as [O F K]. unfold sstep in H. destruct o; repeat match type of H with context [if ?c then _ else _] => destruct c eqn:? end; try discriminate; injection H as <-; cbn; auto.
  right. exists t. destruct O as [O|(y & O)]; rewrite O in *; [discriminate|]. split; [|eauto]. f_equal. cbn in *. destruct (Nat.eqb t y) eqn:E; [apply Nat.eqb_eq in E; auto|discriminate].
Qed.
Theorem kept_forever v os (s : spin A) os' s' : srun os (spin_new v) = Some s -> kept s = true -> srun os' s = Some s' -> owner s' = [] /\ kept s' = true /\ inner_val s' = inner_val s.
Proof.
  intros R KK. pose proof (sinv_run os _ _ (sinv_new v) R) as I0. clear R. revert s s' I0 KK. induction os' as [|o os' IH]; intros s s' I0 KK H; cbn in H.
  - injection H as <-. destruct I0 as [_ _ K]. auto.
  - destruct (sstep o s) as [s1|] eqn:E; [|discriminate]. pose proof (sinv_step o s s1 I0 E) as I1. destruct I0 as [O F K]. assert (FL : flag s = true) by (apply F; auto). specialize (K KK).
    assert (P : kept s1 = true /\ inner_val s1 = inner_val s).
    { unfold sstep in E. rewrite FL, K in E. cbn in E. destruct o; repeat match type of E with context [if ?c then _ else _] => destruct c eqn:? end; try discriminate; injection E as <-; cbn; auto. }
    destruct P as [P1 P2]. destruct (IH s1 s' I1 P1 H) as (A1 & A2 & A3). split; [auto|]. split; [auto|congruence].
Qed.
End Lock.
