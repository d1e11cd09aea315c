(** Proofs: the processor does not get stuck and does not run forever, except where it does. *)
From Coq Require Import ZifyBool ZifyNat Wellfounded.Lexicographic_Product Relation_Operators Wf_nat.
From Verif Require Import Base Alu Memory Isa SpecMem Processor SpecCpu ProcessorProofs ProcessorProofs2 ProcessorProofs3 ProcessorProofs4 ProcessorProofs5 ProcessorProofs6 ProcessorProofs7 ProcessorProofs8.
Open Scope nat_scope.

Lemma seq_run_det p s k s1 : seq_run p s k s1 -> forall s2, seq_run p s k s2 -> s2 = s1.
Proof. induction 1 as [|k s1 s2 R IH E]; intros s3 H; inversion H; subst; [auto|]. match goal with H : seq_run p s k ?x |- _ => apply IH in H; subst end. congruence. Qed.
Lemma seq_run_le p s k s1 : seq_run p s k s1 -> forall j, j <= k -> exists s2, seq_run p s j s2 /\ (j < k -> exists s3, seq_step p s2 = Ok (s3, false)).
Proof.
  induction 1 as [|k s1 s2 R IH E]; intros j L; [exists s; replace j with 0 by lia; split; [constructor|lia]|].
  destruct (Nat.eq_dec j (S k)) as [->|Hj]; [exists s2; split; [econstructor; eauto|lia]|]. destruct (IH j ltac:(lia)) as (x & Rx & Sx). exists x. split; [auto|]. intros _.
  destruct (Nat.eq_dec j k) as [->|]; [|apply Sx; lia]. assert (x = s1) by (eapply seq_run_det; eauto). subst. eauto.
Qed.
Lemma halts_bound p s N s' k s1 : seq_halts p s N s' -> seq_run p s k s1 -> k < N.
Proof.
  intros (k' & x & -> & R & E) H. destruct (Nat.lt_ge_cases k (S k')) as [|L]; [auto|]. exfalso. destruct (seq_run_le p s k s1 H k' ltac:(lia)) as (y & Ry & Sy).
  destruct (Sy ltac:(lia)) as (z & Ez). assert (y = x) by (eapply seq_run_det; eauto). subst. congruence.
Qed.
Lemma halts_no_fault p s N s' : seq_halts p s N s' -> ~ seq_faults p s.
Proof.
  intros (k' & x & -> & R & E) (k & y & Ry & B). destruct (Nat.lt_trichotomy k k') as [L|[->|L]].
  - destruct (seq_run_le p s k' x R k ltac:(lia)) as (z & Rz & Sz). destruct (Sz L) as (w & Ew). assert (z = y) by (eapply seq_run_det; eauto). subst. rewrite Ew in B. auto.
  - assert (y = x) by (eapply seq_run_det; eauto). subst. rewrite E in B. auto.
  - destruct (seq_run_le p s k y Ry k' ltac:(lia)) as (z & Rz & Sz). destruct (Sz L) as (w & Ew). assert (z = x) by (eapply seq_run_det; eauto). subst. congruence.
Qed.
Lemma halts_det p s N s' M s'' : seq_halts p s N s' -> seq_halts p s M s'' -> M = N /\ s'' = s'.
Proof.
  intros H1 H2. assert (M = N). { destruct H1 as (k & x & -> & R & E), H2 as (k' & x' & -> & R' & E').
    assert (k < S k') by (eapply halts_bound; [exists k', x'; eauto|eauto]). assert (k' < S k) by (eapply halts_bound; [exists k, x; eauto|eauto]). lia. }
  subst. split; [auto|]. destruct H1 as (k & x & -> & R & E), H2 as (k' & x' & Q & R' & E'). injection Q as <-. assert (x' = x) by (eapply seq_run_det; eauto). subst. congruence.
Qed.

Section Live.
Context (p : profile) (glim : option Z) (r0 : Z -> reg) (m0 : mem) (pc0 : Z).
Local Notation rob := (rob r0).
Local Notation trans := (trans p glim r0).
Local Notation reach := (reach p glim r0 m0 pc0).
Local Notation step := (step p glim r0).
Local Notation start := (start r0 m0 pc0).
Local Notation vinv := (vinv p r0 m0 pc0).
Local Notation qinv := (qinv p r0 m0).

(** The first instruction that has not retired can retire, if the channel is empty. *)
Lemma someone_retires s : sinv s -> chan s = [] -> (forall n ds, fe s <> FLink n ds) -> 0 < undone (ph s) (length (ents s)) -> exists j, 3 <= rank (ph s j) <= 5.
Proof.
  intros SI Ch NL U. pose proof (s_core _ SI) as C. unfold undone in U. destruct (sumn_pos _ _ U) as (j0 & L0 & P0). clear U.
  assert (L : exists j, j < length (ents s) /\ rank (ph s j) <> 6 /\ forall t, t < j -> rank (ph s t) = 6).
  { assert (R0 : rank (ph s j0) <> 6) by (destruct (rank (ph s j0) =? 6) eqn:E; [cbn in P0; lia|lia]). clear P0. revert L0 R0. induction j0 as [j IH] using lt_wf_ind. intros L0 R0.
    assert (D : (exists t, t < j /\ rank (ph s t) <> 6) \/ forall t, t < j -> rank (ph s t) = 6).
    { clear. induction j as [|j IH]; [right; lia|]. destruct IH as [(t & L & R)|A]; [left; exists t; lia|]. destruct (Nat.eq_dec (rank (ph s j)) 6) as [E|E]; [|left; exists j; lia].
      right. intros t Ht. destruct (Nat.eq_dec t j) as [->|]; [auto|apply A; lia]. }
    destruct D as [(t & Lt & Rt)|A]; [apply (IH t Lt); [lia|auto]|exists j; auto]. }
  clear j0 L0 P0. destruct L as (j & L & R & A). exists j. pose proof (proj2 (c_rank _ _ _ _ _ _ C j) L) as R1. pose proof (c_queue _ _ _ _ _ _ C j) as Qj. rewrite Ch in Qj. change (cexec j []) with 0 in Qj.
  assert (N2 : rank (ph s j) <> 2) by (intros K; rewrite K in Qj; discriminate).
  assert (N1 : rank (ph s j) <> 1).
  { intros K. apply (c_blocked _ _ _ _ _ _ C) in K. rewrite (c_nd _ _ _ _ _ _ C), own_nolink in K by auto. cbn in K. unfold occ in K.
    destruct (sumn_pos _ _ K) as (t & Lt & P). apply (count_occ_In Nat.eq_dec) in P. destruct (c_list _ _ _ _ _ _ C t j P) as (B & D & Rt). pose proof (c_dep _ _ _ _ _ _ C j t D) as Ltj. rewrite (A t Ltj) in Rt. lia. }
  assert (rank (ph s j) <= 6) by (destruct (ph s j); cbn; lia). lia.
Qed.
Lemma retire_enabled s j : 3 <= rank (ph s j) <= 5 -> exists s', step s s'.
Proof.
  intros R. assert (exists s', retire_step j s = Some s'). { unfold retire_step. destruct (ph s j); cbn in R; try lia; eauto. destruct (dl s j); eauto. }
  destruct H as (s' & H). exists s', (LRet j). exact H.
Qed.
(** No deadlock unless an instruction was counted but never queued. *)
Lemma progress s : reach s -> fe s <> FEnd -> fe s <> FAbort -> leak s = 0 -> exists s', step s s'.
Proof.
  intros R NE NA LK. assert (SI : sinv s) by (eapply reach_sinv; eauto).
  assert (M : forall s', main_step p glim r0 s = Some s' -> exists s', step s s') by (intros s' E; exists s', LMain; exact E).
  unfold main_step in M. destruct (fe s) as [|n ds|[n|]|o j|e| |] eqn:F; try congruence; eauto.
  - destruct (chan s); eauto.
  - destruct (infl s =? 0) eqn:I; eauto. destruct (chan s) as [|m rest] eqn:Ch; eauto.
    pose proof (s_acc _ SI) as A. rewrite Ch, LK in A. change (cret []) with 0 in A.
    destruct (someone_retires s SI Ch ltac:(rewrite F; discriminate) ltac:(lia)) as (j & Rj). eapply retire_enabled; eauto.
  - pose proof (c_busy _ _ _ _ _ _ (s_core _ SI) o j F) as B. destruct (Nat.eq_dec (rank (ph s j)) 6) as [E|E]; [|apply (retire_enabled s j); assert (rank (ph s j) <= 6) by (destruct (ph s j); cbn; lia); lia].
    apply rank_6 in E. rewrite E in M. eauto.
Qed.
(** If one was, the processor never finishes. *)
Lemma leak_mono s s' : step s s' -> leak s <> 0 -> leak s' <> 0.
Proof.
  intros H. apply step_trans in H. destruct H; pj; auto; try lia.
  - prel n s. congruence.
  - destruct (exec_ok_proj r0 j e m vs o (set_chan rest s)) as (Q1 & Q2 & Q3 & Q4 & Q5 & Q6 & Q7 & Q8 & Q9 & Q10 & Q11 & Q12 & Q13 & Q14 & Q15 & Q16 & Q17 & Q18). pj. congruence.
  - prel d (set_dl (upd (dl s) j rest) s). pj. congruence.
  - destruct H; pj; auto; lia.
Qed.
Lemma leak_hangs s : reach s -> leak s <> 0 -> fe s <> FEnd.
Proof.
  intros R L F. assert (SI : sinv s) by (eapply reach_sinv; eauto; congruence). destruct (end_infl p glim r0 m0 pc0 s R F) as [I _]. pose proof (s_acc _ SI). lia.
Qed.

(** ** Termination *)
Definition wt (x : phase) : nat := 2 * (7 - rank x).
Definition fw (f : front) : nat :=
  match f with FLink _ ds => 10 + 3 * length ds | FBusy (Some _) _ => 7 | FPump (Some _) => 6 | FFetch => 5 | FFail _ => 4 | FBusy None _ => 3 | FPump None => 2 | FEnd => 1 | FAbort => 0 end.
Definition inner (s : cpu) : nat := sumn (fun j => wt (ph s j)) (length (ents s)) + sumn (fun j => length (dl s j)) (length (ents s)) + length (chan s) + fw (fe s).

Lemma sum_upd f (F : phase -> nat) n j x : j < n -> sumn (fun k => F (upd f j x k)) n + F (f j) = sumn (fun k => F (f k)) n + F x.
Proof.
  intros L. pose proof (sumn_upd (fun k => F (f k)) (fun k => F (upd f j x k)) j n L) as E. cbn beta in E. rewrite upd_same in E. apply E. intros t Ht. now rewrite upd_other.
Qed.
Lemma sum_upd_dl f n j (x : list nat) : j < n -> sumn (fun k => length (upd f j x k)) n + length (f j) = sumn (fun k => length (f k)) n + length x.
Proof.
  intros L. pose proof (sumn_upd (fun k => length (f k)) (fun k => length (upd f j x k)) j n L) as E. cbn beta in E. rewrite upd_same in E. apply E. intros t Ht. now rewrite upd_other.
Qed.
Lemma release_inner s d : rank (ph s d) = 1 -> d < length (ents s) -> inner (release d s) <= inner s.
Proof.
  intros R L. prel d s. unfold inner. rewrite RPents, RPph, RPdl, RPchan, RPfe. destruct (nd s d =? 1); [|auto]. rewrite app_length. cbn [length].
  pose proof (sum_upd (ph s) wt (length (ents s)) d PQueued L) as E. unfold wt in E at 2 4; cbn beta in E; rewrite R in E; cbn [rank Nat.sub Nat.mul Nat.add] in E. lia.
Qed.

Lemma inner_dec s s' : sinv s -> trans s s' -> fe s' <> FAbort -> length (ents s') = length (ents s) /\ inner s' < inner s \/
  fe s = FFetch /\ fault s = None /\ length (ents s') = S (length (ents s)).
Proof.
  intros SI TR NA. pose proof (s_core _ SI) as C.
  assert (SM : forall s', length (ents s') = length (ents s) -> ph s' = ph s -> dl s' = dl s -> length (chan s') + fw (fe s') < length (chan s) + fw (fe s) -> inner s' < inner s).
  { intros s0 E P D L. unfold inner. rewrite E, P, D. lia. }
  destruct TR as [e F Fa|e F Fa Fe|i F Fa Fe G|i e F Fa Fe G Ft|i foot F Fa Fe G Ft|n d ds F D L|n d ds F D L|n F|n e pc g F Ch En Np G|n e F Ch En Np|n e x F Ch En Np|F I
    |o r rest F I Ch|o j rest e x F I Ch En Fa|o j rest e m vs F I Ch En Fa X|o j rest e m x F I Ch En Fa X|o j F P|e F|j r P|j r P|j r d rest P D|j r P D|s' A].
  - left. split; [auto|]. apply SM; pj; auto. rewrite F. cbn. lia.
  - left. split; [auto|]. apply SM; pj; auto. rewrite F. cbn. lia.
  - left. split; [auto|]. apply SM; pj; auto. rewrite F. cbn. lia.
  - left. split; [auto|]. apply SM; pj; auto. rewrite F. cbn. lia.
  - right. pj. rewrite app_length. cbn. split; [auto|]. split; [auto|lia].
  - left. split; [auto|]. rewrite F in C. destruct (c_front _ _ _ _ _ _ C) as [Hn Hd]. assert (Dd : is_dep (ents s) n d) by (apply Hd; now left). pose proof (c_dep _ _ _ _ _ _ C n d Dd).
    pose proof (sum_upd_dl (dl s) (length (ents s)) d (n :: dl s d) ltac:(lia)) as E. unfold inner. pj. rewrite F. cbn [length fw] in *. lia.
  - left. split; [auto|]. apply SM; pj; auto. rewrite F. cbn. lia.
  - left. rewrite F in C. destruct (c_front _ _ _ _ _ _ C) as [Hn _]. assert (Bn : rank (ph s n) = 1). { apply (c_blocked _ _ _ _ _ _ C). rewrite (c_nd _ _ _ _ _ _ C). cbn. rewrite Nat.eqb_refl. lia. }
    pose proof (release_inner s n Bn ltac:(lia)) as RI. prel n s. pj. split; [congruence|]. unfold inner in *. pj. rewrite RPfe in RI. rewrite F in *. cbn [fw length] in *. lia.
  - left. split; [auto|]. apply SM; pj; auto. rewrite F. cbn. lia.
  - left. split; [auto|]. apply SM; pj; auto. rewrite F. cbn. lia.
  - left. split; [auto|]. apply SM; pj; auto. rewrite F. cbn. lia.
  - left. split; [auto|]. apply SM; pj; auto. rewrite F. cbn. lia.
  - left. split; [auto|]. apply SM; pj; auto. rewrite Ch. cbn. lia.
  - left. split; [auto|]. rewrite F, Ch in C. destruct (core_exec _ _ _ _ _ _ _ (PRet None) C eq_refl) as [C' Rj]. assert (Lj : j < length (ents s)) by (apply nth_error_Some; congruence).
    pose proof (sum_upd (ph s) wt (length (ents s)) j (PRet None) Lj) as E. unfold wt in E at 2 4; cbn beta in E; rewrite Rj in E; cbn [rank Nat.sub Nat.mul Nat.add] in E. unfold inner. pj. rewrite F, Ch. cbn [length]. destruct o; cbn [fw]; lia.
  - left. destruct (exec_ok_proj r0 j e m vs o (set_chan rest s)) as (Q1 & Q2 & Q3 & Q4 & Q5 & Q6 & Q7 & Q8 & Q9 & Q10 & Q11 & Q12 & Q13 & Q14 & Q15 & Q16 & Q17 & Q18). pj.
    split; [congruence|]. rewrite F, Ch in C. destruct (core_exec _ _ _ _ _ _ _ (PRet None) C eq_refl) as [C' Rj]. assert (Lj : j < length (ents s)) by (apply nth_error_Some; congruence).
    pose proof (sum_upd (ph s) wt (length (ents s)) j (PRet None) Lj) as E. unfold wt in E at 2 4; cbn beta in E; rewrite Rj in E; cbn [rank Nat.sub Nat.mul Nat.add] in E. unfold inner. rewrite Q1, Q4, Q7, Q9, Q11, F, Ch. cbn [length]. destruct o; destruct (spawns _ _); cbn [fw]; lia.
  - left. split; [auto|]. rewrite F, Ch in C. destruct (core_exec _ _ _ _ _ _ _ (PRet None) C eq_refl) as [C' Rj]. assert (Lj : j < length (ents s)) by (apply nth_error_Some; congruence).
    pose proof (sum_upd (ph s) wt (length (ents s)) j (PRet (Some x)) Lj) as E. unfold wt in E at 2 4; cbn beta in E; rewrite Rj in E; cbn [rank Nat.sub Nat.mul Nat.add] in E. unfold inner. pj. rewrite F, Ch. cbn [length]. destruct o; cbn [fw]; lia.
  - left. split; [auto|]. apply SM; pj; auto. rewrite F. destruct o; cbn; lia.
  - left. split; [auto|]. apply SM; pj; auto. rewrite F. cbn. lia.
  - left. split; [auto|]. assert (Lj : j < length (ents s)) by (apply (c_rank _ _ _ _ _ _ C); rewrite P; cbn; lia).
    pose proof (sum_upd (ph s) wt (length (ents s)) j (PLock r) Lj) as E. unfold wt in E at 2 4; cbn beta in E; rewrite P in E; cbn [rank Nat.sub Nat.mul Nat.add] in E. unfold inner. pj. lia.
  - left. split; [auto|]. assert (Lj : j < length (ents s)) by (apply (c_rank _ _ _ _ _ _ C); rewrite P; cbn; lia).
    pose proof (sum_upd (ph s) wt (length (ents s)) j (PDrain r) Lj) as E. unfold wt in E at 2 4; cbn beta in E; rewrite P in E; cbn [rank Nat.sub Nat.mul Nat.add] in E. unfold inner. pj. lia.
  - left. assert (Lj : j < length (ents s)) by (apply (c_rank _ _ _ _ _ _ C); rewrite P; cbn; lia). destruct (c_list _ _ _ _ _ _ C j d ltac:(rewrite D; left; auto)) as (Bd & Dd & _). pose proof (is_dep_lt _ _ _ Dd) as Ld.
    pose proof (release_inner (set_dl (upd (dl s) j rest) s) d) as RI. pj. specialize (RI Bd Ld). prel d (set_dl (upd (dl s) j rest) s). pj. split; [congruence|].
    pose proof (sum_upd_dl (dl s) (length (ents s)) j rest Lj) as E. rewrite D in E. cbn [length] in E. unfold inner in RI at 2. unfold inner. pj. unfold inner in RI. lia.
  - left. split; [auto|]. assert (Lj : j < length (ents s)) by (apply (c_rank _ _ _ _ _ _ C); rewrite P; cbn; lia).
    pose proof (sum_upd (ph s) wt (length (ents s)) j PDone Lj) as E. unfold wt in E at 2 4; cbn beta in E; rewrite P in E; cbn [rank Nat.sub Nat.mul Nat.add] in E. unfold inner. pj. rewrite app_length. cbn [length]. lia.
  - apply why_abort in A. congruence.
Qed.

(** Every execution is finite, as soon as the number of dispatched instructions is bounded and the main thread does not panic. *)
Lemma finite_if_bounded N (P : cpu -> Prop) : (forall s, P s -> reach s /\ fe s <> FAbort) -> (forall s s', P s -> step s s' -> P s') ->
  (forall s, P s -> fe s = FFetch -> fault s = None -> length (ents s) < N) ->
  forall s, P s -> Acc (fun y x => step x y) s.
Proof.
  intros PR PS PB. assert (G : forall a b s, N - length (ents s) = a -> inner s = b -> P s -> Acc (fun y x => step x y) s).
  { intros a. induction a as [a IHa] using lt_wf_ind. intros b. induction b as [b IHb] using lt_wf_ind. intros s Ea Eb Ps. constructor. intros y Sy.
    destruct (PR s Ps) as [R NA]. assert (SI : sinv s) by (eapply reach_sinv; eauto). pose proof (PS s y Ps Sy) as Py. destruct (PR y Py) as [_ NY].
    destruct (inner_dec s y SI (step_trans _ _ _ _ _ Sy) NY) as [[E I]|(F & Fa & E)].
    - eapply (IHb (inner y)); eauto; lia.
    - pose proof (PB s Ps F Fa). eapply (IHa (N - length (ents y))); eauto. lia. }
  intros s Ps. eapply G; eauto.
Qed.
End Live.
