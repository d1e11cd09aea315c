(** Proofs: what a fault does; the instructions dispatched; a failing address computation hangs; the return value. *)
From Coq Require Import ZifyBool ZifyNat.
From Verif Require Import Base Alu Memory Isa SpecMem Processor SpecCpu ProcessorProofs ProcessorProofs2 ProcessorProofs3 ProcessorProofs4 ProcessorProofs5 ProcessorProofs6 ProcessorProofs7 ProcessorProofs8 ProcessorProofs9 ProcessorProofs10.
Open Scope nat_scope.

Section Faults.
Context (p : profile) (glim : option Z) (r0 : Z -> reg) (m0 : mem) (pc0 : Z).
Local Notation T := (T p r0 m0).
Local Notation rob := (rob r0).
Local Notation trans := (trans p glim r0).
Local Notation reach := (reach p glim r0 m0 pc0).
Local Notation step := (step p glim r0).
Local Notation steps := (steps p glim r0).
Local Notation start := (start r0 m0 pc0).
Local Notation St := (St p r0 m0).
Local Notation SF := (SF p r0 m0 pc0).

Record frozen (s s' : cpu) : Prop := { z_fault : fault s' = fault s; z_mm : mm s' = mm s; z_dv : dv s' = dv s; z_rm : rm s' = rm s; z_dbg : dbg s' = dbg s; z_ents : ents s' = ents s }.
Lemma frozen_step s s' e : fault s = Some e -> step s s' -> frozen s s'.
Proof.
  intros Fa TR. apply step_trans in TR.
  destruct TR as [x F _|x F Fn Fe|i F Fn Fe G|i x F Fn Fe G Ft|i foot F Fn Fe G Ft|n d ds F D' L|n d ds F D' L|n F|n x pc g F Ch En Np G|n x F Ch En Np|n y x F Ch En Np|F I
    |o r rest F I Ch|o j rest y x F I Ch En _|o j rest x m vs F I Ch En Fn X|o j rest y m x F I Ch En Fn X|o j F P|x F|j r P|j r P|j r d rest P D'|j r P D'|s' A]; try congruence;
    try solve [split; pj; auto; try (rewrite Fa; auto)].
  - prel n s. split; pj; congruence.
  - prel d (set_dl (upd (dl s) j rest) s). split; pj; congruence.
  - destruct A; split; pj; auto.
Qed.

Theorem fault_freezes s e s' : fault s = Some e -> steps s s' -> fault s' = Some e /\ mm s' = mm s /\ (forall r, rob s' (rm s' r) = rob s (rm s r)) /\ dbg s' = dbg s /\ ents s' = ents s.
Proof.
  intros Fa R. induction R as [|s1 s2 R IH ST]; [auto|]. destruct IH as (A & B & C & D & E). destruct (frozen_step s1 s2 e A ST) as [Z1 Z2 Z3 Z4 Z5 Z6].
  split; [congruence|]. split; [congruence|]. split; [|split; congruence]. intros r. rewrite <- C. unfold Processor.rob. now rewrite Z4, Z3.
Qed.

(** The instructions dispatched are those of the program run one instruction at a time. *)
Theorem dispatched_in_order s k e : (0 <= pc0)%Z -> reach s -> hazard s = false -> fe s <> FAbort -> nth_error (ents s) k = Some e ->
  SF \/ exists s1, seq_run p start k s1 /\ m_pc s1 = e_pc e /\ fetch (m_mem s1) (m_pc s1) = Ok (e_ins e).
Proof.
  intros P R H F N. destruct (reach_vinv p glim r0 m0 pc0 s P R F H) as [E W V]. pose proof (n_path _ _ _ _ _ V) as PA. pose proof (nth_error_Some (ents s) k) as L.
  destruct (fail_or_ok p r0 m0 pc0 (ents s) k ltac:(assert (k < length (ents s)) by (apply L; congruence); lia)) as [B|(j & x & Lk & Nk & Ok & B)]; [|left; eapply SF_first; eauto].
  right. exists (St (ents s) (e_pc e) k). split; [apply run_to; auto|]. cbn [ProcessorProofs7.St m_pc m_mem]. split; [auto|]. now apply PA.
Qed.

(** ** After a fault the run finishes, unless an instruction was counted but never queued. *)
Lemma reach_steps s s' : reach s -> steps s s' -> reach s'.
Proof. intros R ST. induction ST as [|a b ST IH S1]; [auto|]. econstructor; eauto. Qed.
Lemma frozen_leak s s' e : fault s = Some e -> step s s' -> leak s' = leak s.
Proof.
  intros Fa TR. apply step_trans in TR. destruct TR; try congruence; pj; auto.
  - prel n s. congruence.
  - prel d (set_dl (upd (dl s) j rest) s). pj. congruence.
  - destruct H; pj; auto; congruence.
Qed.
Lemma frozen_leaks s s' e : fault s = Some e -> steps s s' -> leak s' = leak s.
Proof. intros Fa ST. induction ST as [|a b ST IH S1]; [auto|]. destruct (fault_freezes s e a Fa ST) as [Fb _]. rewrite (frozen_leak a b e Fb S1). exact IH. Qed.

Theorem fault_finishes s e : reach s -> fault s = Some e -> fe s <> FAbort -> leak s = 0 ->
  Acc (fun y x => step x y /\ fe y <> FAbort) s /\
  forall s', steps s s' -> fe s' = FAbort \/ fault s' = Some e /\ (fe s' = FEnd \/ exists s2, step s' s2).
Proof.
  intros R Fa NA LK. split.
  - remember (inner s) as b eqn:Eb. revert s R Fa NA LK Eb. induction b as [b IH] using lt_wf_ind. intros s R Fa NA LK Eb. constructor. intros y [Sy Ny].
    assert (SI : sinv s) by (eapply reach_sinv; eauto). destruct (inner_dec p glim r0 pc0 s y SI (step_trans _ _ _ _ _ Sy) Ny) as [[E I]|(F & Fn & E)]; [|congruence].
    apply (IH (inner y)); auto; [lia|econstructor; eauto| |rewrite (frozen_leak s y e Fa Sy); auto]. destruct (frozen_step s y e Fa Sy) as [Z _ _ _ _ _]. congruence.
  - intros s' ST. destruct (fault_freezes s e s' Fa ST) as [Fb _]. assert (D : fe s' = FAbort \/ fe s' <> FAbort) by (destruct (fe s'); try (right; discriminate); auto). destruct D as [D|D]; [auto|]. right. split; [auto|].
    assert (D2 : fe s' = FEnd \/ fe s' <> FEnd) by (destruct (fe s'); try (right; discriminate); auto). destruct D2 as [D2|D2]; [auto|]. right.
    apply (progress p glim r0 m0 pc0); auto; [eapply reach_steps; eauto|]. rewrite (frozen_leaks s s' e Fa ST). exact LK.
Qed.

(** A load or store whose address cannot be computed: the run neither returns nor panics nor goes on: it hangs. *)
Definition doomed (s : cpu) : Prop := leak s <> 0 /\ match fe s with FFail _ => True | FPump None | FBusy None _ => fault s <> None | _ => False end.
Lemma doomed_step s s' : reach s -> doomed s -> step s s' -> doomed s'.
Proof.
  intros R [L D] ST. split; [eapply leak_mono; eauto|]. pose proof ST as ST0. assert (NE : fe s <> FEnd) by (eapply leak_hangs; eauto). assert (NA : fe s <> FAbort) by (intros K; rewrite K in D; auto).
  assert (SI : sinv s) by (eapply reach_sinv; eauto). pose proof (s_core _ SI) as C. apply step_trans in ST.
  assert (FA : fault s <> None -> fault s' <> None). { intros Fa. destruct (fault s) as [x|] eqn:Ex; [|congruence]. destruct (frozen_step s s' x Ex ST0) as [Z _ _ _ _ _]. congruence. }
  destruct ST as [e F Fa|e F Fa Fe|i F Fa Fe G|i e F Fa Fe G Ft|i foot F Fa Fe G Ft|n d ds F D' Lk|n d ds F D' Lk|n F|n e pc g F Ch En Np G|n e F Ch En Np|n e x F Ch En Np|F I
    |o r rest F I Ch|o j rest e x F I Ch En Fa|o j rest e m vs F I Ch En Fa X|o j rest e m x F I Ch En Fa X|o j F P|e F|j r P|j r P|j r d rest P D'|j r P D'|s' A]; try (rewrite F in D; try (destruct o; [contradiction|]); try contradiction); pj; auto; try congruence.
  - exfalso. pose proof (s_acc _ SI). lia.
  - rewrite F. auto.
  - destruct (set_first (fault s) (Some e)) eqn:E; [discriminate|]. unfold set_first in E. destruct (fault s); discriminate.
  - destruct (fe s) as [| |[|]|[|]| | |]; auto.
  - prel d (set_dl (upd (dl s) j rest) s). pj. rewrite RPfe. destruct (fe s) as [| |[|]|[|]| | |]; auto.
  - destruct A as [F Fa Fe|i F Fa Fe Ft|n ds F|n F En|n e F Ch En Np|n e pc F Ch En Np G|o j rest F Ch En|o j rest e m F Ch En Fa X]; pj; rewrite F in D; try contradiction.
    + destruct o; [contradiction|]. rewrite F, Ch in C. destruct (core_exec _ _ _ _ _ _ _ (PRet None) C eq_refl) as [_ Rj]. apply nth_error_None in En. assert (j < length (ents s)) by (apply (c_rank _ _ _ _ _ _ C); lia). lia.
    + destruct o; [contradiction|]. congruence.
Qed.
Theorem bad_address_hangs s i x s1 : reach s -> fe s = FFetch -> fault s = None -> fetch (mm s) (pcv s) = Ok i ->
  (match glim with Some l => (compute_gas i (map (rob s) (map (rm s) (src_regs i))) <= l)%Z | None => True end) ->
  footprint i (map (rob s) (map (rm s) (src_regs i))) = Err x -> main_step p glim r0 s = Some s1 ->
  Acc (fun y x => step x y) s1 /\ forall s', steps s1 s' -> fe s' <> FEnd /\ fe s' <> FAbort.
Proof.
  intros R F Fa Fe G Ft M. assert (D1 : doomed s1).
  { unfold main_step in M. rewrite F in M. injection M as <-. unfold fetch_step. rewrite Fa. cbn [mm pcv set_hazard]. rewrite Fe. unfold dispatch. cbn [ents rm set_hazard].
    change (map (Processor.rob r0 (set_hazard (consult s (code_clear s (pcv s))) s))) with (map (rob s)). rewrite Ft.
    replace (match glim with Some l => (l <? compute_gas i (map (rob s) (map (rm s) (src_regs i))))%Z | None => false end) with false by (destruct glim; [symmetry; apply Z.ltb_ge; exact G|auto]).
    split; cbn; [lia|auto]. }
  assert (R1 : reach s1) by (econstructor; [eauto|exists LMain; exact M]).
  assert (Q : forall a, reach a -> doomed a -> fe a <> FEnd /\ fe a <> FAbort). { intros a _ [_ D]. split; intros K; rewrite K in D; auto. }
  split.
  - apply (finite_if_bounded p glim r0 m0 pc0 0 (fun a => reach a /\ doomed a)).
    + intros a [Ra Da]. split; [auto|]. now apply Q.
    + intros a b [Ra Da] Sb. split; [econstructor; eauto|eapply doomed_step; eauto].
    + intros a [Ra [_ Da]] Ka. rewrite Ka in Da. contradiction.
    + auto.
  - intros s' ST. assert (RD : reach s' /\ doomed s'). { induction ST as [|a b ST IH S1]; [auto|]. destruct IH as [Ra Da]. split; [econstructor; eauto|eapply doomed_step; eauto]. } destruct RD. now apply Q.
Qed.

(** The bytes a program returns. *)
Lemma return_same ret_size rp m1 m2 : (0 <= rp)%Z -> same_mem m1 m2 -> capture_return ret_size rp m1 = capture_return ret_size rp m2.
Proof. intros P S1. apply load_from_local; [exact P|reflexivity|auto]. Qed.

(** ** Gas *)
Definition total (es : list entry) : Z := fold_right (fun e a => (e_gas e + a)%Z) 0%Z es.
Lemma total_app xs ys : total (xs ++ ys) = (total xs + total ys)%Z.
Proof. unfold total. induction xs as [|x xs IH]; cbn [fold_right app]; lia. Qed.
Lemma uadd_mod w a b r : (0 <= w)%Z -> (0 <= a)%Z -> (0 <= b)%Z -> uadd p w a b = Ok r -> r = ((a + b) mod 2 ^ w)%Z.
Proof.
  unfold uadd, uwrap. intros W A B H. destruct (a + b <? 2 ^ w)%Z eqn:E; [|destruct p; [discriminate|]; congruence]. injection H as <-. symmetry. apply Z.mod_small. lia.
Qed.
Lemma uadd_debug w a b r : p = Debug -> uadd p w a b = Ok r -> r = (a + b)%Z.
Proof. intros -> H. unfold uadd in H. destruct (a + b <? 2 ^ w)%Z; congruence. Qed.
Lemma halt_ret i vals pc : next_pc p i vals pc = Ok NHalt -> op i = ORet.
Proof.
  unfold next_pc. destruct (op i) eqn:O; auto; repeat match goal with |- context [match ?x with _ => _ end] => destruct x end; try discriminate; cbn [bind]; try destruct (uadd p 32 pc 8); discriminate.
Qed.
Record kinv (s : cpu) : Prop := {
  k_ent : forall e, In e (ents s) -> (0 <= e_gas e)%Z /\ (forall l, glim = Some l -> (e_gas e <= l)%Z) /\ (op (e_ins e) = ORet -> e_gas e = 0%Z);
  k_pos : (0 <= gasv s)%Z;
  k_tot : fault s = None -> (forall e, fe s <> FFail e) -> gasv s = (total (firstn (counted s) (ents s)) mod 2 ^ 32)%Z;
  k_dbg : fault s = None -> (forall e, fe s <> FFail e) -> p = Debug -> gasv s = total (firstn (counted s) (ents s))
}.
Lemma firstn_snoc_all (es : list entry) e : firstn (length es) (es ++ [e]) = es.
Proof. rewrite firstn_app, Nat.sub_diag. cbn. now rewrite app_nil_r, firstn_all. Qed.
Lemma last_split (es : list entry) n e : S n = length es -> nth_error es n = Some e -> es = firstn n es ++ [e].
Proof.
  intros L N. rewrite <- (firstn_skipn n es) at 1. f_equal. pose proof (skipn_length n es) as K. destruct (skipn n es) as [|x [|y t]] eqn:E; cbn in K; try lia.
  f_equal. rewrite <- (firstn_skipn n es), E, nth_error_app2 in N by (rewrite firstn_length; lia). rewrite firstn_length in N. replace (n - Nat.min n (length es)) with 0 in N by lia. cbn in N. congruence.
Qed.
Lemma total_last (es : list entry) n e : S n = length es -> nth_error es n = Some e -> total es = (total (firstn (length es - 1) es) + e_gas e)%Z.
Proof. intros L N. pose proof (last_split es n e L N) as E. rewrite E at 1. rewrite total_app. rewrite <- L. replace (S n - 1) with n by lia. cbn. lia. Qed.
Local Ltac kk F := match type of F with _ = _ => idtac end; match goal with KT : _ -> _ -> gasv _ = _, KD : _ -> _ -> _ -> gasv _ = _ |- _ => rewrite F in *; split; unfold counted; pj; auto; intros; [apply KT|apply KD]; auto; discriminate end.
Lemma kinv_trans s s' : sinv s -> kinv s -> trans s s' -> fe s' <> FAbort -> kinv s'.
Proof.
  intros SI [KE KP KT KD] TR NA. pose proof (s_core _ SI) as C. pose proof (c_front _ _ _ _ _ _ C) as CF. unfold counted in *.
  destruct TR as [e F Fa|e F Fa Fe|i F Fa Fe G|i e F Fa Fe G Ft|i foot F Fa Fe G Ft|n d ds F D' L|n d ds F D' L|n F|n e pc g F Ch En Np G|n e F Ch En Np|n e x F Ch En Np|F I
    |o r rest F I Ch|o j rest e x F I Ch En Fa|o j rest e m vs F I Ch En Fa X|o j rest e m x F I Ch En Fa X|o j F P|e F|j r P|j r P|j r d rest P D'|j r P D'|s' A];
    try solve [split; unfold counted; pj; auto; rewrite F in *; try discriminate; try congruence; intros Fa' Fe'; try (exfalso; apply (Fe' _ eq_refl)); try (destruct o); intuition (try discriminate; auto)].
  - split; unfold counted; pj.
    + intros x Ix. apply in_app_iff in Ix as [Ix|[<-|[]]]; [auto|]. cbn [e_gas e_ins]. split; [apply gas_pos|]. split.
      * intros l El. unfold over, gas_of in G. rewrite El in G. unfold gas_of. change (map (rob (h2 i (h1 s)))) with (map (rob s)). lia.
      * intros O. unfold gas_of, compute_gas. now rewrite O.
    + auto.
    + intros _ _. rewrite app_length. cbn [length]. replace (length (ents s) + 1 - 1) with (length (ents s)) by lia. rewrite firstn_snoc_all. rewrite F in KT. rewrite KT by (auto; discriminate). now rewrite firstn_all.
    + intros _ _ Dp. rewrite app_length. cbn [length]. replace (length (ents s) + 1 - 1) with (length (ents s)) by lia. rewrite firstn_snoc_all. rewrite F in KD. rewrite KD by (auto; discriminate). now rewrite firstn_all.
  - rewrite F in *. split; unfold counted; pj; auto; intros; [apply KT|apply KD]; auto; discriminate.
  - rewrite F in *. split; unfold counted; pj; auto; intros; [apply KT|apply KD]; auto; discriminate.
  - prel n s. split; unfold counted; pj; rewrite ?RPents, ?RPgas, ?RPfault; auto; rewrite F in *; intros; [apply KT|apply KD]; auto; discriminate.
  - rewrite F in *. assert (GE := KE e (nth_error_In _ _ En)). destruct GE as [G0 [GL _]]. pose proof (total_last _ _ _ CF En) as TL. split; unfold counted; pj; auto.
    + pose proof (uadd_le p 32 (gasv s) (e_gas e) g KP G0 ltac:(lia) G). lia.
    + intros Fa _. specialize (KT Fa ltac:(discriminate)). apply uadd_mod in G; try lia. rewrite G, KT, Zplus_mod_idemp_l. f_equal. rewrite firstn_all. lia.
    + intros Fa _ Dp. specialize (KD Fa ltac:(discriminate) Dp). apply uadd_debug in G; auto. rewrite G, KD. rewrite firstn_all. lia.
  - rewrite F in *. assert (GE := KE e (nth_error_In _ _ En)). destruct GE as [G0 [GL GR]]. specialize (GR (halt_ret _ _ _ Np)).
    assert (E : total (firstn (length (ents s)) (ents s)) = total (firstn (length (ents s) - 1) (ents s))).
    { rewrite firstn_all. pose proof (total_last _ _ _ CF En). lia. }
    split; unfold counted; pj; auto; intros; rewrite E; [apply KT|apply KD]; auto; discriminate.
  - kk F.
  - split; unfold counted; pj; auto; (intros Fa Fe; destruct (fault s); [discriminate|]); [apply KT|apply KD]; auto.
  - destruct (exec_ok_proj r0 j e m vs o (set_chan rest s)) as (Q1 & Q2 & Q3 & Q4 & Q5 & Q6 & Q7 & Q8 & Q9 & Q10 & Q11 & Q12 & Q13 & Q14 & Q15 & Q16 & Q17 & Q18). pj.
    rewrite F in *. split; unfold counted; rewrite ?Q1, ?Q3, ?Q4, ?Q13; auto; intros; destruct (spawns _ _), o; (apply KT || apply KD); auto; discriminate.
  - destruct o; kk F.
  - destruct o; kk F.
  - split; unfold counted; pj; auto; intros K; destruct (fault s); discriminate.
  - split; unfold counted; pj; auto; (intros Fa Fe; destruct (fault s); [discriminate|]); [apply KT|apply KD]; auto.
  - prel d (set_dl (upd (dl s) j rest) s). pj. split; unfold counted; rewrite ?RPents, ?RPgas, ?RPfault, ?RPfe; auto.
  - apply why_abort in A. congruence.
Qed.
Lemma reach_kinv s : reach s -> fe s <> FAbort -> kinv s.
Proof.
  apply (reach_ind' p glim r0 m0 pc0). { split; cbn; auto; [contradiction|lia]. }
  intros a b R IH Fa Fb TR. eapply kinv_trans; eauto. eapply reach_sinv; eauto.
Qed.
Theorem gas_reported s : reach s -> fe s = FEnd -> fault s = None ->
  gasv s = (total (ents s) mod 2 ^ 32)%Z /\ (p = Debug -> gasv s = total (ents s)) /\ forall e, In e (ents s) -> (0 <= e_gas e)%Z /\ forall l, glim = Some l -> (e_gas e <= l)%Z.
Proof.
  intros R F Fa. destruct (reach_kinv s R ltac:(congruence)) as [KE KP KT KD]. unfold counted in *. rewrite F in *. rewrite firstn_all in *. split; [apply KT; auto; discriminate|]. split; [apply KD; auto; discriminate|]. intros e I. split; apply KE; auto.
Qed.
End Faults.
