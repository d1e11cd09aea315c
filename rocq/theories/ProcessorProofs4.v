(** Proofs: scheduling invariants of every reachable state of the out-of-order processor. *)
From Coq Require Import ZifyBool ZifyNat.
From Verif Require Import Base Alu Memory Isa Processor ProcessorProofs ProcessorProofs3.
Open Scope nat_scope.

Definition undone (f : nat -> phase) (n : nat) : nat := sumn (fun k => if rank (f k) =? 6 then 0 else 1) n.
Record sinv (s : cpu) : Prop := {
  s_core : core (fe s) (ents s) (ph s) (nd s) (dl s) (chan s);
  s_rm : forall r j q, rm s r = RDst j q -> j < length (ents s);
  s_mops : forall a j, mops s a = Some j -> j < length (ents s);
  s_xs : forall j, xs s j = XNo <-> rank (ph s j) <= 2;
  s_cl : forall k t, xs s k = XOk -> is_dep (ents s) k t -> xs s t = XOk;
  s_skip : forall j, xs s j = XSkip -> fault s <> None;
  s_fail : forall j, xs s j = XFail -> fault s <> None \/ exists o e, fe s = FBusy o j /\ ph s j = PRet (Some e);
  s_lock : forall j e, ph s j = PLock (Some e) \/ ph s j = PDrain (Some e) -> fault s <> None;
  s_msg : forall e, In (MRetire (Some e)) (chan s) -> fault s <> None;
  s_acc : infl s = undone (ph s) (length (ents s)) + cret (chan s) + leak s;
  s_leak : leak s <> 0 -> fault s <> None \/ exists e, fe s = FFail e
}.

Lemma cret_app a b : cret (a ++ b) = cret a + cret b.
Proof. unfold cret. now rewrite filter_app, app_length. Qed.
Lemma undone_ext f g n : (forall k, k < n -> rank (f k) = 6 <-> rank (g k) = 6) -> undone f n = undone g n.
Proof. intros H. apply sumn_ext. intros t Ht. specialize (H t Ht). destruct (rank (f t) =? 6) eqn:A, (rank (g t) =? 6) eqn:B; lia. Qed.
Lemma undone_upd f n j x : j < n -> rank (f j) <> 6 -> rank x <> 6 -> undone (upd f j x) n = undone f n.
Proof. intros H A B. apply undone_ext. intros k _. ucase k j; lia. Qed.
Lemma undone_done f n j x : j < n -> rank (f j) <> 6 -> rank x = 6 -> S (undone (upd f j x) n) = undone f n.
Proof.
  intros H A B. unfold undone. pose proof (sumn_upd (fun k => if rank (f k) =? 6 then 0 else 1) (fun k => if rank (upd f j x k) =? 6 then 0 else 1) j n H) as E.
  cbn beta in E. rewrite upd_same in E. specialize (E ltac:(intros t Ht; now rewrite upd_other)). destruct (rank (f j) =? 6) eqn:E1; destruct (rank x =? 6) eqn:E2; lia.
Qed.
Lemma first_some a b : a <> None -> set_first a b <> None.
Proof. destruct a; cbn; congruence. Qed.

Lemma mem_deps_in s foot j : In j (mem_deps s foot) <-> exists a, In a foot /\ mops s a = Some j.
Proof.
  unfold mem_deps. rewrite in_flat_map. split; intros (a & H & I); exists a; split; auto; destruct (mops s a) as [k|]; cbn in *; try tauto; [destruct I as [->|[]]; auto|injection I as ->; auto|discriminate].
Qed.
Lemma rename_src n ds : forall q f r j i, rename n q ds f r = RDst j i -> j = n \/ f r = RDst j i.
Proof.
  induction ds as [|d ds IH]; intros q f r j i H; cbn [rename] in H; [auto|]. apply IH in H as [H|H]; [auto|]. destruct (r =? d)%Z; [injection H as <- <-; auto|auto].
Qed.
Lemma touch_some n foot f a j : touch n foot f a = Some j -> j = n \/ f a = Some j.
Proof. unfold touch. destruct (existsb _ _); intros H; [injection H as <-; auto|auto]. Qed.
Lemma deps_lt i foot s : sinv s -> forall d, In d (flat_map producer (map (rm s) (src_regs i)) ++ mem_deps s foot) -> d < length (ents s).
Proof.
  intros H d I. apply in_app_or in I as [I|I].
  - apply in_flat_map in I as (x & I & J). apply in_map_iff in I as (r & E & _). destruct x as [|j q]; cbn in J; [tauto|]. destruct J as [<-|[]]. eapply s_rm; eauto.
  - apply mem_deps_in in I as (a & _ & I). eapply s_mops; eauto.
Qed.
(** No instruction is known to have failed while the main thread is not retiring it. *)
Lemma no_bad s : sinv s -> fault s = None -> (forall o j, fe s <> FBusy o j) -> forall j, xs s j = XNo \/ xs s j = XOk.
Proof.
  intros H N F j. destruct (xs s j) eqn:E; auto.
  - destruct (s_fail _ H j E) as [A|(o & x & A & _)]; [congruence|]. exfalso. eapply F; eauto.
  - exfalso. eapply s_skip; eauto.
Qed.

Ltac same H := try solve [apply H].
Lemma sinv_front s f : sinv s -> core f (ents s) (ph s) (nd s) (dl s) (chan s) -> (forall j, xs s j = XFail -> fault s <> None) -> (leak s = 0 \/ fault s <> None) -> sinv (set_fe f s).
Proof.
  intros H C A L. split; pj; auto; same H.
  - intros j E. left. eauto.
  - intros K. left. destruct L as [L|L]; [contradiction|auto].
Qed.

Section Trans.
Context (p : profile) (glim : option Z) (r0 : Z -> reg).
Local Notation rob := (rob r0).
Local Notation trans := (trans p glim r0).

Lemma sinv_trans s s' : sinv s -> trans s s' -> fe s' <> FAbort -> sinv s'.
Proof.
  intros H T NA. pose proof (s_core _ H) as C.
  assert (NB : forall o, fe s = FPump o -> forall j, xs s j = XFail -> fault s <> None).
  { intros o F j E. destruct (s_fail _ H j E) as [A|(o' & x & A & _)]; [auto|congruence]. }
  assert (NL : forall o, fe s = FPump o -> leak s = 0 \/ fault s <> None).
  { intros o F. destruct (leak s) eqn:E; [auto|]. right. destruct (s_leak _ H) as [A|(x & A)]; [lia|auto|congruence]. }
  destruct T as [e F Fa|e F N Fe|i F N Fe G|i e F N Fe G Ft|i foot F N Fe G Ft|n d ds F D L|n d ds F D L|n F|n e pc g F Ch E Np G|n e F Ch E Np|n e x F Ch E Np|F I
    |o r rest F I Ch|o j rest e x F I Ch E Fa|o j rest e m vs F I Ch E Fa X|o j rest e m x F I Ch E Fa X|o j F P|e F|j r P|j r P|j r d rest P D|j r P D|s' A].
  - apply sinv_front; auto; [|congruence|right; congruence]. eapply core_front'; eauto; rewrite ?F; try discriminate; auto.
  - split; pj; same H; auto.
    + eapply core_front'; eauto; rewrite ?F; try discriminate; auto.
    + intros j E. destruct (s_fail _ H j E) as [A|(o' & x & A & _)]; [auto|congruence].
    + intros L. right. eauto.
  - split; pj; same H; auto.
    + eapply core_front'; eauto; rewrite ?F; try discriminate; auto.
    + intros j E. destruct (s_fail _ H j E) as [A|(o' & x & A & _)]; [auto|congruence].
    + intros L. right. eauto.
  - split; pj; same H; auto.
    + eapply core_front'; eauto; rewrite ?F; try discriminate; auto.
    + intros j E. destruct (s_fail _ H j E) as [A|(o' & x & A & _)]; [auto|congruence].
    + rewrite (s_acc _ H). lia.
    + intros L. right. eauto.
  - assert (Rn : rank (ph s (length (ents s))) = 0) by (pose proof (c_rank _ _ _ _ _ _ C (length (ents s))); lia).
    split; pj.
    + apply (core_dispatch (fe s) (ents s) (ph s) (nd s) (dl s) (chan s) {| e_ins := i; e_pc := pcv s; e_src := map (rm s) (src_regs i);
         e_deps := flat_map producer (map (rm s) (src_regs i)) ++ mem_deps s foot; e_foot := foot; e_gas := compute_gas i (map (rob s) (map (rm s) (src_regs i))) |}); auto.
      * rewrite F. discriminate.
      * cbn [e_deps]. now apply deps_lt.
    + intros r j q E. rewrite app_length. cbn [length]. apply rename_src in E as [->|E]; [lia|]. pose proof (s_rm _ H _ _ _ E). lia.
    + intros a j E. rewrite app_length. cbn [length]. apply touch_some in E as [->|E]; [lia|]. pose proof (s_mops _ H _ _ E). lia.
    + intros j. rewrite (s_xs _ H j). ucase j (length (ents s)); [rewrite Rn; cbn; lia|reflexivity].
    + intros k t E Dk. apply is_dep_snoc in Dk as [Dk|[-> Dk]]; [eapply s_cl; eauto|]. assert (xs s (length (ents s)) = XNo) by (apply (s_xs _ H); lia). congruence.
    + apply H.
    + intros j E. destruct (s_fail _ H j E) as [A|(o' & x & A & _)]; [auto|congruence].
    + intros j x E. ucase j (length (ents s)); [destruct E; discriminate|]. eapply s_lock; eauto.
    + apply H.
    + rewrite (s_acc _ H), app_length. cbn [length]. replace (length (ents s) + 1) with (S (length (ents s))) by lia. unfold undone. cbn [sumn]. rewrite upd_same. cbn [rank Nat.eqb].
      assert (E : sumn (fun k => if rank (upd (ph s) (length (ents s)) PBlocked k) =? 6 then 0 else 1) (length (ents s)) = sumn (fun k => if rank (ph s k) =? 6 then 0 else 1) (length (ents s))).
      { apply sumn_ext. intros t Ht. now rewrite upd_other by lia. }
      rewrite E. lia.
    + intros L. destruct (s_leak _ H L) as [A|(x & A)]; [auto|congruence].
  - rewrite F in C. destruct (core_push _ _ _ _ _ _ _ _ C) as [_ C'].
    { rewrite locked_rank in L. lia. }
    split; pj; same H; auto.
    + intros j E. destruct (s_fail _ H j E) as [A|(o' & x & A & _)]; [auto|congruence].
    + intros K. destruct (s_leak _ H K) as [A|(x & A)]; [auto|congruence].
  - rewrite F in C. assert (C' := core_skip _ _ _ _ _ _ _ _ C ltac:(rewrite locked_rank in L; lia)).
    split; pj; same H; auto.
    + intros j E. destruct (s_fail _ H j E) as [A|(o' & x & A & _)]; [auto|congruence].
    + intros K. destruct (s_leak _ H K) as [A|(x & A)]; [auto|congruence].
  - rewrite F in C. assert (C' := release_own _ _ _ _ _ _ C). destruct (c_front _ _ _ _ _ _ C) as [Hn _].
    assert (Bn : rank (ph s n) = 1). { apply (c_blocked _ _ _ _ _ _ C). rewrite (c_nd _ _ _ _ _ _ C). cbn. rewrite Nat.eqb_refl. lia. }
    prel n s. split; pj; rewrite ?RPents, ?RPrm, ?RPmops, ?RPph, ?RPnd, ?RPdl, ?RPchan, ?RPinfl, ?RPfault, ?RPxs, ?RPleak; auto; same H.
    + intros j. rewrite (s_xs _ H j). destruct (nd s n =? 1); [ucase j n; [rewrite Bn; cbn; lia|reflexivity]|reflexivity].
    + intros j E. destruct (s_fail _ H j E) as [A|(o' & x & A & _)]; [auto|congruence].
    + intros j x E. destruct (nd s n =? 1); [|eapply s_lock; eauto]. ucase j n; [destruct E; discriminate|eapply s_lock; eauto].
    + intros x E. destruct (nd s n =? 1); [|eapply s_msg; eauto]. apply in_app_or in E as [E|[E|[]]]; [eapply s_msg; eauto|discriminate].
    + rewrite (s_acc _ H). destruct (nd s n =? 1); [|auto]. rewrite cret_app. rewrite undone_upd by (cbn; lia). cbn. lia.
    + intros K. destruct (s_leak _ H K) as [A|(x & A)]; [auto|congruence].
  - split; pj; same H; auto.
    + eapply core_front'; eauto; rewrite ?F; try discriminate; auto.
    + intros j K. left. eapply NB; eauto.
    + intros K. left. destruct (NL _ F); [lia|auto].
  - split; pj; same H; auto.
    + eapply core_front'; eauto; rewrite ?F; try discriminate; auto.
    + intros j K. left. eapply NB; eauto.
    + intros K. left. destruct (NL _ F); [lia|auto].
  - split; pj; same H; auto.
    + eapply core_front'; eauto; rewrite ?F; try discriminate; auto.
    + intros j K. left. eapply NB; eauto.
    + intros K. right. eauto.
  - apply sinv_front; auto; eauto. eapply core_front'; eauto; rewrite ?F; try discriminate; auto.
  - assert (M : fault s <> None -> set_first (fault s) r <> None) by apply first_some. split; pj; same H; auto.
    + eapply core_chan; [exact C|]. intros k. rewrite Ch, cexec_cons. reflexivity.
    + intros j E. apply M. eapply s_skip; eauto.
    + intros j E. left. apply M. eapply NB; eauto.
    + intros j e E. apply M. eapply s_lock; eauto.
    + intros e E. apply M. eapply (s_msg _ H). rewrite Ch. right. eauto.
    + pose proof (s_acc _ H) as A. rewrite Ch in A. change (cret (MRetire r :: rest)) with (S (cret rest)) in A. lia.
    + intros K. left. destruct (NL _ F); [lia|auto].
  - rewrite F, Ch in C. destruct (core_exec _ _ _ _ _ _ _ (PRet None) C eq_refl) as [C' Rj]. assert (Lj : j < length (ents s)) by (apply nth_error_Some; congruence).
    split; pj; same H; auto.
    + eapply core_front'; eauto; try discriminate; [exact (c_front _ _ _ _ _ _ C)|]. intros o' j' K. injection K as <- <-. rewrite upd_same. cbn. lia.
    + intros k. ucase k j; [split; [discriminate|cbn; lia]|apply H].
    + intros k t K Dk. assert (k <> j) by (intros ->; rewrite upd_same in K; discriminate). rewrite upd_other in K by auto. pose proof (s_cl _ H _ _ K Dk) as Kt.
      ucase t j; [|auto]. assert (xs s j = XNo) by (apply (s_xs _ H); lia). congruence.
    + intros k K. rewrite Fa. discriminate.
    + intros k K. left. rewrite Fa. discriminate.
    + intros k x' K. rewrite Fa. discriminate.
    + intros x' K. rewrite Fa. discriminate.
    + rewrite (s_acc _ H), Ch, undone_upd; [reflexivity|auto|lia|cbn; lia].
    + intros K. left. rewrite Fa. discriminate.
  - rewrite F, Ch in C. destruct (core_exec _ _ _ _ _ _ _ (PRet None) C eq_refl) as [C' Rj]. assert (Lj : j < length (ents s)) by (apply nth_error_Some; congruence).
    destruct (exec_ok_proj r0 j e m vs o (set_chan rest s)) as (Q1 & Q2 & Q3 & Q4 & Q5 & Q6 & Q7 & Q8 & Q9 & Q10 & Q11 & Q12 & Q13 & Q14 & Q15 & Q16 & Q17 & Q18). pj.
    assert (XN : forall k, xs s k <> XNo -> xs s k = XOk). { intros k K. destruct (no_bad s H Fa ltac:(rewrite F; discriminate) k); congruence. }
    assert (LZ : leak s = 0) by (destruct (NL _ F); congruence).
    split; rewrite ?Q1, ?Q4, ?Q5, ?Q6, ?Q7, ?Q8, ?Q9, ?Q11, ?Q12, ?Q13, ?Q16, ?Q18; same H; auto.
    + destruct (spawns _ _); [exact C'|]. eapply core_front'; eauto; try discriminate; [exact (c_front _ _ _ _ _ _ C)|]. intros o' j' K. injection K as <- <-. rewrite upd_same. cbn. lia.
    + intros k. ucase k j; [split; [discriminate|cbn; lia]|apply H].
    + intros k t K Dk. ucase k j.
      * assert (Rt : 5 <= rank (ph s t)). { eapply core_ready; [exact C| |eauto]. idtac. lia. }
        rewrite upd_other by (intros ->; lia). apply XN. intros Z. apply (s_xs _ H) in Z. lia.
      * pose proof (s_cl _ H _ _ K Dk) as Kt. ucase t j; auto.
    + intros k K. ucase k j; [discriminate|]. eapply s_skip; eauto.
    + intros k K. ucase k j; [discriminate|]. left. eapply NB; eauto.
    + intros k x' K. ucase k j; [destruct K; discriminate|eapply s_lock; eauto].
    + intros x' K. eapply (s_msg _ H). rewrite Ch. right. eauto.
    + rewrite (s_acc _ H), Ch, undone_upd; [reflexivity|auto|lia|cbn; lia].
  - rewrite F, Ch in C. destruct (core_exec _ _ _ _ _ _ _ (PRet (Some x)) C eq_refl) as [C' Rj]. assert (Lj : j < length (ents s)) by (apply nth_error_Some; congruence).
    assert (LZ : leak s = 0) by (destruct (NL _ F); congruence).
    split; pj; same H; auto.
    + eapply core_front'; eauto; try discriminate; [exact (c_front _ _ _ _ _ _ C)|]. intros o' j' K. injection K as <- <-. rewrite upd_same. cbn. lia.
    + intros k. ucase k j; [split; [discriminate|cbn; lia]|apply H].
    + intros k t K Dk. assert (k <> j) by (intros ->; rewrite upd_same in K; discriminate). rewrite upd_other in K by auto. pose proof (s_cl _ H _ _ K Dk) as Kt.
      ucase t j; [|auto]. assert (xs s j = XNo) by (apply (s_xs _ H); lia). congruence.
    + intros k K. ucase k j; [discriminate|]. eapply s_skip; eauto.
    + intros k K. ucase k j; [right; exists o, x; auto|]. left. eapply NB; eauto.
    + intros k x' K. ucase k j; [destruct K; discriminate|eapply s_lock; eauto].
    + intros x' K. eapply (s_msg _ H). rewrite Ch. right. eauto.
    + rewrite (s_acc _ H), Ch, undone_upd; [reflexivity|auto|lia|cbn; lia].
  - apply sinv_front; auto.
    + eapply core_front'; eauto; rewrite ?F; try discriminate. pose proof (c_front _ _ _ _ _ _ C) as CF. rewrite F in CF. exact CF.
    + intros k K. destruct (s_fail _ H k K) as [A|(o' & x & A & B)]; [auto|]. rewrite F in A. injection A as <- <-. congruence.
    + destruct (leak s) eqn:K; [auto|]. right. destruct (s_leak _ H) as [A|(x & A)]; [lia|auto|congruence].
  - assert (M : set_first (fault s) (Some e) <> None) by (destruct (fault s); cbn; congruence). split; pj; same H; auto.
    eapply core_front'; eauto; rewrite ?F; try discriminate; auto.
  - assert (Rj : rank (ph s j) = 3) by (rewrite P; auto). assert (Lj : j < length (ents s)) by (apply (c_rank _ _ _ _ _ _ C); lia).
    assert (M : fault s <> None -> set_first (fault s) r <> None) by apply first_some. split; pj; same H; auto.
    + apply core_phase; auto; cbn; try lia.
    + intros k. ucase k j; [|apply H]. rewrite (s_xs _ H j), Rj. cbn. lia.
    + intros k K. apply M. eapply s_skip; eauto.
    + intros k K. destruct (s_fail _ H k K) as [A|(o' & x & A & B)]; [auto|]. ucase k j; [|right; exists o', x; auto]. left. rewrite P in B. injection B as ->. destruct (fault s); cbn; congruence.
    + intros k x K. ucase k j; [|apply M; eapply s_lock; eauto]. destruct K as [K|K]; [injection K as ->|discriminate]. destruct (fault s); cbn; congruence.
    + intros x K. apply M. eapply s_msg; eauto.
    + rewrite (s_acc _ H), undone_upd; [reflexivity|auto|lia|cbn; lia].
    + intros K. destruct (s_leak _ H K) as [A|A]; auto.
  - assert (Rj : rank (ph s j) = 4) by (rewrite P; auto). assert (Lj : j < length (ents s)) by (apply (c_rank _ _ _ _ _ _ C); lia).
    split; pj; same H; auto.
    + apply core_phase; auto; cbn; try lia.
    + intros k. ucase k j; [|apply H]. rewrite (s_xs _ H j), Rj. cbn. lia.
    + intros k K. destruct (s_fail _ H k K) as [A|(o' & x & A & B)]; [auto|]. ucase k j; [congruence|right; exists o', x; auto].
    + intros k x K. ucase k j; [|eapply s_lock; eauto]. destruct K as [K|K]; [discriminate|injection K as ->]. eapply (s_lock _ H); eauto.
    + rewrite (s_acc _ H), undone_upd; [reflexivity|auto|lia|cbn; lia].
  - assert (Rj : rank (ph s j) = 5) by (rewrite P; auto). pose proof (release_pop _ _ _ _ _ _ _ _ _ C Rj D) as C'.
    destruct (c_list _ _ _ _ _ _ C j d ltac:(rewrite D; left; auto)) as (Bd & Dd & _). pose proof (is_dep_lt _ _ _ Dd) as Ld.
    prel d (set_dl (upd (dl s) j rest) s). pj.
    split; rewrite ?RPfe, ?RPents, ?RPrm, ?RPmops, ?RPph, ?RPnd, ?RPdl, ?RPchan, ?RPinfl, ?RPfault, ?RPxs, ?RPleak; auto; same H.
    + intros k. rewrite (s_xs _ H k). destruct (nd s d =? 1); [ucase k d; [rewrite Bd; cbn; lia|reflexivity]|reflexivity].
    + intros k K. destruct (s_fail _ H k K) as [A|(o' & x & A & B)]; [auto|]. right. exists o', x. split; [auto|]. destruct (nd s d =? 1); [|auto]. ucase k d; [rewrite B in Bd; discriminate|auto].
    + intros k x K. destruct (nd s d =? 1); [|eapply s_lock; eauto]. ucase k d; [destruct K; discriminate|eapply s_lock; eauto].
    + intros x K. destruct (nd s d =? 1); [|eapply s_msg; eauto]. apply in_app_or in K as [K|[K|[]]]; [eapply s_msg; eauto|discriminate].
    + rewrite (s_acc _ H). destruct (nd s d =? 1); [|auto]. rewrite cret_app. rewrite undone_upd by (cbn; lia). cbn. lia.
  - assert (Rj : rank (ph s j) = 5) by (rewrite P; auto). assert (Lj : j < length (ents s)) by (apply (c_rank _ _ _ _ _ _ C); lia).
    split; pj; same H; auto.
    + eapply core_chan; [apply core_phase; [exact C|lia|cbn; lia|cbn; lia|auto]|]. intros k. rewrite cexec_app, cexec_one. lia.
    + intros k. ucase k j; [|apply H]. rewrite (s_xs _ H j), Rj. cbn. lia.
    + intros k K. destruct (s_fail _ H k K) as [A|(o' & x & A & B)]; [auto|]. ucase k j; [congruence|right; exists o', x; auto].
    + intros k x K. ucase k j; [destruct K; discriminate|eapply s_lock; eauto].
    + intros x K. apply in_app_or in K as [K|[K|[]]]; [eapply s_msg; eauto|]. injection K as ->. eapply (s_lock _ H); eauto.
    + rewrite (s_acc _ H), cret_app. pose proof (undone_done (ph s) (length (ents s)) j PDone Lj ltac:(lia) eq_refl). cbn [cret filter length]. change (cret [MRetire r]) with 1. lia.
  - apply why_abort in A. congruence.
Qed.

End Trans.

Section Sys.
Context (p : profile) (glim : option Z) (r0 : Z -> reg) (m0 : mem) (pc0 : Z).
Local Notation rob := (rob r0).
Local Notation reach := (reach p glim r0 m0 pc0).
Local Notation step := (step p glim r0).
Local Notation trans := (trans p glim r0).

Lemma reach_ind' (P : cpu -> Prop) : (P (cpu_init m0 pc0)) -> (forall s s', reach s -> (fe s <> FAbort -> P s) -> fe s <> FAbort -> fe s' <> FAbort -> trans s s' -> P s') ->
  forall s, reach s -> fe s <> FAbort -> P s.
Proof.
  intros H0 HS s R. induction R as [|s s' R IH S]; intros F; [auto|]. apply step_trans in S. 
  assert (Fs : fe s <> FAbort).
  { intros E. destruct S; pj; try congruence; try solve [match goal with W : why _ _ _ _ |- _ => apply why_abort in W; congruence end].
    all: try (match goal with H : fe (release ?d ?s0) <> _ |- _ => destruct (release_proj d s0) as (X & _); rewrite X in H; pj; congruence end). }
  eapply HS; eauto.
Qed.

Lemma sinv_init : sinv (cpu_init m0 pc0).
Proof.
  split; cbn; try discriminate; auto; try tauto.
  - split; cbn; try discriminate; auto; try tauto; try lia.
    + intros k t (e & K & _). destruct k; discriminate.
    + intros k t (e & K & _). destruct k; discriminate.
  - intros j. split; [lia|auto].
  - intros j e [K|K]; discriminate.
Qed.
Lemma reach_sinv s : reach s -> fe s <> FAbort -> sinv s.
Proof. apply reach_ind'; [apply sinv_init|]. intros a b R IH Fa Fb T. eapply sinv_trans; eauto. Qed.
End Sys.
