(** Proofs: values, progress and termination of the circuit processor. *)
From Coq Require Import ZifyBool ZifyNat.
From Verif Require Import Base Graph MuxGraph FheGraph CircuitProc SpecFhe SpecProc FheProofs FheProofs2 CircuitProcProofs CircuitProcProofs2.
Open Scope nat_scope.

Scheme pval_min := Minimality for pval Sort Prop
  with pins_min := Minimality for pins Sort Prop.
Combined Scheme pval_pins_min from pval_min, pins_min.
Lemma pval_det_both : forall deg cells plan,
  (forall i o, pval deg cells plan i o -> forall o', pval deg cells plan i o' -> o = o') /\
  (forall deps ins, pins deg cells plan deps ins -> forall ins', pins deg cells plan deps ins' -> ins = ins').
Proof.
  intros deg cells plan. apply pval_pins_min.
  - intros i h op deps ins o Hi _ IH He o' H. inversion H as [i' h' op' deps' ins' o2 Hi' Hn' He']; subst. rewrite Hi in Hi'. injection Hi' as <- <- <-.
    rewrite (IH _ Hn') in He. congruence.
  - intros ins' H. now inversion H.
  - intros d l deps c w ins _ IHv _ IHi ins' H. inversion H as [|d' l' deps' c' w' ins2 Hv' Hi']; subst. specialize (IHv _ Hv'). injection IHv as <- <-. rewrite (IHi _ Hi'). reflexivity.
Qed.
Lemma pval_det : forall deg cells plan i o o', pval deg cells plan i o -> pval deg cells plan i o' -> o = o'.
Proof. intros. eapply (proj1 (pval_det_both deg cells plan)); eauto. Qed.
Lemma pins_det : forall deg cells plan deps a b, pins deg cells plan deps a -> pins deg cells plan deps b -> a = b.
Proof. intros. eapply (proj2 (pval_det_both deg cells plan)); eauto. Qed.

Lemma exec_cells : forall deg c1 c2 op ins, (forall t r, op = FInput t r -> c1 t r = c2 t r) -> exec_op deg c1 op ins = exec_op deg c2 op ins.
Proof. intros deg c1 c2 op ins H. unfold exec_op. destruct (validate deg op ins) as [[]| |]; cbn [bind]; auto. destruct op; cbn [run_op]; auto. now rewrite (H t r eq_refl). Qed.
Lemma exec_write : forall deg c op ins o t r x, exec_op deg c op ins = Ok (o, Some (t, r, x)) -> op = FOutput t r.
Proof.
  intros deg c op ins o t r x H. unfold exec_op in H. destruct (validate deg op ins) as [[]| |]; cbn [bind] in H; try discriminate.
  destruct op; unfold run_op in H;
    repeat match type of H with context [bind ?a _] => destruct a as [?| |]; cbn [bind] in H; try discriminate end; try discriminate.
  destruct a as [y|]; [|discriminate]. destruct (cty_eqb (ty_of y) t0) eqn:E; [|discriminate]. congruence.
Qed.

Section Sys.
Context (plan : list item) (PO : plan_ok plan) (deg cap : nat) (cells : cty -> nat -> ct).
Notation len := (length plan).
Notation step := (step deg plan cap).
Notation reach := (reach deg plan cap cells).
Notation pval := (pval deg cells plan).
Notation pins := (pins deg cells plan).

(** ** Values *)
Section Values.
Context (NA : no_alias plan).
Definition stored (s : pstate) : Prop :=
  forall ty r, (forall i h deps, nth_error plan i = Some (ITask h (FOutput ty r) deps) -> prank (ph s i) < 4) -> store s ty r = cells ty r.
Definition valued (s : pstate) : Prop :=
  forall i h op deps, nth_error plan i = Some (ITask h op deps) -> 4 <= prank (ph s i) -> er s h = None ->
  exists w, pval i (out s i, w) /\ match w with Some (t, r, c) => store s t r = c | None => True end.
Definition blamed (s : pstate) : Prop :=
  forall h e, er s h = Some e -> (exists i, nth_error plan i = Some (IBad h) /\ e = EOther) \/
  (exists i op deps ins, nth_error plan i = Some (ITask h op deps) /\ pins deps ins /\ exec_op deg cells op ins = Err e).

Lemma input_cell : forall s i h t r deps, stored s -> nth_error plan i = Some (ITask h (FInput t r) deps) -> store s t r = cells t r.
Proof. intros s i h t r deps S Hi. apply S. intros j h' deps' Hj. exfalso. exact (proj1 NA i j h h' t r deps deps' Hi Hj). Qed.

Lemma gather_pins : forall s deps, (forall t l, In (t, l) deps -> exists w, pval t (out s t, w)) -> pins deps (gather s deps).
Proof.
  intros s deps H. unfold gather. induction deps as [|[t l] deps IH]; cbn [map fst snd]; [constructor|].
  destruct (H t l ltac:(now left)) as [w Hw]. eapply pi_cons; [exact Hw|]. apply IH. intros t' l' Hi. apply (H t' l'). now right.
Qed.
Lemma ready_pins : forall s i h op deps, core_s plan s -> valued s -> nth_error plan i = Some (ITask h op deps) -> 2 <= prank (ph s i) -> er s h = None -> pins deps (gather s deps).
Proof.
  intros s i h op deps C V Hi Hr He. apply gather_pins. intros t l Ht. pose proof (deps_finished plan cells s i h op deps t l C Hi Hr Ht) as F.
  destruct (po_deps plan PO i h op deps t l Hi Ht) as (_ & op' & deps' & Hd & _). destruct (V t h op' deps' Hd ltac:(lia) He) as (w & Hw & _). eauto.
Qed.

Definition vinv (s : pstate) : Prop := stored s /\ valued s /\ blamed s.
Lemma vinv_step : forall s s', core_s plan s -> vinv s -> step s s' -> vinv s'.
Proof.
  intros s s' C (S & V & B) St. pose proof (fun t => rank_mono plan deg cap cells s s' t C St) as MONO.
  assert (RD : forall k, prank (ph s k) = 1 -> forall i0, 4 <= prank ((if nd s k =? 1 then upd (ph s) k PReady else ph s) i0) -> 4 <= prank (ph s i0)).
  { intros k H i0. destruct (nd s k =? 1); auto. ucase i0 k; [cbn; lia|auto]. }
  assert (OTHER : forall s1, out s1 = out s -> store s1 = store s -> er s1 = er s -> (forall i, prank (ph s i) <= prank (ph s1 i)) -> (forall i, 4 <= prank (ph s1 i) -> 4 <= prank (ph s i)) -> vinv s1).
  { intros s1 E1 E2 E3 M R. split; [|split].
    - intros ty r H. rewrite E2. apply S. intros i h deps Hi. specialize (H i h deps Hi). specialize (M i). lia.
    - intros i h op deps Hi Hr He. rewrite E1, E2. rewrite E3 in He. apply (V i h op deps Hi); auto.
    - intros h e He. rewrite E3 in He. auto. }
  assert (CNT : forall i, dp s = DCount i -> prank (ph s i) = 0).
  { intros i Hd. destruct (prank (ph s i)) eqn:E; auto; exfalso; assert (G : 1 <= prank (ph s i)) by (rewrite E; lia); apply (c_created _ _ _ _ _ _ C) in G; rewrite Hd in G; cbn [pos] in G; lia. }
  destruct St as
    [i h Hd Hi|i h op deps t Hd Hi Ht|i h op deps Hd Hi|i j h op deps d l Hd Hi Hj Hl|i j h op deps d l Hd Hi Hj Hl|i j Hd|i j h op deps d l Hd Hi Hj|i j h op deps d l Hd Hi Hj
    |i j h op deps Hd Hi Hj|i Hd|i h op deps Hp Hi|i h op deps o w Hp Hi He|i h op deps e Hp Hi He|i Hp Hl|i d rest Hp Hr|i Hp Hr|i Hp Ht|i h op deps Hp Hi];
    unfold item_at in *; try (apply OTHER; auto; fail).
  - split; [|split].
    + exact S.
    + intros i0 h0 op0 deps0 Hi0 Hr0 He0. cbn [er ph out store] in *. ucase h0 h; [destruct (er s h); discriminate|]. eapply V; eauto.
    + intros h0 e He. cbn [er] in He. ucase h0 h; [|auto]. destruct (er s h) as [e'|] eqn:E; cbn in He.
      * injection He as <-. auto.
      * injection He as <-. left. eauto.
  - specialize (CNT i Hd). split; [|split].
    + intros ty r H. cbn [store ph] in *. apply S. intros i0 h0 deps0 Hi0. specialize (H i0 h0 deps0 Hi0). ucase i0 i; [lia|auto].
    + intros i0 h0 op0 deps0 Hi0 Hr0 He0. cbn [er ph out store] in *. ucase i0 i; [cbn in Hr0; lia|]. eapply V; eauto.
    + exact B.
  - apply OTHER; auto. cbn [ph]. apply RD. apply (core_own plan _ _ _ _ _ i C). rewrite Hd. cbn. now rewrite Nat.eqb_refl.
  - (* check *) split; [|split].
    + intros ty r H. cbn [store ph] in *. apply S. intros i0 h0 deps0 Hi0. specialize (H i0 h0 deps0 Hi0). ucase i0 i; [rewrite Hp; cbn; lia|auto].
    + intros i0 h0 op0 deps0 Hi0 Hr0 He0. cbn [er ph out store] in *. ucase i0 i; [|eapply V; eauto].
      rewrite Hi in Hi0. injection Hi0 as <- <- <-. rewrite He0 in Hr0. cbn in Hr0. lia.
    + exact B.
  - (* exec ok *)
    assert (R2 : 2 <= prank (ph s i)) by (rewrite Hp; cbn; lia).
    assert (W : forall ty r, (match w with Some (t, q, _) => t = ty /\ q = r | None => False end -> False) -> write (store s) w ty r = store s ty r).
    { intros ty r H. destruct w as [[[t q] c]|]; auto. cbn. destruct (cty_eqb ty t) eqn:E; auto. apply cty_eqb_eq in E. destruct (Nat.eqb_spec r q); auto. exfalso. apply H. auto. }
    split; [|split].
    + intros ty r H. cbn [store ph] in *. rewrite W.
      * apply S. intros i0 h0 deps0 Hi0. specialize (H i0 h0 deps0 Hi0). ucase i0 i; [cbn in H; lia|auto].
      * destruct w as [[[t q] c]|]; auto. intros [-> ->]. apply exec_write in He. subst op. specialize (H i h deps Hi). rewrite upd_same in H. cbn in H. lia.
    + intros i0 h0 op0 deps0 Hi0 Hr0 He0. cbn [er ph out store] in *. ucase i0 i.
      * rewrite Hi in Hi0. injection Hi0 as <- <- <-. exists w. split.
        -- eapply pv_task; [exact Hi|eapply ready_pins; eauto|]. etransitivity; [|exact He]. apply exec_cells. intros t r ->. symmetry. eapply input_cell; eauto.
        -- destruct w as [[[t r] c]|]; auto. cbn. rewrite (proj2 (cty_eqb_eq t t) eq_refl), Nat.eqb_refl. reflexivity.
      * destruct (V i0 h0 op0 deps0 Hi0 Hr0 He0) as (w0 & Hv & Hs). exists w0. split; auto. destruct w0 as [[[t r] c]|]; auto. rewrite W; auto.
        destruct w as [[[t' r'] c']|]; auto. intros [-> ->]. apply exec_write in He. subst op. inversion Hv as [i' h' op' deps' ins' o2 Hi' Hn' He']; subst.
        apply exec_write in He'. subst op'. rewrite Hi' in Hi0. injection Hi0 as <- <- <-. exact (n (proj2 NA _ _ _ _ _ _ _ _ Hi' Hi)).
    + exact B.
  - (* exec error *)
    assert (R2 : 2 <= prank (ph s i)) by (rewrite Hp; cbn; lia). split; [|split].
    + intros ty r H. cbn [store ph] in *. apply S. intros i0 h0 deps0 Hi0. specialize (H i0 h0 deps0 Hi0). ucase i0 i; [rewrite Hp; cbn; lia|auto].
    + intros i0 h0 op0 deps0 Hi0 Hr0 He0. cbn [er ph out store] in *.
      destruct (Nat.eq_dec h0 h) as [->|Nh]; [rewrite upd_same in He0; destruct (er s h); discriminate|]. rewrite upd_other in He0 by auto. ucase i0 i; [congruence|]. eapply V; eauto.
    + intros h0 e0 He0. cbn [er] in He0. ucase h0 h; [|auto]. destruct (er s h) as [e'|] eqn:E; cbn in He0.
      * injection He0 as <-. auto.
      * injection He0 as <-. right. exists i, op, deps, (gather s deps). split; auto. split; [eapply ready_pins; eauto|]. etransitivity; [|exact He]. apply exec_cells. intros t r ->. symmetry. eapply input_cell; eauto.
  - apply OTHER; auto. cbn [ph]. intros i0. ucase i0 i; [rewrite Hp; cbn; lia|auto].
  - apply OTHER; auto. cbn [ph]. apply RD. apply (c_list _ _ _ _ _ _ C i). rewrite Hr. now left.
  - apply OTHER; auto. cbn [ph]. intros i0. ucase i0 i; [rewrite Hp; cbn; lia|auto].
  - apply OTHER; auto. cbn [ph]. intros i0. ucase i0 i; [rewrite Hp; cbn; lia|auto].
  - apply OTHER; auto. cbn [ph]. intros i0. ucase i0 i; [rewrite Hp; cbn; lia|auto].
Qed.
Lemma vinv_reach : forall s, reach s -> vinv s.
Proof.
  intros s R. induction R as [|s s' R IH St].
  - split; [|split]; [intros ty r _; reflexivity|intros i h op deps _ H; cbn in H; lia|intros h e H; discriminate].
  - eapply vinv_step; eauto. apply (core_reach plan PO deg cap cells s R).
Qed.
End Values.

(** ** Progress *)
Lemma progress_busy : forall s i, inv plan cap s -> 2 <= prank (ph s i) < 8 -> exists s', step s s'.
Proof.
  intros s i I Hr. pose proof (i_core _ _ _ I) as C. assert (Hc : 1 <= prank (ph s i)) by lia. apply (c_created _ _ _ _ _ _ C) in Hc. destruct Hc as [_ (h & op & deps & Hi)].
  destruct (ph s i) eqn:Hp; cbn in Hr; try lia.
  - eexists. eapply SCheck; eauto.
  - destruct (exec_op deg (store s) op (gather s deps)) as [[o w]|e|] eqn:He.
    + eexists. eapply SExecOk; eauto.
    + eexists. eapply SExecErr; eauto.
    + exfalso. apply (exec_no_panic deg (store s) op (gather s deps)); auto. exact (po_ops plan PO i h op deps Hi).
  - destruct (lk s i) eqn:Hl.
    + apply (c_lock _ _ _ _ _ _ C) in Hl. rewrite Hp in Hl. cbn in Hl. destruct Hl as [Hl|Hl]; [lia|].
      destruct (dp s) as [k|k|k m|k m|k m|k m|k] eqn:Hd; cbn [hold] in Hl; try discriminate.
      * eexists. eapply SAdd; eauto.
      * unfold dep_at in Hl. destruct (nth_error plan k) as [[h1 op1 deps1|]|] eqn:E; try discriminate. destruct (nth_error deps1 m) as [[d l]|] eqn:Ej; [|discriminate]. eexists. eapply SPush; eauto.
      * unfold dep_at in Hl. destruct (nth_error plan k) as [[h1 op1 deps1|]|] eqn:E; try discriminate. destruct (nth_error deps1 m) as [[d l]|] eqn:Ej; [|discriminate]. eexists. eapply SUnlock; eauto.
    + eexists. eapply SLock; eauto.
  - destruct (dl s i) as [|d rest] eqn:El.
    + eexists. eapply SForget; eauto.
    + eexists. eapply SPop; eauto.
  - eexists. eapply SSend; eauto. pose proof (i_flow _ _ _ I) as F. unfold flow, infl in F.
    assert (Li : i < len) by (apply nth_error_Some; congruence).
    pose proof (sumn_ge (fun t => b2n (in_flight (ph s t))) len i Li) as G. cbv beta in G. rewrite Hp in G. cbn in G. lia.
  - eexists. eapply SRetire; eauto.
Qed.
Lemma progress_task : forall s i, inv plan cap s -> (exists k, dp s = DNext k) -> 1 <= prank (ph s i) < 8 -> exists s', step s s'.
Proof.
  intros s i. induction i as [i IH] using lt_wf_ind. intros I D Hr. pose proof (i_core _ _ _ I) as C. destruct (Nat.eq_dec (prank (ph s i)) 1) as [E|]; [|apply (progress_busy s i I); lia].
  assert (N : 0 < nd s i) by (apply (c_blocked _ _ _ _ _ _ C i); lia). rewrite (c_nd _ _ _ _ _ _ C i) in N by lia.
  destruct D as [k D]. rewrite D in N. cbn [own pend] in N. apply sumn_pos in N. destruct N as (t & Lt & Ht). apply (count_occ_In Nat.eq_dec) in Ht.
  destruct (c_list _ _ _ _ _ _ C _ _ Ht) as [_ Dt]. pose proof (dep_lt plan PO _ _ Dt) as [Lti Tt].
  apply (IH t Lti I); eauto. assert (Nr : ~ (prank (ph s t) = 0 \/ 6 <= prank (ph s t))) by (intros H; apply (c_empty _ _ _ _ _ _ C) in H; rewrite H in Ht; destruct Ht). lia.
Qed.
Lemma progress : forall s, inv plan cap s -> 1 <= cap -> complete plan s \/ exists s', step s s'.
Proof.
  intros s I Hc. pose proof (i_core _ _ _ I) as C. destruct (dp s) as [k|k|k m|k m|k m|k m|k] eqn:Hd; pose proof (c_dpc _ _ _ _ _ _ C) as K; rewrite Hd in K; cbn [dpc_ok] in K.
  - destruct (nth_error plan k) as [[h op deps|h]|] eqn:E.
    + destruct (tok s) as [|t] eqn:Et; [|right; eexists; eapply SRecv; eauto]. pose proof (i_flow _ _ _ I) as F. unfold flow, infl in F. rewrite Et, Hd in F. cbn [taken] in F.
      destruct (sumn_pos (fun t => b2n (in_flight (ph s t))) len ltac:(lia)) as (t & Lt & Ht). right. apply (progress_task s t I); eauto.
      unfold in_flight in Ht. destruct ((0 <? prank (ph s t)) && (prank (ph s t) <? 7)) eqn:Eb; [|cbn in Ht; lia]. lia.
    + right. eexists. eapply SBad; eauto.
    + assert (k = len) by (apply nth_error_None in E; lia). subst k.
      assert (Dec : forall n, (forall i, i < n -> 8 <= prank (ph s i) \/ prank (ph s i) = 0) \/ exists i, i < n /\ 1 <= prank (ph s i) < 8).
      { clear. induction n as [|n IH]; [left; intros; lia|]. destruct IH as [IH|(i & Li & Hi)]; [|right; exists i; split; [lia|auto]].
        destruct (le_lt_dec 8 (prank (ph s n))); [left; intros i Li; destruct (Nat.eq_dec i n) as [->|]; [auto|apply IH; lia]|].
        destruct (prank (ph s n)) eqn:En; [left; intros i Li; destruct (Nat.eq_dec i n) as [->|]; [auto|apply IH; lia]|right; exists n; lia]. }
      destruct (Dec len) as [A|(i & Li & Hi)].
      * left. split; auto. intros i h op deps Hi. assert (Li : i < len) by (apply nth_error_Some; congruence).
        assert (1 <= prank (ph s i)) by (apply (c_created _ _ _ _ _ _ C); rewrite Hd; cbn [pos]; split; [auto|exists h, op, deps; auto]).
        specialize (A i Li). destruct (ph s i); cbn in A, H; auto; lia.
      * right. apply (progress_task s i I); eauto.
  - right. destruct K as (h & op & deps & E). eexists. eapply SCount; eauto.
  - right. destruct K as (h & op & deps & E). destruct (nth_error deps m) as [[d l]|] eqn:Em; [|eexists; eapply SLinked; eauto].
    destruct (lk s d) eqn:El; eexists; [eapply STryFail|eapply STryOk]; eauto.
  - right. eexists. eapply SAdd; eauto.
  - right. destruct K as [t K]. unfold dep_at in K. destruct (nth_error plan k) as [[h1 op1 deps1|]|] eqn:E; try discriminate. destruct (nth_error deps1 m) as [[d l]|] eqn:Ej; [|discriminate]. eexists. eapply SPush; eauto.
  - right. destruct K as [t K]. unfold dep_at in K. destruct (nth_error plan k) as [[h1 op1 deps1|]|] eqn:E; try discriminate. destruct (nth_error deps1 m) as [[d l]|] eqn:Ej; [|discriminate]. eexists. eapply SUnlock; eauto.
  - right. eexists. eapply SSub; eauto.
Qed.

(** ** Termination *)
Definition ndeps (i : nat) : nat := match nth_error plan i with Some (ITask _ _ deps) => length deps | _ => 0 end.
(** Work of the dispatcher from item i on. *)
Fixpoint work (n i : nat) : nat := match n with O => 0 | S n => 10 + 10 * ndeps i + work n (S i) end.
Definition rest_work (i : nat) : nat := work (len - i) i.
Lemma rest_work_step : forall i, i < len -> rest_work i = 10 + 10 * ndeps i + rest_work (S i).
Proof. intros i H. unfold rest_work. replace (len - i) with (S (len - S i)) by lia. reflexivity. Qed.
Definition dm (d : dpc) : nat :=
  match d with
  | DNext i => rest_work i
  | DCount i => rest_work (S i) + 10 * ndeps i + 8
  | DTry i j => rest_work (S i) + 10 * (ndeps i - j) + 6
  | DAdd i j => rest_work (S i) + 10 * (ndeps i - j) + 5
  | DPush i j => rest_work (S i) + 10 * (ndeps i - j) + 4
  | DUnlock i j => rest_work (S i) + 10 * (ndeps i - j) + 2
  | DSub i => rest_work (S i) + 5
  end.
Definition pm (ph : nat -> phase) : nat := sumn (fun t => 8 - prank (ph t)) len.
Definition lm (dl : nat -> list nat) : nat := sumn (fun t => length (dl t)) len.
Definition measure (s : pstate) : nat := dm (dp s) + pm (ph s) + lm (dl s).

Lemma pm_upd : forall g i p, i < len -> pm (upd g i p) + (8 - prank (g i)) = pm g + (8 - prank p).
Proof. intros g i p L. pose proof (sum_phase plan (fun _ q => 8 - prank q) g (upd g i p) i L ltac:(intros; now rewrite upd_other)) as G. cbv beta in G. rewrite upd_same in G. exact G. Qed.
Lemma prank_le : forall p, prank p <= 8. Proof. destruct p; cbn; lia. Qed.

Lemma measure_step : forall s s', core_s plan s -> step s s' -> measure s' < measure s.
Proof.
  intros s s' C St. unfold measure.
  assert (LT : forall i h op deps, nth_error plan i = Some (ITask h op deps) -> i < len) by (intros i h op deps H; apply nth_error_Some; congruence).
  assert (ND : forall i h op deps, nth_error plan i = Some (ITask h op deps) -> ndeps i = length deps) by (intros i h op deps H; unfold ndeps; now rewrite H).
  assert (CR : forall i, 1 <= prank (ph s i) -> i < len) by (intros i; now apply created_lt).
  assert (RD : forall k, prank (ph s k) = 1 -> pm (if nd s k =? 1 then upd (ph s) k PReady else ph s) <= pm (ph s)).
  { intros k H. destruct (nd s k =? 1); auto. pose proof (pm_upd (ph s) k PReady ltac:(apply CR; lia)) as G. rewrite H in G. cbn in G. lia. }
  assert (AD : forall i p, 1 <= prank (ph s i) -> prank (ph s i) < prank p -> pm (upd (ph s) i p) < pm (ph s)).
  { intros i p H1 H2. pose proof (pm_upd (ph s) i p (CR i H1)) as G. pose proof (prank_le p). lia. }
  assert (LU : forall i v, i < len -> lm (upd (dl s) i v) + length (dl s i) = lm (dl s) + length v).
  { intros i v L. pose proof (sumn_upd (fun t => length (dl s t)) (fun t => length (upd (dl s) i v t)) i len L) as G. cbv beta in G. rewrite upd_same in G. apply G. intros; now rewrite upd_other. }
  destruct St as
    [i h Hd Hi|i h op deps t Hd Hi Ht|i h op deps Hd Hi|i j h op deps d l Hd Hi Hj Hl|i j h op deps d l Hd Hi Hj Hl|i j Hd|i j h op deps d l Hd Hi Hj|i j h op deps d l Hd Hi Hj
    |i j h op deps Hd Hi Hj|i Hd|i h op deps Hp Hi|i h op deps o w Hp Hi He|i h op deps e Hp Hi He|i Hp Hl|i d rest Hp Hr|i Hp Hr|i Hp Ht|i h op deps Hp Hi];
    cbn [dp ph dl]; unfold item_at in *; rewrite ?Hd; cbn [dm].
  - rewrite (rest_work_step i); [lia|]. apply nth_error_Some. congruence.
  - rewrite (rest_work_step i) by eauto. lia.
  - assert (Hz : prank (ph s i) = 0).
    { destruct (prank (ph s i)) eqn:E; auto; exfalso; assert (G : 1 <= prank (ph s i)) by (rewrite E; lia); apply (c_created _ _ _ _ _ _ C) in G; rewrite Hd in G; cbn [pos] in G; lia. }
    pose proof (pm_upd (ph s) i PBlocked ltac:(eauto)) as G. rewrite Hz in G. cbn in G. pose proof (LU i [] ltac:(eauto)) as G2. cbn [length] in G2. rewrite Nat.sub_0_r. lia.
  - rewrite (ND _ _ _ _ Hi). assert (j < length deps) by (apply nth_error_Some; congruence). lia.
  - lia.
  - lia.
  - rewrite (ND _ _ _ _ Hi). assert (j < length deps) by (apply nth_error_Some; congruence).
    destruct (po_deps plan PO i h op deps d l Hi ltac:(eapply nth_error_In; eauto)) as (_ & op' & deps' & Hdd & _). pose proof (LU d (i :: dl s d) ltac:(eauto)) as G. cbn [length] in G. lia.
  - rewrite (ND _ _ _ _ Hi). assert (j < length deps) by (apply nth_error_Some; congruence). lia.
  - lia.
  - pose proof (RD i) as G. assert (prank (ph s i) = 1) by (apply (core_own plan _ _ _ _ _ i C); rewrite Hd; cbn; now rewrite Nat.eqb_refl). specialize (G H). lia.
  - pose proof (AD i (match er s h with None => PRun | Some _ => PLock end)) as G. rewrite Hp in G. specialize (G ltac:(cbn; lia) ltac:(destruct (er s h); cbn; lia)). lia.
  - pose proof (AD i PLock) as G. rewrite Hp in G. specialize (G ltac:(cbn; lia) ltac:(cbn; lia)). lia.
  - pose proof (AD i PLock) as G. rewrite Hp in G. specialize (G ltac:(cbn; lia) ltac:(cbn; lia)). lia.
  - pose proof (AD i PDrain) as G. rewrite Hp in G. specialize (G ltac:(cbn; lia) ltac:(cbn; lia)). lia.
  - pose proof (RD d) as G. assert (prank (ph s d) = 1) by (apply (c_list _ _ _ _ _ _ C i); rewrite Hr; now left). specialize (G H).
    pose proof (LU i rest ltac:(apply CR; rewrite Hp; cbn; lia)) as G2. rewrite Hr in G2. cbn [length] in G2. lia.
  - pose proof (AD i PSend) as G. rewrite Hp in G. specialize (G ltac:(cbn; lia) ltac:(cbn; lia)). lia.
  - pose proof (AD i PRetire) as G. rewrite Hp in G. specialize (G ltac:(cbn; lia) ltac:(cbn; lia)). lia.
  - pose proof (AD i PDone) as G. rewrite Hp in G. specialize (G ltac:(cbn; lia) ltac:(cbn; lia)). lia.
Qed.

Lemma no_infinite_run : forall f : nat -> pstate, f 0 = pinit cap cells -> ~ (forall n, step (f n) (f (S n))).
Proof.
  intros f F0 H. assert (R : forall n, reach (f n)) by (induction n as [|n IH]; [rewrite F0; constructor|econstructor; eauto]).
  assert (M : forall n, measure (f n) + n <= measure (f 0)).
  { induction n as [|n IH]; [lia|]. pose proof (measure_step (f n) (f (S n)) (core_reach plan PO deg cap cells _ (R n)) (H n)). lia. }
  specialize (M (S (measure (f 0)))). lia.
Qed.
(** From every reachable state a complete one can be reached (and, with no_infinite_run, every schedule reaches one). *)
Lemma reaches_complete : 1 <= cap -> forall s, reach s -> exists s', reach s' /\ complete plan s'.
Proof.
  intros Hc s R. remember (measure s) as m eqn:Em. revert s R Em. induction m as [m IH] using lt_wf_ind. intros s R Em.
  destruct (progress s (inv_reach plan PO deg cap cells s R) Hc) as [D|[s' St]]; [eauto|].
  pose proof (measure_step s s' (core_reach plan PO deg cap cells s R) St) as M. apply (IH (measure s') ltac:(lia) s'); auto. econstructor; eauto.
Qed.
End Sys.
