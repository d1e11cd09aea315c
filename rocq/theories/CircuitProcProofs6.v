(** Proofs: the circuit processor, stated on submitted circuits; an executor for examples. *)
From Coq Require Import ZifyBool ZifyNat.
From Verif Require Import Base Graph MuxGraph FheGraph CircuitProc SpecFhe SpecProc FheProofs FheProofs2 CircuitProcProofs CircuitProcProofs2 CircuitProcProofs3 CircuitProcProofs4 CircuitProcProofs5.
Open Scope nat_scope.

Lemma submission_planned : forall gs, submission gs -> exists plan, plan_graphs 0 gs 0 = Ok plan.
Proof. intros gs S. destruct (plan_graphs_ok gs 0 0) as (p & E & _); [intros g o H; apply (S g o H)|eauto]. Qed.

Section Main.
Context (gs : list (fgraph * list nat)) (SUB : submission gs) (plan : list item) (PL : plan_graphs 0 gs 0 = Ok plan).
Context (deg cap : nat) (cells : cty -> nat -> ct).
Notation reach := (reach deg plan cap cells).
Notation PO := (sub_plan_ok gs SUB plan PL).
Notation INV := (inv_reach plan PO deg cap cells).

Lemma task_of_item : forall c n i, task_of gs c n i -> exists g order k op deps, nth_error gs c = Some (g, order) /\ nth_error (live g order) k = Some n /\ i = base_of gs c + k /\
   node g n = Some op /\ nth_error plan i = Some (ITask c op deps) /\ Forall2 (dep_of order (base_of gs c)) (in_edges g n) deps.
Proof. intros c n i (g & order & k & E & Hk & ->). destruct (node_task gs SUB plan PL c g order k n E Hk) as (op & deps & A & B & C & D). exists g, order, k, op, deps. repeat split; auto. Qed.

Lemma once_le : forall s i, reach s -> runs s i <= 1.
Proof. intros s i R. rewrite (i_ran _ _ _ (INV s R) i). destruct (_ <? _); cbn; lia. Qed.
Lemma once_complete : forall s c n i, reach s -> complete plan s -> task_of gs c n i -> runs s i = 1.
Proof.
  intros s c n i R [_ D] T. destruct (task_of_item c n i T) as (g & order & k & op & deps & _ & _ & _ & _ & Hi & _). rewrite (i_ran _ _ _ (INV s R) i), (D i c op deps Hi). reflexivity.
Qed.
Lemma after_inputs : forall s c g order m n l i j, reach s -> nth_error gs c = Some (g, order) -> In (m, n, l) (gedges g) -> task_of gs c n i -> task_of gs c m j -> 1 <= runs s i -> finished (ph s j) = true.
Proof.
  intros s c g order m n l i j R E He Ti Tj Hr. destruct (task_of_item c n i Ti) as (g1 & o1 & k & op & deps & E1 & Hk & -> & No & Hi & F). rewrite E in E1. injection E1 as <- <-.
  destruct Tj as (g2 & o2 & k2 & E2 & Hk2 & ->). rewrite E in E2. injection E2 as <- <-.
  assert (Hin : In (m, n, l) (in_edges g n)) by (unfold in_edges; apply filter_In; split; [auto|cbn; apply Nat.eqb_refl]).
  assert (Hd : exists d, In d deps /\ dep_of order (base_of gs c) (m, n, l) d).
  { clear - F Hin. induction F as [|x y l1 l2 H F IH]; [destruct Hin|]. destruct Hin as [->|Hin]; [exists y; split; [now left|auto]|]. destruct (IH Hin) as (d & A & B). exists d. split; [now right|auto]. }
  destruct Hd as ([t l'] & Hd & (q & Hq & Et)). cbn [fst snd] in *. injection Et as -> ->.
  destruct (sub_in gs SUB c g order E) as [TO _]. assert (q = k2); [|subst q].
  { apply (proj1 (NoDup_nth_error order) (to_once _ _ TO)); [apply nth_error_Some; congruence|]. rewrite (live_nth g order k2 m Hk2). exact Hq. }
  rewrite (i_ran _ _ _ (INV s R)) in Hr. assert (2 < prank (ph s (base_of gs c + k))) by (destruct (2 <? prank (ph s (base_of gs c + k))) eqn:Eq; [lia|cbn in Hr; lia]).
  pose proof (deps_finished plan cells s _ _ _ _ _ _ (i_core _ _ _ (INV s R)) Hi ltac:(lia) Hd) as Fin. unfold finished. lia.
Qed.

Lemma callback_le : forall s c, reach s -> length (calls s c) <= 1.
Proof. intros s c R. rewrite (i_called _ _ _ (INV s R) c). destruct (_ =? _); cbn; lia. Qed.
Lemma callback_after : forall s c n i, reach s -> calls s c <> [] -> task_of gs c n i -> ph s i = PDone.
Proof.
  intros s c n i R Hc T. rewrite (i_called _ _ _ (INV s R) c) in Hc. destruct (rem s c =? 0) eqn:Ez; [|congruence].
  destruct (rem_zero plan PO cap cells s c (i_core _ _ _ (INV s R)) (i_tally _ _ _ (INV s R)) ltac:(lia)) as (r & _ & _ & A & _).
  destruct (task_of_item c n i T) as (g & order & k & op & deps & _ & _ & _ & _ & Hi & _). eauto.
Qed.
Lemma complete_rem : forall s c g order, reach s -> complete plan s -> nth_error gs c = Some (g, order) -> rem s c = 0.
Proof.
  intros s c g order R [_ D] E. pose proof (i_tally _ _ _ (INV s R) c) as T.
  pose proof (retire_task gs SUB plan PL c g order E) as Hr. set (r := base_of gs c + (width g order - 1)) in *.
  assert (G : retired_of plan c s = 1 + counted_of plan c s); [|lia].
  unfold retired_of, counted_of. set (F := fun t => match nth_error plan t with Some (ITask h' op _) => b2n ((h' =? c) && negb (is_retire op) && (0 <? prank (ph s t))) | _ => 0 end).
  assert (Lr : r < length plan) by (apply nth_error_Some; congruence).
  rewrite (sumn_ext _ (upd F r 1)).
  - pose proof (sumn_upd F (upd F r 1) r (length plan) Lr ltac:(intros; now rewrite upd_other)) as Q. rewrite upd_same in Q. assert (F r = 0) by (unfold F; rewrite Hr; cbn [is_retire negb]; now rewrite andb_false_r). lia.
  - intros t Lt. destruct (Nat.eq_dec t r) as [->|Nt].
    + rewrite upd_same, Hr, (D r c FRetire [] Hr), Nat.eqb_refl. reflexivity.
    + rewrite upd_other by auto. unfold F. destruct (nth_error plan t) as [[h' op d|]|] eqn:Et; auto. rewrite (D t h' op d Et). cbn [prank]. change (7 <? 8) with true. change (0 <? 8) with true.
      rewrite !andb_true_r. destruct (Nat.eqb_spec h' c) as [->|]; auto. destruct (is_retire op) eqn:Er; auto. destruct op; try discriminate. exfalso. apply Nt. eapply (retire_unique plan PO); eauto.
Qed.
Lemma callback_complete : forall s c g order, reach s -> complete plan s -> nth_error gs c = Some (g, order) -> calls s c = [er s c].
Proof. intros s c g order R D E. rewrite (i_called _ _ _ (INV s R) c), (complete_rem s c g order R D E). reflexivity. Qed.

(** ** Values *)
Section V.
Context (X : exclusive gs).
Notation NA := (sub_no_alias gs SUB plan PL X).
Lemma live_position : forall g order n, topo_order g order -> In n (live g order) -> exists k, nth_error (live g order) k = Some n.
Proof. intros g order n _ H. now apply In_nth_error in H. Qed.
Lemma success_live : forall s c g order, reach s -> calls s c = [None] -> nth_error gs c = Some (g, order) -> live g order = order.
Proof.
  intros s c g order R Hc E. destruct (live_prefix g order) as [post Ep]. destruct (Nat.eq_dec (length (live g order)) (length order)) as [Le|Ne].
  - destruct post as [|x post]; [rewrite app_nil_r in Ep; congruence|]. exfalso. rewrite Ep in Le at 2. rewrite app_length in Le. cbn in Le. lia.
  - exfalso. pose proof (bad_task gs SUB plan PL c g order E Ne) as Hb. rewrite (i_called _ _ _ (INV s R) c) in Hc. destruct (rem s c =? 0) eqn:Ez; [|discriminate].
    injection Hc as Hc. destruct (rem_zero plan PO cap cells s c (i_core _ _ _ (INV s R)) (i_tally _ _ _ (INV s R)) ltac:(lia)) as (r & _ & _ & _ & A).
    specialize (A _ _ Hb eq_refl).
    assert (G : forall s, reach s -> base_of gs c + length (live g order) < pos (dp s) -> er s c <> None).
    { clear - Hb PL SUB. intros s R. induction R as [|s s' R IH St]; [cbn; lia|]. intros L. pose proof (i_core _ _ _ (INV s R)) as C.
      set (b := base_of gs c + length (live g order)) in *.
      assert (Same : er s' = er s -> pos (dp s') = pos (dp s) -> er s' c <> None) by (intros -> Q; apply IH; lia).
      inversion St; subst; cbn [er dp pos] in *; try (apply Same; auto; rewrite ?H; reflexivity); rewrite ?H in *; cbn [pos] in *; unfold item_at in *.
      - destruct (Nat.eq_dec b i) as [Eb|]; [|destruct (Nat.eq_dec c h) as [->|]; [rewrite upd_same; destruct (er s h); discriminate|rewrite upd_other by auto; apply IH; lia]].
        subst i. rewrite Hb in H0. injection H0 as <-. rewrite upd_same. destruct (er s c); discriminate.
      - apply IH. destruct (Nat.eq_dec b i) as [Eb|]; [|lia]. subst i. rewrite Hb in H0. discriminate.
      - destruct (Nat.eq_dec c h) as [->|]; [rewrite upd_same; destruct (er s h); discriminate|rewrite upd_other by auto; apply IH; lia]. }
    exact (G s R A Hc).
Qed.
Lemma success_values : forall s c g order n, reach s -> calls s c = [None] -> nth_error gs c = Some (g, order) -> In n order ->
  exists o w, fvalue deg cells g n (o, w) /\ match w with Some (t, r, v) => store s t r = v | None => True end.
Proof.
  intros s c g order n R Hc E Hn. pose proof (success_live s c g order R Hc E) as L. rewrite <- L in Hn. apply In_nth_error in Hn. destruct Hn as [k Hk].
  destruct (node_task gs SUB plan PL c g order k n E Hk) as (op & deps & No & _ & Hi & _).
  assert (T : task_of gs c n (base_of gs c + k)) by (exists g, order, k; auto).
  pose proof (callback_after s c n _ R ltac:(congruence) T) as Pd.
  assert (Er : er s c = None) by (rewrite (i_called _ _ _ (INV s R) c) in Hc; destruct (rem s c =? 0); congruence).
  destruct (vinv_reach plan PO deg cap cells NA s R) as (_ & V & _). destruct (V _ _ _ _ Hi ltac:(rewrite Pd; cbn; lia) Er) as (w & Hv & Hs).
  exists (out s (base_of gs c + k)), w. split; auto. eapply pval_fvalue; eauto.
Qed.
Lemma failure_blame : forall s c g order e, reach s -> calls s c = [Some e] -> nth_error gs c = Some (g, order) ->
  (e = EOther /\ live g order <> order) \/ exists n op ins, In n order /\ node g n = Some op /\ finputs deg cells g (in_edges g n) ins /\ exec_op deg cells op ins = Err e.
Proof.
  intros s c g order e R Hc E. assert (Er : er s c = Some e) by (rewrite (i_called _ _ _ (INV s R) c) in Hc; destruct (rem s c =? 0); congruence).
  destruct (vinv_reach plan PO deg cap cells NA s R) as (_ & _ & B). destruct (B c e Er) as [(i & Hi & ->)|(i & op & deps & ins & Hi & Hp & He)].
  - left. split; auto. destruct (item_cases gs SUB plan PL i _ Hi) as (c' & g' & o' & k & E' & -> & Lk & Eh & [(n & op & d1 & Hn & No & Nr & Ex & F)|[(Ex & Ek & Ne)|(Ex & Ek)]]); try discriminate.
    injection Ex as ->. rewrite E in E'. injection E' as <- <-. intros Q. apply Ne. now rewrite Q.
  - right. destruct (item_cases gs SUB plan PL i _ Hi) as (c' & g' & o' & k & E' & -> & Lk & Eh & [(n & op' & d1 & Hn & No & Nr & Ex & F)|[(Ex & Ek & Ne)|(Ex & Ek)]]); try discriminate.
    + injection Ex as -> -> ->. rewrite E in E'. injection E' as <- <-. exists n, op', ins. split; [apply (nth_error_In order k); now apply (live_nth g order)|]. split; auto. split; auto. eapply pins_finputs; eauto.
    + injection Ex as -> -> ->. inversion Hp; subst. discriminate.
Qed.
Lemma untouched : forall s t r, reach s -> (forall c g order n, nth_error gs c = Some (g, order) -> node g n <> Some (FOutput t r)) -> store s t r = cells t r.
Proof.
  intros s t r R H. destruct (vinv_reach plan PO deg cap cells NA s R) as (S & _ & _). apply S. intros i h deps Hi. exfalso.
  destruct (item_cases gs SUB plan PL i _ Hi) as (c' & g' & o' & k & E' & -> & Lk & Eh & [(n & op & d1 & Hn & No & Nr & Ex & F)|[(Ex & Ek & Ne)|(Ex & Ek)]]); try discriminate.
  injection Ex as -> <- ->. exact (H _ _ _ _ E' No).
Qed.
Lemma succeeds_iff : forall s c g order, reach s -> complete plan s -> nth_error gs c = Some (g, order) ->
  (calls s c = [None] <-> live g order = order /\ forall n, In n order -> exists o, fvalue deg cells g n o).
Proof.
  intros s c g order R D E. split.
  - intros Hc. split; [eapply success_live; eauto|]. intros n Hn. destruct (success_values s c g order n R Hc E Hn) as (o & w & Hv & _). eauto.
  - intros [L H]. pose proof (callback_complete s c g order R D E) as Hc. destruct (er s c) as [e|] eqn:Ee; [|auto]. exfalso.
    destruct (failure_blame s c g order e R Hc E) as [[_ Ne]|(n & op & ins & Hn & No & Hi & He)]; [contradiction|].
    destruct (H n Hn) as [o Ho]. inversion Ho as [n' op' ins' o' No' Hi' He']; subst. rewrite No in No'. injection No' as <-.
    assert (ins' = ins) by (eapply (proj2 (fvalue_fun deg cells g)); eauto). congruence.
Qed.
End V.
End Main.

(** ** Executor: one scheduling choice at a time *)
Inductive choice := CDisp | CTask (i : nat).
Definition fire (deg : nat) (plan : list item) (cap : nat) (c : choice) (s : pstate) : option pstate :=
  let it i := nth_error plan i in
  let mk d p n l q o st t r e k u := Some {| dp := d; ph := p; nd := n; lk := l; dl := q; out := o; store := st; tok := t; rem := r; er := e; calls := k; runs := u |} in
  match c with
  | CDisp =>
      match dp s with
      | DNext i => match it i with
                   | Some (IBad h) => mk (DNext (S i)) (ph s) (nd s) (lk s) (dl s) (out s) (store s) (tok s) (rem s) (upd (er s) h (set_err (er s h) EOther)) (calls s) (runs s)
                   | Some (ITask h op deps) => match tok s with S t => mk (DCount i) (ph s) (nd s) (lk s) (dl s) (out s) (store s) t (rem s) (er s) (calls s) (runs s) | O => None end
                   | None => None end
      | DCount i => match it i with
                    | Some (ITask h op deps) => mk (DTry i 0) (upd (ph s) i PBlocked) (upd (nd s) i 1) (upd (lk s) i false) (upd (dl s) i []) (upd (out s) i None) (store s) (tok s)
                                                   (if is_retire op then rem s else upd (rem s) h (rem s h + 1)) (er s) (calls s) (runs s)
                    | _ => None end
      | DTry i j => match it i with
                    | Some (ITask h op deps) =>
                        match nth_error deps j with
                        | Some (d, l) => if lk s d then mk (DTry i (S j)) (ph s) (nd s) (lk s) (dl s) (out s) (store s) (tok s) (rem s) (er s) (calls s) (runs s)
                                         else mk (DAdd i j) (ph s) (nd s) (upd (lk s) d true) (dl s) (out s) (store s) (tok s) (rem s) (er s) (calls s) (runs s)
                        | None => mk (DSub i) (ph s) (nd s) (lk s) (dl s) (out s) (store s) (tok s) (rem s) (er s) (calls s) (runs s)
                        end
                    | _ => None end
      | DAdd i j => mk (DPush i j) (ph s) (upd (nd s) i (nd s i + 1)) (lk s) (dl s) (out s) (store s) (tok s) (rem s) (er s) (calls s) (runs s)
      | DPush i j => match it i with
                     | Some (ITask h op deps) => match nth_error deps j with Some (d, l) => mk (DUnlock i j) (ph s) (nd s) (lk s) (upd (dl s) d (i :: dl s d)) (out s) (store s) (tok s) (rem s) (er s) (calls s) (runs s) | None => None end
                     | _ => None end
      | DUnlock i j => match it i with
                       | Some (ITask h op deps) => match nth_error deps j with Some (d, l) => mk (DTry i (S j)) (ph s) (nd s) (upd (lk s) d false) (dl s) (out s) (store s) (tok s) (rem s) (er s) (calls s) (runs s) | None => None end
                       | _ => None end
      | DSub i => mk (DNext (S i)) (if nd s i =? 1 then upd (ph s) i PReady else ph s) (upd (nd s) i (nd s i - 1)) (lk s) (dl s) (out s) (store s) (tok s) (rem s) (er s) (calls s) (runs s)
      end
  | CTask i =>
      match it i with
      | Some (ITask h op deps) =>
          match ph s i with
          | PReady => mk (dp s) (upd (ph s) i (match er s h with None => PRun | Some _ => PLock end)) (nd s) (lk s) (dl s) (out s) (store s) (tok s) (rem s) (er s) (calls s) (upd (runs s) i (runs s i + 1))
          | PRun => match exec_op deg (store s) op (gather s deps) with
                    | Ok (o, w) => mk (dp s) (upd (ph s) i PLock) (nd s) (lk s) (dl s) (upd (out s) i o) (write (store s) w) (tok s) (rem s) (er s) (calls s) (runs s)
                    | Err e => mk (dp s) (upd (ph s) i PLock) (nd s) (lk s) (dl s) (out s) (store s) (tok s) (rem s) (upd (er s) h (set_err (er s h) e)) (calls s) (runs s)
                    | Panic => None end
          | PLock => if lk s i then None else mk (dp s) (upd (ph s) i PDrain) (nd s) (upd (lk s) i true) (dl s) (out s) (store s) (tok s) (rem s) (er s) (calls s) (runs s)
          | PDrain => match dl s i with
                      | d :: rest => mk (dp s) (if nd s d =? 1 then upd (ph s) d PReady else ph s) (upd (nd s) d (nd s d - 1)) (lk s) (upd (dl s) i rest) (out s) (store s) (tok s) (rem s) (er s) (calls s) (runs s)
                      | [] => mk (dp s) (upd (ph s) i PSend) (nd s) (lk s) (dl s) (out s) (store s) (tok s) (rem s) (er s) (calls s) (runs s) end
          | PSend => if tok s <? cap then mk (dp s) (upd (ph s) i PRetire) (nd s) (lk s) (dl s) (out s) (store s) (S (tok s)) (rem s) (er s) (calls s) (runs s) else None
          | PRetire => mk (dp s) (upd (ph s) i PDone) (nd s) (lk s) (dl s) (out s) (store s) (tok s) (upd (rem s) h (rem s h - 1)) (er s)
                          (if rem s h =? 1 then upd (calls s) h (calls s h ++ [er s h]) else calls s) (runs s)
          | _ => None
          end
      | _ => None
      end
  end.
Lemma fire_step : forall deg plan cap c s s', fire deg plan cap c s = Some s' -> step deg plan cap s s'.
Proof.
  intros deg plan cap c s s' H. destruct c as [|i]; unfold fire in H.
  - destruct (dp s) as [i|i|i j|i j|i j|i j|i] eqn:Hd.
    + destruct (nth_error plan i) as [[h op deps|h]|] eqn:E; [|injection H as <-; eapply SBad; eauto|discriminate]. destruct (tok s) as [|t] eqn:Et; [discriminate|]. injection H as <-. eapply SRecv; eauto.
    + destruct (nth_error plan i) as [[h op deps|h]|] eqn:E; try discriminate. injection H as <-. eapply SCount; eauto.
    + destruct (nth_error plan i) as [[h op deps|h]|] eqn:E; try discriminate. destruct (nth_error deps j) as [[d l]|] eqn:Ej; [destruct (lk s d) eqn:El|]; injection H as <-; [eapply STryFail|eapply STryOk|eapply SLinked]; eauto.
    + injection H as <-. eapply SAdd; eauto.
    + destruct (nth_error plan i) as [[h op deps|h]|] eqn:E; try discriminate. destruct (nth_error deps j) as [[d l]|] eqn:Ej; [|discriminate]. injection H as <-. eapply SPush; eauto.
    + destruct (nth_error plan i) as [[h op deps|h]|] eqn:E; try discriminate. destruct (nth_error deps j) as [[d l]|] eqn:Ej; [|discriminate]. injection H as <-. eapply SUnlock; eauto.
    + injection H as <-. eapply SSub; eauto.
  - destruct (nth_error plan i) as [[h op deps|h]|] eqn:E; try discriminate. destruct (ph s i) eqn:Hp; try discriminate.
    + injection H as <-. eapply SCheck; eauto.
    + destruct (exec_op deg (store s) op (gather s deps)) as [[o w]|e|] eqn:He; [injection H as <-; eapply SExecOk; eauto|injection H as <-; eapply SExecErr; eauto|discriminate].
    + destruct (lk s i) eqn:El; [discriminate|]. injection H as <-. eapply SLock; eauto.
    + destruct (dl s i) as [|d rest] eqn:El; injection H as <-; [eapply SForget|eapply SPop]; eauto.
    + destruct (tok s <? cap) eqn:Et; [|discriminate]. injection H as <-. eapply SSend; eauto. lia.
    + injection H as <-. eapply SRetire; eauto.
Qed.
(** Follow a schedule; an impossible choice is skipped. *)
Fixpoint run_sched (deg : nat) (plan : list item) (cap : nat) (cs : list choice) (s : pstate) : pstate :=
  match cs with [] => s | c :: cs => run_sched deg plan cap cs (match fire deg plan cap c s with Some s' => s' | None => s end) end.
Lemma run_sched_reach : forall deg plan cap cells cs s, reach deg plan cap cells s -> reach deg plan cap cells (run_sched deg plan cap cs s).
Proof.
  intros deg plan cap cells cs. induction cs as [|c cs IH]; intros s R; cbn [run_sched]; auto. apply IH. destruct (fire deg plan cap c s) as [s'|] eqn:E; auto. econstructor; [exact R|]. now apply fire_step with c.
Qed.

(** With no flow-control token nothing ever happens. *)
Lemma zero_cap_stuck : forall deg plan cells s h op deps, nth_error plan 0 = Some (ITask h op deps) -> reach deg plan 0 cells s -> s = pinit 0 cells.
Proof.
  intros deg plan cells s h op deps Hp R. induction R as [|s s' R IH St]; auto. subst s. exfalso. inversion St; subst; cbn in *; unfold item_at in *; try discriminate; try congruence; try lia. injection H as <-. cbn in H0. congruence.
Qed.
