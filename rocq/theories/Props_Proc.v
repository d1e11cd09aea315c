(** The circuit processor: C32-C35. [plan_graphs 0 gs 0 = Ok plan] says that the circuits gs (each with the order in which
    spawn_graph traverses it) are submitted one after the other; [reach deg plan cap cells s] that s is a state some
    interleaving of the dispatcher and the pool threads can reach with flow-control length cap and initial ciphertexts cells. *)
From Coq Require Import ZifyBool ZifyNat.
From Verif Require Import Base Graph MuxGraph FheGraph CircuitProc SpecFhe SpecProc FheProofs CircuitProcProofs CircuitProcProofs2 CircuitProcProofs3 CircuitProcProofs4 CircuitProcProofs5 CircuitProcProofs6.
Open Scope nat_scope.

(** C32. Submitting never aborts; in a circuit without cycles and without Retire every node becomes a task. *)
Theorem submission_never_aborts : forall gs, submission gs -> exists plan, plan_graphs 0 gs 0 = Ok plan.
Proof. exact submission_planned. Qed.
Print Assumptions submission_never_aborts.
Theorem every_node_submitted : forall gs c g order n, submission gs -> nth_error gs c = Some (g, order) -> edges_ok g ->
  (exists rank : nat -> nat, forall s t l, In (s, t, l) (gedges g) -> rank s < rank t) -> (forall n, node g n <> Some FRetire) ->
  contains g n = true -> exists i, task_of gs c n i.
Proof.
  intros gs c g order n SUB E EO AC NR Hn. destruct (SUB g order) as [TO _]; [eapply nth_error_In; eauto|]. pose proof (topo_covers g order TO EO AC n Hn) as H.
  rewrite <- (live_all g order NR) in H. apply In_nth_error in H. destruct H as [k Hk]. exists (base_of gs c + k), g, order, k. auto.
Qed.
Print Assumptions every_node_submitted.
(** Two different nodes are different tasks. *)
Theorem tasks_distinct : forall gs c c' n n' i, submission gs -> task_of gs c n i -> task_of gs c' n' i -> c = c' /\ n = n'.
Proof.
  intros gs c c' n n' i SUB (g & o & k & E & Hk & ->) (g' & o' & k' & E' & Hk' & Eq).
  assert (L : k < width g o) by (assert (k < length (live g o)) by (apply nth_error_Some; congruence); unfold width; lia).
  assert (L' : k' < width g' o') by (assert (k' < length (live g' o')) by (apply nth_error_Some; congruence); unfold width; lia).
  destruct (seg_unique gs c c' g g' o o' k k' E E' L L' Eq) as [-> ->]. split; auto. rewrite E in E'. injection E' as <- <-. congruence.
Qed.
Print Assumptions tasks_distinct.
Theorem tasks_run_at_most_once : forall gs plan deg cap cells s i, submission gs -> plan_graphs 0 gs 0 = Ok plan -> reach deg plan cap cells s -> runs s i <= 1.
Proof. intros gs plan deg cap cells s i SUB PL R. exact (once_le gs SUB plan PL deg cap cells s i R). Qed.
Print Assumptions tasks_run_at_most_once.
Theorem tasks_run_exactly_once : forall gs plan deg cap cells s c n i, submission gs -> plan_graphs 0 gs 0 = Ok plan -> reach deg plan cap cells s ->
  complete plan s -> task_of gs c n i -> runs s i = 1.
Proof. intros gs plan deg cap cells s c n i SUB PL. exact (once_complete gs SUB plan PL deg cap cells s c n i). Qed.
Print Assumptions tasks_run_exactly_once.
Theorem tasks_run_after_inputs : forall gs plan deg cap cells s c g order m n l i j, submission gs -> plan_graphs 0 gs 0 = Ok plan -> reach deg plan cap cells s ->
  nth_error gs c = Some (g, order) -> In (m, n, l) (gedges g) -> task_of gs c n i -> task_of gs c m j -> 1 <= runs s i -> finished (ph s j) = true.
Proof. intros gs plan deg cap cells s c g order m n l i j SUB PL R. exact (after_inputs gs SUB plan PL deg cap cells s c g order m n l i j R). Qed.
Print Assumptions tasks_run_after_inputs.

(** C33. A circuit whose callback reported success left in every output ciphertext the value the circuit denotes, whatever the
    schedule, the number of threads, the flow-control length and the other circuits. *)
Theorem success_means_correct : forall gs plan deg cap cells s c g order n, submission gs -> exclusive gs -> plan_graphs 0 gs 0 = Ok plan -> reach deg plan cap cells s ->
  calls s c = [None] -> nth_error gs c = Some (g, order) -> In n order ->
  exists o w, fvalue deg cells g n (o, w) /\ match w with Some (t, r, v) => store s t r = v | None => True end.
Proof. intros gs plan deg cap cells s c g order n SUB X PL. exact (success_values gs SUB plan PL deg cap cells X s c g order n). Qed.
Print Assumptions success_means_correct.
(** Success or failure is decided by the circuit alone. *)
Theorem success_iff_meaningful : forall gs plan deg cap cells s c g order, submission gs -> exclusive gs -> plan_graphs 0 gs 0 = Ok plan -> reach deg plan cap cells s ->
  complete plan s -> nth_error gs c = Some (g, order) ->
  (calls s c = [None] <-> live g order = order /\ forall n, In n order -> exists o, fvalue deg cells g n o).
Proof. intros gs plan deg cap cells s c g order SUB X PL. exact (succeeds_iff gs SUB plan PL deg cap cells X s c g order). Qed.
Print Assumptions success_iff_meaningful.
Theorem failure_is_justified : forall gs plan deg cap cells s c g order e, submission gs -> exclusive gs -> plan_graphs 0 gs 0 = Ok plan -> reach deg plan cap cells s ->
  calls s c = [Some e] -> nth_error gs c = Some (g, order) ->
  (e = EOther /\ live g order <> order) \/ exists n op ins, In n order /\ node g n = Some op /\ finputs deg cells g (in_edges g n) ins /\ exec_op deg cells op ins = Err e.
Proof. intros gs plan deg cap cells s c g order e SUB X PL. exact (failure_blame gs SUB plan PL deg cap cells X s c g order e). Qed.
Print Assumptions failure_is_justified.
(** Two schedules, even with different flow-control lengths, agree. *)
Theorem schedule_independent : forall gs plan deg cap cap' cells s s' c g order, submission gs -> exclusive gs -> plan_graphs 0 gs 0 = Ok plan ->
  reach deg plan cap cells s -> complete plan s -> reach deg plan cap' cells s' -> complete plan s' -> nth_error gs c = Some (g, order) ->
  (calls s c = [None] <-> calls s' c = [None]) /\
  (calls s c = [None] -> forall n t r, In n order -> node g n = Some (FOutput t r) -> store s t r = store s' t r).
Proof.
  intros gs plan deg cap cap' cells s s' c g order SUB X PL R D R' D' E.
  pose proof (success_iff_meaningful gs plan deg cap cells s c g order SUB X PL R D E) as A. pose proof (success_iff_meaningful gs plan deg cap' cells s' c g order SUB X PL R' D' E) as B.
  split; [rewrite A, B; tauto|]. intros H n t r Hn No. assert (H' : calls s' c = [None]) by (apply B, A; auto).
  destruct (success_means_correct gs plan deg cap cells s c g order n SUB X PL R H E Hn) as (o & w & V & W).
  destruct (success_means_correct gs plan deg cap' cells s' c g order n SUB X PL R' H' E Hn) as (o' & w' & V' & W').
  pose proof (proj1 (fvalue_fun deg cells g) n _ V _ V') as Q. injection Q as -> ->.
  inversion V as [n' op ins o1 No' _ He]; subst. rewrite No in No'. injection No' as <-.
  unfold exec_op in He. destruct (validate deg (FOutput t r) ins) as [[]| |]; cbn [bind] in He; try discriminate. unfold run_op in He.
  destruct (inp0 ins) as [[v|]| |]; cbn [bind] in He; try discriminate. destruct (cty_eqb (ty_of v) t); [|discriminate]. injection He as <- <-. congruence.
Qed.
Print Assumptions schedule_independent.
(** No other ciphertext changes. *)
Theorem other_ciphertexts_unchanged : forall gs plan deg cap cells s t r, submission gs -> exclusive gs -> plan_graphs 0 gs 0 = Ok plan -> reach deg plan cap cells s ->
  (forall c g order n, nth_error gs c = Some (g, order) -> node g n <> Some (FOutput t r)) -> store s t r = cells t r.
Proof. intros gs plan deg cap cells s t r SUB X PL. exact (untouched gs SUB plan PL deg cap cells X s t r). Qed.
Print Assumptions other_ciphertexts_unchanged.

(** C34. The callback of a circuit fires at most once, only after all its tasks are done, and with the first error of the circuit;
    when everything has finished it has fired. *)
Theorem callback_at_most_once : forall gs plan deg cap cells s c, submission gs -> plan_graphs 0 gs 0 = Ok plan -> reach deg plan cap cells s -> length (calls s c) <= 1.
Proof. intros gs plan deg cap cells s c SUB PL. exact (callback_le gs SUB plan PL deg cap cells s c). Qed.
Print Assumptions callback_at_most_once.
Theorem callback_after_all_tasks : forall gs plan deg cap cells s c n i, submission gs -> plan_graphs 0 gs 0 = Ok plan -> reach deg plan cap cells s ->
  calls s c <> [] -> task_of gs c n i -> ph s i = PDone.
Proof. intros gs plan deg cap cells s c n i SUB PL. exact (callback_after gs SUB plan PL deg cap cells s c n i). Qed.
Print Assumptions callback_after_all_tasks.
Theorem callback_fires : forall gs plan deg cap cells s c g order, submission gs -> plan_graphs 0 gs 0 = Ok plan -> reach deg plan cap cells s ->
  complete plan s -> nth_error gs c = Some (g, order) -> calls s c = [er s c].
Proof. intros gs plan deg cap cells s c g order SUB PL. exact (callback_complete gs SUB plan PL deg cap cells s c g order). Qed.
Print Assumptions callback_fires.
Theorem first_error_kept : forall deg plan cap s s' h e, step deg plan cap s s' -> er s h = Some e -> er s' h = Some e.
Proof.
  intros deg plan cap s s' h e St H. destruct St; cbn [er]; auto; match goal with |- upd _ ?k _ _ = _ => destruct (Nat.eq_dec h k) as [->|]; [rewrite upd_same, H; reflexivity|rewrite upd_other by auto; auto] end.
Qed.
Print Assumptions first_error_kept.

(** C35. At most cap operations are in flight, and (cap >= 1) every schedule runs to completion: something can always happen until
    everything is done, and no schedule is infinite. *)
Theorem flow_control_bounded : forall gs plan deg cap cells s, submission gs -> plan_graphs 0 gs 0 = Ok plan -> reach deg plan cap cells s ->
  tok s + count_tasks (fun i => in_flight (ph s i)) (length plan) <= cap.
Proof. intros gs plan deg cap cells s SUB PL R. pose proof (i_flow _ _ _ (inv_reach plan (sub_plan_ok gs SUB plan PL) deg cap cells s R)) as F. unfold flow, infl in F. rewrite sumn_count in F. lia. Qed.
Print Assumptions flow_control_bounded.
Theorem never_deadlocks : forall gs plan deg cap cells s, submission gs -> plan_graphs 0 gs 0 = Ok plan -> reach deg plan cap cells s -> 1 <= cap ->
  complete plan s \/ exists s', step deg plan cap s s'.
Proof. intros gs plan deg cap cells s SUB PL R. apply (progress plan (sub_plan_ok gs SUB plan PL) deg cap cells s). exact (inv_reach plan (sub_plan_ok gs SUB plan PL) deg cap cells s R). Qed.
Print Assumptions never_deadlocks.
Theorem every_schedule_ends : forall gs plan deg cap cells (f : nat -> pstate), submission gs -> plan_graphs 0 gs 0 = Ok plan -> f 0 = pinit cap cells ->
  ~ (forall n, step deg plan cap (f n) (f (S n))).
Proof. intros gs plan deg cap cells f SUB PL. exact (no_infinite_run plan (sub_plan_ok gs SUB plan PL) deg cap cells f). Qed.
Print Assumptions every_schedule_ends.
(** A thread returning its flow-control token never blocks. *)
Theorem token_return_never_blocks : forall gs plan deg cap cells s i, submission gs -> plan_graphs 0 gs 0 = Ok plan -> reach deg plan cap cells s -> ph s i = PSend -> tok s < cap.
Proof.
  intros gs plan deg cap cells s i SUB PL R Hp. pose proof (inv_reach plan (sub_plan_ok gs SUB plan PL) deg cap cells s R) as I. pose proof (i_flow _ _ _ I) as F. unfold flow, infl in F.
  pose proof (sumn_ge (fun t => b2n (in_flight (ph s t))) (length plan) i (created_lt plan s i (i_core _ _ _ I) ltac:(rewrite Hp; cbn; lia))) as G. cbv beta in G. rewrite Hp in G. cbn in G. lia.
Qed.
Print Assumptions token_return_never_blocks.
(** With flow-control length 0 nothing is ever run: the restriction cap >= 1 is needed. *)
Theorem zero_flow_control_refuted : exists gs plan, submission gs /\ plan_graphs 0 gs 0 = Ok plan /\
  forall deg cells s, reach deg plan 0 cells s -> ~ complete plan s /\ forall s', ~ step deg plan 0 s s'.
Proof.
  exists [(gempty, [])], [ITask 0 FRetire []]. split; [|split; [reflexivity|]].
  - intros g o [E|[]]. injection E as <- <-. split.
    + constructor; [intros n []|constructor| |].
      * intros pre n post E. destruct pre; discriminate.
      * intros n H. unfold contains, node in H. cbn in H. destruct n; discriminate.
    + intros n. unfold node. cbn. destruct n; split; discriminate.
  - intros deg cells s R. rewrite (zero_cap_stuck deg [ITask 0 FRetire []] cells s 0 FRetire [] eq_refl R). split.
    + intros [D _]. discriminate.
    + intros s' St. assert (R2 : reach deg [ITask 0 FRetire []] 0 cells s') by (econstructor; [constructor|exact St]).
      apply (zero_cap_stuck deg _ cells s' 0 FRetire []) in R2; [|reflexivity]. subst s'.
      inversion St; cbn in *; discriminate.
Qed.
Print Assumptions zero_flow_control_refuted.

(** * Examples *)

(** Input, Not, Output: submitted twice with different ciphertexts. *)
Definition ex_g (a b : nat) : fgraph :=
  {| gnodes := [Some (FInput TGlwe1 a); Some FNot; Some (FOutput TGlwe1 b)]; gedges := [(1, 2, EUnary); (0, 1, EUnary)] |}.
Definition ex_gs : list (fgraph * list nat) := [(ex_g 0 1, [0; 1; 2]); (ex_g 0 2, [0; 1; 2])].
Lemma ex_topo : forall a b, topo_order (ex_g a b) [0; 1; 2].
Proof.
  intros a b. constructor.
  - intros n [<-|[<-|[<-|[]]]]; reflexivity.
  - repeat constructor; cbn; intuition lia.
  - intros pre n post E s l [H|[H|[]]]; injection H as <- <- <-.
    + destruct pre as [|x [|y [|z [|]]]]; cbn in E; try discriminate; injection E; intros; subst; cbn; auto; try discriminate; try lia.
    + destruct pre as [|x [|y [|z [|]]]]; cbn in E; try discriminate; injection E; intros; subst; cbn; auto; try discriminate; try lia.
  - intros n H _. unfold contains, node in H. destruct n as [|[|[|[|]]]]; cbn in *; try discriminate; auto.
Qed.
Example ex_submission : submission ex_gs.
Proof.
  intros g o [E|[E|[]]]; injection E as <- <-; (split; [apply ex_topo|]); intros n; unfold node; destruct n as [|[|[|[|]]]]; cbn; split; discriminate.
Qed.
Example ex_exclusive : exclusive ex_gs.
Proof.
  intros c c' g g' o o' n n' t r E E' Ho.
  destruct c as [|[|[|]]]; cbn in E; try discriminate; injection E as <- <-; destruct c' as [|[|[|]]]; cbn in E'; try discriminate; injection E' as <- <-;
  unfold node in *; destruct n' as [|[|[|[|]]]]; cbn in Ho; try discriminate; injection Ho as <- <-; destruct n as [|[|[|[|]]]]; cbn; (split; [discriminate|]); intros H; try discriminate; auto.
Qed.
Definition ex_cells : cty -> nat -> ct := fun _ _ => CGlwe1 [true; false].
Definition ex_plan : list item := match plan_graphs 0 ex_gs 0 with Ok p => p | _ => [] end.
Definition ex_sched : list choice := concat (repeat (repeat CDisp 20 ++ flat_map (fun i => repeat (CTask i) 10) (seq 0 8)) 8).
Definition ex_final : pstate := run_sched 2 ex_plan 2 ex_sched (pinit 2 ex_cells).
Example ex_plan_ok : plan_graphs 0 ex_gs 0 = Ok ex_plan.
Proof. reflexivity. Qed.
Example ex_reached : reach 2 ex_plan 2 ex_cells ex_final /\ complete ex_plan ex_final /\ calls ex_final 0 = [None] /\ calls ex_final 1 = [None] /\
  store ex_final TGlwe1 1 = CGlwe1 [false; false] /\ store ex_final TGlwe1 2 = CGlwe1 [false; false] /\ store ex_final TGlwe1 0 = CGlwe1 [true; false].
Proof.
  split; [apply run_sched_reach; constructor|]. split; [|vm_compute; auto]. split; [vm_compute; reflexivity|].
  intros i h op deps H. do 8 (destruct i as [|i]; [vm_compute; reflexivity|]). destruct i; discriminate.
Qed.

(** A failing circuit: a mux without inputs. The callback reports the error. *)
Definition ex_bad : list (fgraph * list nat) := [({| gnodes := [Some FCMux]; gedges := [] |}, [0])].
Example ex_bad_run : let s := run_sched 2 (match plan_graphs 0 ex_bad 0 with Ok p => p | _ => [] end) 2 ex_sched (pinit 2 ex_cells) in exists e, calls s 0 = [Some e].
Proof. vm_compute. eexists. reflexivity. Qed.

(** When a circuit reads a ciphertext that it also writes, the result depends on the schedule: [exclusive] is needed. *)
Definition al_g : fgraph :=
  {| gnodes := [Some (FInput TGlwe1 0); Some FNot; Some (FOutput TGlwe1 0); Some (FInput TGlwe1 0); Some (FOutput TGlwe1 1)];
     gedges := [(1, 2, EUnary); (0, 1, EUnary); (3, 4, EUnary)] |}.
Definition al_plan : list item := match plan_graphs 0 [(al_g, [0; 1; 2; 3; 4])] 0 with Ok p => p | _ => [] end.
Definition al_run (order : list nat) : pstate := run_sched 2 al_plan 10 (repeat CDisp 60 ++ flat_map (fun i => repeat (CTask i) 10) order) (pinit 10 ex_cells).
Lemma al_reach : forall order, reach 2 al_plan 10 ex_cells (al_run order).
Proof. intros order. unfold al_run. apply run_sched_reach. constructor. Qed.
Theorem aliased_circuit_schedule_dependent_refuted : exists s s', plan_graphs 0 [(al_g, [0; 1; 2; 3; 4])] 0 = Ok al_plan /\
  reach 2 al_plan 10 ex_cells s /\ reach 2 al_plan 10 ex_cells s' /\ complete al_plan s /\ complete al_plan s' /\
  calls s 0 = [None] /\ calls s' 0 = [None] /\ store s TGlwe1 1 <> store s' TGlwe1 1.
Proof.
  exists (al_run [0; 1; 2; 3; 4; 5]), (al_run [3; 4; 0; 1; 2; 5]). split; [reflexivity|]. split; [exact (al_reach _)|]. split; [exact (al_reach _)|].
  split; [|split; [|split; [vm_compute; reflexivity|split; [vm_compute; reflexivity|vm_compute; discriminate]]]];
    (split; [vm_compute; reflexivity|]); intros i h op deps H; (do 6 (destruct i as [|i]; [vm_compute; reflexivity|])); destruct i; discriminate.
Qed.
Print Assumptions aliased_circuit_schedule_dependent_refuted.
