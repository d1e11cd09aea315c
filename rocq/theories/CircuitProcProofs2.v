(** Proofs: counting, values, progress and termination of the circuit processor. *)
From Coq Require Import ZifyBool ZifyNat.
From Verif Require Import Base Graph MuxGraph FheGraph CircuitProc SpecFhe SpecProc FheProofs FheProofs2 CircuitProcProofs.
Open Scope nat_scope.

Section Sys.
Context (plan : list item) (PO : plan_ok plan) (deg cap : nat) (cells : cty -> nat -> ct).
Notation len := (length plan).
Notation step := (step deg plan cap).
Notation reach := (reach deg plan cap cells).
Notation core := (core plan).

Definition b2n (b : bool) : nat := if b then 1 else 0.
Lemma b2n_le : forall b, b2n b <= 1. Proof. destruct b; cbn; lia. Qed.

Lemma sumn_le : forall f g n, (forall t, t < n -> f t <= g t) -> sumn f n <= sumn g n.
Proof. induction n as [|n IH]; intros H; cbn [sumn]; [lia|]. specialize (IH ltac:(intros; apply H; lia)). specialize (H n ltac:(lia)). lia. Qed.
Lemma sumn_count : forall p n, sumn (fun t => b2n (p t)) n = count_tasks p n.
Proof. induction n as [|n IH]; cbn [sumn count_tasks]; [auto|]. rewrite IH. reflexivity. Qed.

(** What each step does to the phases: one task changes, by a known amount. *)
Lemma step_phase : forall s s', core_s plan s -> step s s' ->
  (ph s' = ph s) \/
  (exists i h op deps, dp s = DCount i /\ nth_error plan i = Some (ITask h op deps) /\ ph s i = PNone /\ ph s' = upd (ph s) i PBlocked) \/
  (exists i, ph s i = PBlocked /\ nd s i = 1 /\ ph s' = upd (ph s) i PReady) \/
  (exists i p, 2 <= prank (ph s i) /\ ph s' = upd (ph s) i p /\ (prank (ph s i) = 2 \/ prank p = S (prank (ph s i))) /\ (prank (ph s i) = 2 -> 3 <= prank p <= 4)).
Proof.
  intros s s' C St.
  assert (RK : forall i, prank (ph s i) = 1 -> ph s i = PBlocked) by (intros i; destruct (ph s i); cbn; intros; (reflexivity || discriminate)).
  destruct St as
    [i h Hd Hi|i h op deps t Hd Hi Ht|i h op deps Hd Hi|i j h op deps d l Hd Hi Hj Hl|i j h op deps d l Hd Hi Hj Hl|i j Hd|i j h op deps d l Hd Hi Hj|i j h op deps d l Hd Hi Hj
    |i j h op deps Hd Hi Hj|i Hd|i h op deps Hp Hi|i h op deps o w Hp Hi He|i h op deps e Hp Hi He|i Hp Hl|i d rest Hp Hr|i Hp Hr|i Hp Ht|i h op deps Hp Hi]; cbn [ph]; auto.
  - right. left. exists i, h, op, deps. repeat split; auto. destruct (ph s i) eqn:E; auto; exfalso;
    assert (G : 1 <= prank (ph s i)) by (rewrite E; cbn; lia); apply (c_created _ _ _ _ _ _ C) in G; rewrite Hd in G; cbn [pos] in G; lia.
  - destruct (nd s i =? 1) eqn:E; auto. right. right. left. exists i. split; [|split; [lia|auto]]. apply RK. apply (core_own plan _ _ _ _ _ i C). rewrite Hd. cbn. now rewrite Nat.eqb_refl.
  - right. right. right. exists i. eexists. split; [|split; [reflexivity|]]; rewrite Hp; cbn; [lia|]. split; [auto|]. intros _. destruct (er s h); cbn; lia.
  - right. right. right. exists i, PLock. rewrite Hp. cbn. repeat split; auto; lia.
  - right. right. right. exists i, PLock. rewrite Hp. cbn. repeat split; auto; lia.
  - right. right. right. exists i, PDrain. rewrite Hp. cbn. repeat split; auto; lia.
  - destruct (nd s d =? 1) eqn:E; auto. right. right. left. exists d. split; [|split; [lia|auto]]. apply RK. apply (c_list _ _ _ _ _ _ C i). rewrite Hr. now left.
  - right. right. right. exists i, PSend. rewrite Hp. cbn. repeat split; auto; lia.
  - right. right. right. exists i, PRetire. rewrite Hp. cbn. repeat split; auto; lia.
  - right. right. right. exists i, PDone. rewrite Hp. cbn. repeat split; auto; lia.
Qed.

Lemma rank_mono : forall s s' t, core_s plan s -> step s s' -> prank (ph s t) <= prank (ph s' t).
Proof.
  intros s s' t C St. destruct (step_phase s s' C St) as [E|[(i & h & op & deps & _ & _ & P & E)|[(i & P & _ & E)|(i & p & P & E & Q & R)]]]; rewrite E; auto; ucase t i; auto.
  - rewrite P. cbn. lia.
  - rewrite P. cbn. lia.
  - destruct Q as [Q|Q]; [specialize (R Q)|]; lia.
Qed.

(** ** Flow control *)
Definition infl (s : pstate) : nat := sumn (fun t => b2n (in_flight (ph s t))) len.
Definition taken (d : dpc) : nat := match d with DCount _ => 1 | _ => 0 end.
Definition flow (s : pstate) : Prop := tok s + infl s + taken (dp s) = cap.

Lemma created_lt : forall s i, core_s plan s -> 1 <= prank (ph s i) -> i < len.
Proof. intros s i C H. apply (c_created _ _ _ _ _ _ C) in H. destruct H as [_ (h & op & deps & H)]. apply nth_error_Some. congruence. Qed.

Lemma sum_phase : forall (f : nat -> phase -> nat) g g' i, i < len -> (forall t, t <> i -> g' t = g t) ->
  sumn (fun t => f t (g' t)) len + f i (g i) = sumn (fun t => f t (g t)) len + f i (g' i).
Proof. intros f g g' i L H. apply (sumn_upd (fun t => f t (g t)) (fun t => f t (g' t)) i len L). intros t Ht. now rewrite H. Qed.

Lemma flow_step : forall s s', core_s plan s -> flow s -> step s s' -> flow s'.
Proof.
  intros s s' C F St. unfold flow in *.
  assert (SAME : forall g, (forall t, b2n (in_flight (g t)) = b2n (in_flight (ph s t))) -> sumn (fun t => b2n (in_flight (g t))) len = infl s).
  { intros g H. apply sumn_ext. intros t _. apply H. }
  assert (PH : forall i p, b2n (in_flight p) = b2n (in_flight (ph s i)) -> sumn (fun t => b2n (in_flight (upd (ph s) i p t))) len = infl s).
  { intros i p H. apply SAME. intros t. ucase t i; auto. }
  assert (CH : forall i p, i < len -> sumn (fun t => b2n (in_flight (upd (ph s) i p t))) len + b2n (in_flight (ph s i)) = infl s + b2n (in_flight p)).
  { intros i p L. pose proof (sum_phase (fun _ q => b2n (in_flight q)) (ph s) (upd (ph s) i p) i L ltac:(intros; now rewrite upd_other)) as G. cbv beta in G. rewrite upd_same in G. exact G. }
  assert (RD : forall k, prank (ph s k) = 1 -> sumn (fun t => b2n (in_flight ((if nd s k =? 1 then upd (ph s) k PReady else ph s) t))) len = infl s).
  { intros k H. destruct (nd s k =? 1); [|reflexivity]. apply PH. unfold in_flight. rewrite H. reflexivity. }
  destruct St as
    [i h Hd Hi|i h op deps t Hd Hi Ht|i h op deps Hd Hi|i j h op deps d l Hd Hi Hj Hl|i j h op deps d l Hd Hi Hj Hl|i j Hd|i j h op deps d l Hd Hi Hj|i j h op deps d l Hd Hi Hj
    |i j h op deps Hd Hi Hj|i Hd|i h op deps Hp Hi|i h op deps o w Hp Hi He|i h op deps e Hp Hi He|i Hp Hl|i d rest Hp Hr|i Hp Hr|i Hp Ht|i h op deps Hp Hi];
    unfold infl; cbn [dp ph tok taken]; try (rewrite Hd in F; cbn [taken] in F; exact F); try (rewrite Hd in F; cbn [taken] in F).
  - fold (infl s). lia.
  - assert (Hz : ph s i = PNone).
    { destruct (ph s i) eqn:E; auto; exfalso; assert (G : 1 <= prank (ph s i)) by (rewrite E; cbn; lia); apply (c_created _ _ _ _ _ _ C) in G; rewrite Hd in G; cbn [pos] in G; lia. }
    specialize (CH i PBlocked). rewrite Hz in CH. cbn in CH. assert (i < len) by (apply nth_error_Some; unfold item_at in Hi; congruence). specialize (CH H). lia.
  - rewrite RD; [lia|]. apply (core_own plan _ _ _ _ _ i C). rewrite Hd. cbn. now rewrite Nat.eqb_refl.
  - rewrite PH; auto. rewrite Hp. destruct (er s h); reflexivity.
  - rewrite PH; auto. rewrite Hp. reflexivity.
  - rewrite PH; auto. rewrite Hp. reflexivity.
  - rewrite PH; auto. rewrite Hp. reflexivity.
  - rewrite RD; auto. apply (c_list _ _ _ _ _ _ C i). rewrite Hr. now left.
  - rewrite PH; auto. rewrite Hp. reflexivity.
  - specialize (CH i PRetire ltac:(apply (created_lt s); auto; rewrite Hp; cbn; lia)). rewrite Hp in CH. cbn in CH. lia.
  - rewrite PH; auto. rewrite Hp. reflexivity.
Qed.
Lemma flow_init : flow (pinit cap cells).
Proof. unfold flow, infl. cbn. rewrite sumn_zero by reflexivity. lia. Qed.

(** ** Completion *)
Definition retired_of (h : nat) (s : pstate) : nat :=
  sumn (fun t => match nth_error plan t with Some (ITask h' _ _) => b2n ((h' =? h) && (7 <? prank (ph s t))) | _ => 0 end) len.
Definition counted_of (h : nat) (s : pstate) : nat :=
  sumn (fun t => match nth_error plan t with Some (ITask h' op _) => b2n ((h' =? h) && negb (is_retire op) && (0 <? prank (ph s t))) | _ => 0 end) len.
Definition tally (s : pstate) : Prop := forall h, rem s h + retired_of h s = 1 + counted_of h s.
Definition called (s : pstate) : Prop := forall h, calls s h = if rem s h =? 0 then [er s h] else [].

Lemma retire_unique : forall i j h d d', nth_error plan i = Some (ITask h FRetire d) -> nth_error plan j = Some (ITask h FRetire d') -> i = j.
Proof.
  intros i j h d d' Hi Hj. destruct (po_retire plan PO i h d Hi) as [_ A]. destruct (po_retire plan PO j h d' Hj) as [_ B].
  specialize (A j _ Hj eq_refl). specialize (B i _ Hi eq_refl). lia.
Qed.
(** At most one more retirement than counted tasks: the Retire itself. *)
Lemma retired_le : forall h s, retired_of h s <= 1 + counted_of h s.
Proof.
  intros h s. unfold retired_of, counted_of.
  set (r := fun t => match nth_error plan t with Some (ITask h' op _) => b2n ((h' =? h) && is_retire op) | _ => 0 end).
  assert (A : sumn r len <= 1).
  { assert (G : forall n, n <= len -> sumn r n <= 1); [|apply G; lia]. induction n as [|n IH]; intros L; cbn [sumn]; [lia|]. specialize (IH ltac:(lia)).
    destruct (sumn r n) as [|x] eqn:E; [unfold r; destruct (nth_error plan n) as [[]|]; try lia; apply b2n_le|].
    destruct (sumn_pos r n ltac:(lia)) as (t & Lt & Ht). enough (r n = 0) by lia. unfold r in Ht |- *.
    destruct (nth_error plan n) as [[h1 op1 d1|]|] eqn:E1; auto. destruct (nth_error plan t) as [[h2 op2 d2|]|] eqn:E2; try lia.
    destruct (Nat.eqb_spec h2 h) as [->|]; [|cbn in Ht; lia]. destruct (Nat.eqb_spec h1 h) as [->|]; [|auto]. cbn in *.
    destruct op2; cbn in Ht; try lia. destruct op1; cbn; auto. exfalso. pose proof (retire_unique _ _ _ _ _ E1 E2). lia. }
  set (c := fun t => match nth_error plan t with Some (ITask h' op _) => b2n ((h' =? h) && negb (is_retire op) && (0 <? prank (ph s t))) | _ => 0 end).
  assert (B : sumn (fun t => match nth_error plan t with Some (ITask h' _ _) => b2n ((h' =? h) && (7 <? prank (ph s t))) | _ => 0 end) len <= sumn (fun t => r t + c t) len).
  { apply sumn_le. intros t _. unfold r, c. destruct (nth_error plan t) as [[h' op d|]|]; try lia. destruct (h' =? h); cbn [b2n andb negb]; [|lia]. destruct (is_retire op); cbn [b2n andb negb]; [pose proof (b2n_le (7 <? prank (ph s t))); lia|].
    destruct (7 <? prank (ph s t)) eqn:E; cbn [b2n andb negb]; [|lia]. replace (0 <? prank (ph s t)) with true by lia. cbn. lia. }
  assert (D : forall n, sumn (fun t => r t + c t) n = sumn r n + sumn c n) by (induction n as [|n IH]; cbn [sumn]; [auto|rewrite IH; lia]).
  rewrite D in B. lia.
Qed.
(** A pending retirement leaves room. *)
Lemma retired_lt : forall s i h op deps, tally s -> nth_error plan i = Some (ITask h op deps) -> ph s i = PRetire -> 1 <= rem s h.
Proof.
  intros s i h op deps T Hi Hp. specialize (T h).
  set (s1 := {| dp := dp s; ph := upd (ph s) i PDone; nd := nd s; lk := lk s; dl := dl s; out := out s; store := store s; tok := tok s; rem := rem s; er := er s; calls := calls s; runs := runs s |}).
  pose proof (retired_le h s1) as A. assert (L : i < len) by (apply nth_error_Some; congruence).
  assert (B : retired_of h s1 = retired_of h s + 1).
  { pose proof (sum_phase (fun t q => match nth_error plan t with Some (ITask h' _ _) => b2n ((h' =? h) && (7 <? prank q)) | _ => 0 end) (ph s) (ph s1) i L) as G.
    cbv beta in G. rewrite Hi, Hp, Nat.eqb_refl in G. unfold s1 in G. cbn [ph] in G. rewrite upd_same in G. specialize (G ltac:(intros; now rewrite upd_other)).
    cbn [prank] in G. change (7 <? 7) with false in G. change (7 <? 8) with true in G. cbn [andb b2n] in G.
    unfold retired_of, s1. cbn [ph]. lia. }
  assert (D : counted_of h s1 = counted_of h s).
  { unfold counted_of. apply sumn_ext. intros t _. unfold s1. cbn [ph]. ucase t i; [|auto]. rewrite Hi, Hp. reflexivity. }
  lia.
Qed.

Lemma tally_step : forall s s', core_s plan s -> tally s -> step s s' -> tally s'.
Proof.
  intros s s' C T St h0. unfold tally in T. pose proof (T h0) as T0.
  assert (RT : forall g, (forall t, 7 < prank (g t) <-> 7 < prank (ph s t)) ->
     sumn (fun t => match nth_error plan t with Some (ITask h' _ _) => b2n ((h' =? h0) && (7 <? prank (g t))) | _ => 0 end) len = retired_of h0 s).
  { intros g H. apply sumn_ext. intros t _. destruct (nth_error plan t) as [[]|]; auto. do 2 f_equal. specialize (H t). destruct (7 <? prank (g t)) eqn:A, (7 <? prank (ph s t)) eqn:B; auto; lia. }
  assert (CT : forall g, (forall t, 0 < prank (g t) <-> 0 < prank (ph s t)) ->
     sumn (fun t => match nth_error plan t with Some (ITask h' op _) => b2n ((h' =? h0) && negb (is_retire op) && (0 <? prank (g t))) | _ => 0 end) len = counted_of h0 s).
  { intros g H. apply sumn_ext. intros t _. destruct (nth_error plan t) as [[]|]; auto. do 2 f_equal. specialize (H t). destruct (0 <? prank (g t)) eqn:A, (0 <? prank (ph s t)) eqn:B; auto; lia. }
  assert (PR : forall i p, 0 < prank (ph s i) < 8 -> 0 < prank p < 8 -> (forall t, 7 < prank (upd (ph s) i p t) <-> 7 < prank (ph s t)) /\ (forall t, 0 < prank (upd (ph s) i p t) <-> 0 < prank (ph s t))).
  { intros i p A B. split; intros t; (ucase t i; lia). }
  assert (RD : forall k, prank (ph s k) = 1 -> (forall t, 7 < prank ((if nd s k =? 1 then upd (ph s) k PReady else ph s) t) <-> 7 < prank (ph s t)) /\
     (forall t, 0 < prank ((if nd s k =? 1 then upd (ph s) k PReady else ph s) t) <-> 0 < prank (ph s t))).
  { intros k H. destruct (nd s k =? 1); [|split; tauto]. apply PR; [lia|cbn; lia]. }
  destruct St as
    [i h Hd Hi|i h op deps t Hd Hi Ht|i h op deps Hd Hi|i j h op deps d l Hd Hi Hj Hl|i j h op deps d l Hd Hi Hj Hl|i j Hd|i j h op deps d l Hd Hi Hj|i j h op deps d l Hd Hi Hj
    |i j h op deps Hd Hi Hj|i Hd|i h op deps Hp Hi|i h op deps o w Hp Hi He|i h op deps e Hp Hi He|i Hp Hl|i d rest Hp Hr|i Hp Hr|i Hp Ht|i h op deps Hp Hi];
    unfold retired_of, counted_of; cbn [ph rem]; try exact T0; unfold item_at in *.
  - assert (Hz : ph s i = PNone).
    { destruct (ph s i) eqn:E; auto; exfalso; assert (G : 1 <= prank (ph s i)) by (rewrite E; cbn; lia); apply (c_created _ _ _ _ _ _ C) in G; rewrite Hd in G; cbn [pos] in G; lia. }
    assert (L : i < len) by (apply nth_error_Some; congruence).
    rewrite RT by (intros t; ucase t i; [rewrite Hz; cbn; lia|tauto]).
    pose proof (sum_phase (fun t q => match nth_error plan t with Some (ITask h' op _) => b2n ((h' =? h0) && negb (is_retire op) && (0 <? prank q)) | _ => 0 end) (ph s) (upd (ph s) i PBlocked) i L ltac:(intros; now rewrite upd_other)) as G.
    cbv beta in G. rewrite upd_same, Hz, Hi in G. fold (counted_of h0 s) in G. cbn [prank] in G. change (0 <? 0) with false in G. change (0 <? 1) with true in G. rewrite !andb_false_r, !andb_true_r in G. cbn [b2n] in G.
    destruct (is_retire op) eqn:Er; cbn [negb] in G; rewrite ?andb_false_r, ?andb_true_r in G; cbn [b2n] in G; [lia|].
    destruct (Nat.eqb_spec h h0) as [->|Nh]; cbn [b2n] in G; [rewrite upd_same|rewrite upd_other by auto]; lia.
  - destruct (RD i) as [A B]; [apply (core_own plan _ _ _ _ _ i C); rewrite Hd; cbn; now rewrite Nat.eqb_refl|]. now rewrite (RT _ A), (CT _ B).
  - destruct (PR i (match er s h with None => PRun | Some _ => PLock end)) as [A B]; [rewrite Hp; cbn; lia|destruct (er s h); cbn; lia|]. now rewrite (RT _ A), (CT _ B).
  - destruct (PR i PLock) as [A B]; [rewrite Hp; cbn; lia|cbn; lia|]. now rewrite (RT _ A), (CT _ B).
  - destruct (PR i PLock) as [A B]; [rewrite Hp; cbn; lia|cbn; lia|]. now rewrite (RT _ A), (CT _ B).
  - destruct (PR i PDrain) as [A B]; [rewrite Hp; cbn; lia|cbn; lia|]. now rewrite (RT _ A), (CT _ B).
  - destruct (RD d) as [A B]; [apply (c_list _ _ _ _ _ _ C i); rewrite Hr; now left|]. now rewrite (RT _ A), (CT _ B).
  - destruct (PR i PSend) as [A B]; [rewrite Hp; cbn; lia|cbn; lia|]. now rewrite (RT _ A), (CT _ B).
  - destruct (PR i PRetire) as [A B]; [rewrite Hp; cbn; lia|cbn; lia|]. now rewrite (RT _ A), (CT _ B).
  - assert (L : i < len) by (apply nth_error_Some; congruence).
    rewrite CT by (intros t; ucase t i; [rewrite Hp; cbn; lia|tauto]).
    pose proof (sum_phase (fun t q => match nth_error plan t with Some (ITask h' _ _) => b2n ((h' =? h0) && (7 <? prank q)) | _ => 0 end) (ph s) (upd (ph s) i PDone) i L ltac:(intros; now rewrite upd_other)) as G.
    cbv beta in G. rewrite upd_same, Hp, Hi in G. fold (retired_of h0 s) in G. cbn [prank] in G. change (7 <? 7) with false in G. change (7 <? 8) with true in G. rewrite andb_false_r, andb_true_r in G. cbn [b2n] in G.
    pose proof (retired_lt s i h op deps T Hi Hp) as R.
    destruct (Nat.eqb_spec h h0) as [->|Nh]; cbn [b2n] in G; [rewrite upd_same|rewrite upd_other by auto]; lia.
Qed.
Lemma tally_init : tally (pinit cap cells).
Proof. intros h. unfold retired_of, counted_of. cbn. rewrite !sumn_zero; [reflexivity| |]; intros t _; destruct (nth_error plan t) as [[]|]; auto; rewrite ?andb_false_r; auto. Qed.

(** When a handler's count is zero, its Retire and every one of its tasks are done. *)
Lemma rem_zero : forall s h, core_s plan s -> tally s -> rem s h = 0 ->
  exists r, nth_error plan r = Some (ITask h FRetire []) /\ ph s r = PDone /\
    (forall i op deps, nth_error plan i = Some (ITask h op deps) -> ph s i = PDone) /\ (forall i x, nth_error plan i = Some x -> item_handler x = h -> i < pos (dp s)).
Proof.
  intros s h C T Z. specialize (T h).
  assert (D8 : forall i, 7 < prank (ph s i) -> ph s i = PDone) by (intros i; destruct (ph s i); cbn; auto; lia).
  set (r := fun t => match nth_error plan t with Some (ITask h' op _) => b2n ((h' =? h) && is_retire op && (7 <? prank (ph s t))) | _ => 0 end).
  set (a := fun t => match nth_error plan t with Some (ITask h' op _) => b2n ((h' =? h) && negb (is_retire op) && (7 <? prank (ph s t))) | _ => 0 end).
  set (c := fun t => match nth_error plan t with Some (ITask h' op _) => b2n ((h' =? h) && negb (is_retire op) && (0 <? prank (ph s t))) | _ => 0 end).
  assert (E1 : retired_of h s = sumn r len + sumn a len).
  { unfold retired_of. rewrite (sumn_ext _ (fun t => r t + a t)).
    - induction len as [|n IH]; cbn [sumn]; [auto|]. rewrite IH. lia.
    - intros t _. unfold r, a. destruct (nth_error plan t) as [[h' op d|]|]; auto. destruct (h' =? h), (is_retire op), (7 <? prank (ph s t)); reflexivity. }
  assert (LE : forall t, a t <= c t).
  { intros t. unfold a, c. destruct (nth_error plan t) as [[h' op d|]|]; auto. destruct (7 <? prank (ph s t)) eqn:E; [replace (0 <? prank (ph s t)) with true by lia; lia|]. rewrite andb_false_r. cbn. lia. }
  assert (Rp : 0 < sumn r len) by (pose proof (sumn_le a c len ltac:(auto)); fold c in T; unfold counted_of in T; fold c in T; lia).
  destruct (sumn_pos r len Rp) as (x & Lx & Hx). unfold r in Hx. destruct (nth_error plan x) as [[h' op d|]|] eqn:Ex; try lia.
  destruct (Nat.eqb_spec h' h) as [->|]; [|cbn in Hx; lia]. destruct op; cbn [is_retire andb b2n] in Hx; try lia.
  destruct (7 <? prank (ph s x)) eqn:Px; cbn [b2n] in Hx; [|lia]. destruct (po_retire plan PO x h d Ex) as [-> Last].
  assert (Pos : forall i y, nth_error plan i = Some y -> item_handler y = h -> i < pos (dp s)).
  { intros i y Hi Hy. specialize (Last i y Hi Hy). assert (1 <= prank (ph s x)) by lia. apply (c_created _ _ _ _ _ _ C) in H. lia. }
  exists x. split; auto. split; [apply D8; lia|]. split; [|exact Pos].
  intros i op deps Hi. destruct (is_retire op) eqn:Er.
  - destruct op; try discriminate. assert (i = x) by (eapply retire_unique; eauto). subst i. apply D8. lia.
  - assert (Ci : c i = 1).
    { unfold c. rewrite Hi, Nat.eqb_refl, Er. cbn [negb andb]. assert (G : 1 <= prank (ph s i)); [apply (c_created _ _ _ _ _ _ C); split; [eapply Pos; eauto|exists h; eauto]|].
      replace (0 <? prank (ph s i)) with true by lia. reflexivity. }
    assert (Li : i < len) by (apply nth_error_Some; congruence).
    assert (R1 : sumn r len <= 1).
    { assert (Z1 : forall t, t <> x -> r t = 0).
      { intros t Nt. unfold r. destruct (nth_error plan t) as [[h2 op2 d2|]|] eqn:E2; auto. destruct (Nat.eqb_spec h2 h) as [->|]; auto. destruct op2; auto. exfalso. apply Nt. eapply retire_unique; eauto. }
      pose proof (sumn_upd (fun _ => 0) r x len Lx Z1) as Q. rewrite (sumn_zero (fun _ => 0)) in Q by auto.
      assert (r x <= 1) by (unfold r; rewrite Ex; apply b2n_le). lia. }
    assert (Ai : a i = 1).
    { destruct (Nat.eq_dec (a i) 1) as [|Na]; [assumption|exfalso]. assert (Az : a i = 0) by (pose proof (LE i); lia).
      pose proof (sumn_le (upd a i 1) c len ltac:(intros t _; ucase t i; [lia|auto])) as Q1.
      pose proof (sumn_upd a (upd a i 1) i len Li ltac:(intros; now rewrite upd_other)) as Q2. rewrite upd_same in Q2.
      unfold counted_of in T. fold c in T. lia. }
    unfold a in Ai. rewrite Hi, Nat.eqb_refl, Er in Ai. cbn [negb andb] in Ai. destruct (7 <? prank (ph s i)) eqn:Q; [apply D8; lia|discriminate].
Qed.

Lemma called_step : forall s s', core_s plan s -> tally s -> called s -> step s s' -> called s'.
Proof.
  intros s s' C T K St h0. pose proof (K h0) as K0.
  assert (Run : forall i h op deps, nth_error plan i = Some (ITask h op deps) -> 1 <= prank (ph s i) < 8 -> rem s h <> 0).
  { intros i h op deps Hi Hr Z. destruct (rem_zero s h C T Z) as (r & _ & _ & A & _). specialize (A i op deps Hi). rewrite A in Hr. cbn in Hr. lia. }
  assert (New : forall i h x, nth_error plan i = Some x -> item_handler x = h -> pos (dp s) <= i -> rem s h <> 0).
  { intros i h x Hi Hh Hq Z. destruct (rem_zero s h C T Z) as (r & _ & _ & _ & A). specialize (A i x Hi Hh). lia. }
  destruct St as
    [i h Hd Hi|i h op deps t Hd Hi Ht|i h op deps Hd Hi|i j h op deps d l Hd Hi Hj Hl|i j h op deps d l Hd Hi Hj Hl|i j Hd|i j h op deps d l Hd Hi Hj|i j h op deps d l Hd Hi Hj
    |i j h op deps Hd Hi Hj|i Hd|i h op deps Hp Hi|i h op deps o w Hp Hi He|i h op deps e Hp Hi He|i Hp Hl|i d rest Hp Hr|i Hp Hr|i Hp Ht|i h op deps Hp Hi];
    cbn [calls rem er]; auto; unfold item_at in *.
  - ucase h0 h; auto. assert (rem s h <> 0) by (apply (New i h _ Hi eq_refl); rewrite Hd; cbn; lia). rewrite K0. destruct (rem s h =? 0) eqn:E; [lia|auto].
  - destruct (is_retire op); auto. ucase h0 h; auto. assert (rem s h <> 0) by (apply (New i h _ Hi eq_refl); rewrite Hd; cbn; lia). rewrite K0.
    destruct (rem s h =? 0) eqn:E; [lia|]. replace (rem s h + 1 =? 0) with false by lia. auto.
  - ucase h0 h; auto. assert (rem s h <> 0) by (apply (Run i h op deps Hi); rewrite Hp; cbn; lia). rewrite K0. destruct (rem s h =? 0) eqn:E; [lia|auto].
  - pose proof (retired_lt s i h op deps T Hi Hp) as R. destruct (Nat.eq_dec h0 h) as [->|].
    + rewrite upd_same. destruct (rem s h =? 1) eqn:E.
      * rewrite upd_same, K0. replace (rem s h =? 0) with false by lia. replace (rem s h - 1 =? 0) with true by lia. reflexivity.
      * rewrite K0. replace (rem s h =? 0) with false by lia. replace (rem s h - 1 =? 0) with false by lia. reflexivity.
    + rewrite upd_other by auto. destruct (rem s h =? 1); rewrite ?upd_other by auto; auto.
Qed.
Lemma called_init : called (pinit cap cells).
Proof. intros h. reflexivity. Qed.

(** ** Each task runs once *)
Definition ran (s : pstate) : Prop := forall i, runs s i = b2n (2 <? prank (ph s i)).
Lemma ran_step : forall s s', core_s plan s -> ran s -> step s s' -> ran s'.
Proof.
  intros s s' C R St i0. pose proof (R i0) as R0.
  assert (RD : forall k, prank (ph s k) = 1 -> b2n (2 <? prank ((if nd s k =? 1 then upd (ph s) k PReady else ph s) i0)) = b2n (2 <? prank (ph s i0))).
  { intros k H. destruct (nd s k =? 1); auto. ucase i0 k; [rewrite H; reflexivity|auto]. }
  destruct St as
    [i h Hd Hi|i h op deps t Hd Hi Ht|i h op deps Hd Hi|i j h op deps d l Hd Hi Hj Hl|i j h op deps d l Hd Hi Hj Hl|i j Hd|i j h op deps d l Hd Hi Hj|i j h op deps d l Hd Hi Hj
    |i j h op deps Hd Hi Hj|i Hd|i h op deps Hp Hi|i h op deps o w Hp Hi He|i h op deps e Hp Hi He|i Hp Hl|i d rest Hp Hr|i Hp Hr|i Hp Ht|i h op deps Hp Hi];
    cbn [runs ph]; auto.
  - ucase i0 i; auto. rewrite R0. assert (Hz : prank (ph s i) = 0).
    { destruct (prank (ph s i)) eqn:E; auto; exfalso; assert (G : 1 <= prank (ph s i)) by (rewrite E; lia); apply (c_created _ _ _ _ _ _ C) in G; rewrite Hd in G; cbn [pos] in G; lia. }
    rewrite Hz. reflexivity.
  - rewrite RD; auto. apply (core_own plan _ _ _ _ _ i C). rewrite Hd. cbn. now rewrite Nat.eqb_refl.
  - ucase i0 i; auto. rewrite R0, Hp. destruct (er s h); reflexivity.
  - ucase i0 i; auto. rewrite R0, Hp. reflexivity.
  - ucase i0 i; auto. rewrite R0, Hp. reflexivity.
  - ucase i0 i; auto. rewrite R0, Hp. reflexivity.
  - rewrite RD; auto. apply (c_list _ _ _ _ _ _ C i). rewrite Hr. now left.
  - ucase i0 i; auto. rewrite R0, Hp. reflexivity.
  - ucase i0 i; auto. rewrite R0, Hp. reflexivity.
  - ucase i0 i; auto. rewrite R0, Hp. reflexivity.
Qed.

(** A task past its dependencies: they have all finished. *)
Lemma deps_finished : forall s i h op deps t l, core_s plan s -> nth_error plan i = Some (ITask h op deps) -> 2 <= prank (ph s i) -> In (t, l) deps -> 5 <= prank (ph s t).
Proof.
  intros s i h op deps t l C Hi Hr Ht. apply In_nth_error in Ht. destruct Ht as [j Hj].
  assert (Ow : own (dp s) i = 0).
  { destruct (own (dp s) i) as [|x] eqn:E; auto. exfalso. assert (own (dp s) i = 1) by (destruct (dp s); cbn in *; try discriminate; destruct (_ =? _); congruence).
    pose proof (core_own plan _ _ _ _ _ i C H). lia. }
  destruct (c_past _ _ _ _ _ _ C i h op deps j t l) as [A|A]; auto; [lia| |].
  - destruct (dp s) as [| |k m|k m|k m|k m|]; cbn in *; auto; intros ->; rewrite Nat.eqb_refl in Ow; discriminate.
  - apply (c_list _ _ _ _ _ _ C) in A. lia.
Qed.

(** All invariants together. *)
Record inv (s : pstate) : Prop := { i_core : core_s plan s; i_flow : flow s; i_tally : tally s; i_called : called s; i_ran : ran s }.
Lemma inv_reach : forall s, reach s -> inv s.
Proof.
  intros s R. induction R as [|s s' R IH St].
  - constructor; [apply core_init|apply flow_init|apply tally_init|apply called_init|intros i; reflexivity].
  - destruct IH as [A B C D E]. constructor.
    + eapply core_step; eauto.
    + eapply flow_step; eauto.
    + eapply tally_step; eauto.
    + eapply called_step; eauto.
    + eapply ran_step; eauto.
Qed.
End Sys.
