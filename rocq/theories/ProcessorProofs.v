(** Proofs: scheduling invariants of the out-of-order processor. *)
From Coq Require Import ZifyBool ZifyNat.
From Verif Require Import Base Alu Memory Isa Processor.
Open Scope nat_scope.

(** ** Sums *)
Fixpoint sumn (f : nat -> nat) (n : nat) : nat := match n with O => 0 | S n => sumn f n + f n end.
Lemma sumn_ext : forall f g n, (forall t, t < n -> f t = g t) -> sumn f n = sumn g n.
Proof. induction n as [|n IH]; intros H; cbn [sumn]; [auto|]. rewrite IH by (intros; apply H; lia). rewrite (H n) by lia. reflexivity. Qed.
Lemma sumn_upd : forall f f' k n, k < n -> (forall t, t <> k -> f' t = f t) -> sumn f' n + f k = sumn f n + f' k.
Proof.
  intros f f' k n. induction n as [|n IH]; intros H E; [lia|]. cbn [sumn]. destruct (Nat.eq_dec k n) as [->|Hn].
  - rewrite (sumn_ext f' f n) by (intros; apply E; lia). lia.
  - rewrite (E n) by lia. specialize (IH ltac:(lia) E). lia.
Qed.
Lemma sumn_ge : forall f n t, t < n -> f t <= sumn f n.
Proof. induction n as [|n IH]; intros t H; [lia|]. cbn [sumn]. destruct (Nat.eq_dec t n) as [->|]; [lia|]. specialize (IH t ltac:(lia)). lia. Qed.
Lemma sumn_zero : forall f n, (forall t, t < n -> f t = 0) -> sumn f n = 0.
Proof. induction n as [|n IH]; intros H; cbn [sumn]; [auto|]. rewrite IH, H by (intros; try apply H; lia). reflexivity. Qed.
Lemma sumn_pos : forall f n, 0 < sumn f n -> exists t, t < n /\ 0 < f t.
Proof. induction n as [|n IH]; intros H; cbn [sumn] in H; [lia|]. destruct (f n) as [|x] eqn:E; [|exists n; lia]. destruct IH as (t & Ht & Hf); [lia|]. exists t. lia. Qed.

Lemma upd_same : forall A (f : nat -> A) i v, upd f i v i = v.
Proof. intros. unfold upd. now rewrite Nat.eqb_refl. Qed.
Lemma upd_other : forall A (f : nat -> A) i v k, k <> i -> upd f i v k = f k.
Proof. intros. unfold upd. replace (k =? i) with false by lia. reflexivity. Qed.
Ltac ucase k i := destruct (Nat.eq_dec k i) as [->|]; [rewrite ?upd_same in *|rewrite ?upd_other in * by auto].

(** ** The core invariant *)
Definition rank (x : phase) : nat := match x with PNone => 0 | PBlocked => 1 | PQueued => 2 | PRet _ => 3 | PLock _ => 4 | PDrain _ => 5 | PDone => 6 end.
Lemma rank_0 x : rank x = 0 <-> x = PNone. Proof. destruct x; cbn; split; intros; try discriminate; auto. Qed.
Lemma rank_1 x : rank x = 1 <-> x = PBlocked. Proof. destruct x; cbn; split; intros; try discriminate; auto. Qed.
Lemma rank_2 x : rank x = 2 <-> x = PQueued. Proof. destruct x; cbn; split; intros; try discriminate; auto. Qed.
Lemma rank_6 x : rank x = 6 <-> x = PDone. Proof. destruct x; cbn; split; intros; try discriminate; auto. Qed.
Lemma locked_rank s d : locked s d = (5 <=? rank (ph s d)).
Proof. unfold locked. destruct (ph s d); reflexivity. Qed.

Definition own (f : front) (k : nat) : nat := match f with FLink m _ => if m =? k then 1 else 0 | _ => 0 end.
Definition occ (n : nat) (dl : nat -> list nat) (k : nat) : nat := sumn (fun t => count_occ Nat.eq_dec (dl t) k) n.
Definition cexec (k : nat) (c : list msg) : nat := length (filter (fun m => match m with MExec j => j =? k | _ => false end) c).
Definition cret (c : list msg) : nat := length (filter (fun m => match m with MRetire _ => true | _ => false end) c).
Definition is_dep (es : list entry) (k t : nat) : Prop := exists e, nth_error es k = Some e /\ In t (e_deps e).

Record core (f : front) (es : list entry) (ph : nat -> phase) (nd : nat -> nat) (dl : nat -> list nat) (c : list msg) : Prop := {
  c_rank : forall k, 1 <= rank (ph k) <-> k < length es;
  c_dep : forall k t, is_dep es k t -> t < k;
  c_empty : forall t, length es <= t -> dl t = [] /\ nd t = 0;
  c_list : forall t k, In k (dl t) -> rank (ph k) = 1 /\ is_dep es k t /\ rank (ph t) <= 5;
  c_link : forall k t, is_dep es k t -> 5 <= rank (ph t) \/ In k (dl t) \/ exists ds, f = FLink k ds /\ In t ds;
  c_front : match f with FLink m ds => S m = length es /\ (forall t, In t ds -> is_dep es m t) | FPump (Some m) | FBusy (Some m) _ => S m = length es | _ => True end;
  c_busy : forall o j, f = FBusy o j -> 3 <= rank (ph j);
  c_nd : forall k, nd k = own f k + occ (length es) dl k;
  c_blocked : forall k, rank (ph k) = 1 <-> 1 <= nd k;
  c_queue : forall k, cexec k c = if rank (ph k) =? 2 then 1 else 0
}.

Lemma is_dep_lt es k t : is_dep es k t -> k < length es.
Proof. intros (e & H & _). apply nth_error_Some. congruence. Qed.
Lemma occ_in n dl k t : t < n -> In k (dl t) -> 1 <= occ n dl k.
Proof. intros H I. unfold occ. pose proof (sumn_ge (fun t => count_occ Nat.eq_dec (dl t) k) n t H) as G. cbn beta in G. apply (count_occ_In Nat.eq_dec) in I. lia. Qed.
Lemma occ_upd n dl t l k : t < n -> occ n (upd dl t l) k + count_occ Nat.eq_dec (dl t) k = occ n dl k + count_occ Nat.eq_dec l k.
Proof.
  intros H. unfold occ. pose proof (sumn_upd (fun x => count_occ Nat.eq_dec (dl x) k) (fun x => count_occ Nat.eq_dec (upd dl t l x) k) t n H) as G.
  cbn beta in G. rewrite upd_same in G. apply G. intros x Hx. now rewrite upd_other.
Qed.
Lemma cexec_app k a b : cexec k (a ++ b) = cexec k a + cexec k b.
Proof. unfold cexec. now rewrite filter_app, app_length. Qed.
Lemma cexec_one k m : cexec k [m] = match m with MExec j => if j =? k then 1 else 0 | _ => 0 end.
Proof. unfold cexec. cbn. destruct m as [j|]; [destruct (j =? k)|]; reflexivity. Qed.
Lemma cexec_cons k m c : cexec k (m :: c) = (match m with MExec j => if j =? k then 1 else 0 | _ => 0 end) + cexec k c.
Proof. change (m :: c) with ([m] ++ c). now rewrite cexec_app, cexec_one. Qed.

(** Nothing but the front end moves, and it is neither linking nor starts to. *)
Lemma core_front f f' es ph nd dl c : core f es ph nd dl c -> (forall k, own f k = own f' k) -> (forall m ds, f <> FLink m ds) ->
  (match f' with FLink _ _ => False | FPump (Some m) | FBusy (Some m) _ => S m = length es | _ => True end) -> (forall o j, f' = FBusy o j -> 3 <= rank (ph j)) ->
  core f' es ph nd dl c.
Proof.
  intros H Ho Hf Hf' Hb. split; try apply H.
  - intros k t Hd. destruct (c_link _ _ _ _ _ _ H k t Hd) as [|[|(ds & E & _)]]; auto. exfalso. eapply Hf. eauto.
  - destruct f'; auto; contradiction.
  - exact Hb.
  - intros k. rewrite <- Ho. apply H.
Qed.
Lemma own_nolink f k : (forall m ds, f <> FLink m ds) -> own f k = 0.
Proof. intros H. destruct f; cbn; auto. exfalso. eapply H. eauto. Qed.
Lemma core_front' f f' es ph nd dl c : core f es ph nd dl c -> (forall m ds, f <> FLink m ds) -> (forall m ds, f' <> FLink m ds) ->
  (match f' with FPump (Some m) | FBusy (Some m) _ => S m = length es | _ => True end) -> (forall o j, f' = FBusy o j -> 3 <= rank (ph j)) ->
  core f' es ph nd dl c.
Proof.
  intros H H1 H2 H3 H4. eapply core_front; eauto.
  - intros k. now rewrite !own_nolink.
  - destruct f'; auto. eapply H2. eauto.
Qed.

Lemma nth_snoc {A} (l : list A) x k y : nth_error (l ++ [x]) k = Some y -> nth_error l k = Some y \/ k = length l /\ y = x.
Proof.
  intros H. destruct (Nat.ltb_spec k (length l)) as [L|L]; [rewrite nth_error_app1 in H by auto; auto|]. rewrite nth_error_app2 in H by auto.
  destruct (k - length l) as [|m] eqn:E; cbn in H; [right; split; [lia|congruence]|]. destruct m; discriminate.
Qed.
Lemma nth_last {A} (l : list A) x : nth_error (l ++ [x]) (length l) = Some x.
Proof. rewrite nth_error_app2 by auto. now rewrite Nat.sub_diag. Qed.
Lemma is_dep_snoc es e k t : is_dep (es ++ [e]) k t -> is_dep es k t \/ k = length es /\ In t (e_deps e).
Proof. intros (x & H & I). apply nth_snoc in H as [H|[-> ->]]; [left; exists x; auto|auto]. Qed.
Lemma is_dep_app es e k t : is_dep es k t -> is_dep (es ++ [e]) k t.
Proof. intros (x & H & I). exists x. split; [|auto]. rewrite nth_error_app1; [auto|]. apply nth_error_Some. congruence. Qed.
Lemma is_dep_last es e t : is_dep (es ++ [e]) (length es) t <-> In t (e_deps e).
Proof. split; [|intros H; exists e; split; [apply nth_last|auto]]. intros (x & H & I). rewrite nth_last in H. congruence. Qed.

Lemma core_dispatch f es ph nd dl c e : core f es ph nd dl c -> (forall m ds, f <> FLink m ds) -> (forall d, In d (e_deps e) -> d < length es) ->
  let n := length es in core (FLink n (e_deps e)) (es ++ [e]) (upd ph n PBlocked) (upd nd n 1) dl c.
Proof.
  intros H Hf Hd n. pose proof (c_rank _ _ _ _ _ _ H) as HR.
  assert (Rn : rank (ph n) = 0) by (specialize (HR n); unfold n in *; lia).
  assert (Nin : forall t, ~ In n (dl t)). { intros t I. apply (c_list _ _ _ _ _ _ H) in I as (I & _). lia. }
  destruct (c_empty _ _ _ _ _ _ H n ltac:(lia)) as [En Dn].
  assert (On : forall k, occ (length (es ++ [e])) dl k = occ n dl k).
  { intros k. rewrite app_length. cbn [length]. rewrite Nat.add_1_r. unfold occ. cbn [sumn]. fold n. rewrite En. cbn. lia. }
  split.
  - intros k. rewrite app_length. cbn [length]. ucase k n; [cbn; unfold n; lia|]. rewrite HR. unfold n in *. lia.
  - intros k t I. apply is_dep_snoc in I as [I|[-> I]]; [now apply (c_dep _ _ _ _ _ _ H)|now apply Hd].
  - intros t. rewrite app_length. cbn [length]. intros L. rewrite upd_other by (unfold n; lia). apply (c_empty _ _ _ _ _ _ H). lia.
  - intros t k I. destruct (c_list _ _ _ _ _ _ H t k I) as (A & B & C). assert (k <> n) by (intros ->; eapply Nin; eauto). rewrite upd_other by auto.
    split; [auto|]. split; [now apply is_dep_app|]. ucase t n; [cbn; lia|auto].
  - intros k t I. apply is_dep_snoc in I as [I|[-> I]].
    + assert (t <> n) by (pose proof (c_dep _ _ _ _ _ _ H k t I); pose proof (is_dep_lt _ _ _ I); unfold n; lia). rewrite upd_other by auto.
      destruct (c_link _ _ _ _ _ _ H k t I) as [|[|(ds & E & _)]]; auto. exfalso. eapply Hf; eauto.
    + right. right. exists (e_deps e). auto.
  - split; [rewrite app_length; cbn; unfold n; lia|]. intros t I. unfold n. now apply is_dep_last.
  - intros o j E. discriminate.
  - intros k. rewrite On. cbn [own]. ucase k n.
    + rewrite Nat.eqb_refl. assert (occ n dl n = 0); [|lia]. apply sumn_zero. intros t _. apply count_occ_not_In. apply Nin.
    + replace (n =? k) with false by lia. cbn. rewrite (c_nd _ _ _ _ _ _ H), own_nolink by auto. reflexivity.
  - intros k. ucase k n; [cbn; lia|]. apply H.
  - intros k. rewrite (c_queue _ _ _ _ _ _ H). ucase k n; [|auto]. rewrite Rn. reflexivity.
Qed.

Lemma core_push n d ds es ph nd dl c : core (FLink n (d :: ds)) es ph nd dl c -> rank (ph d) < 5 ->
  d <> n /\ core (FLink n ds) es ph (upd nd n (nd n + 1)) (upd dl d (n :: dl d)) c.
Proof.
  intros H Hr. destruct (c_front _ _ _ _ _ _ H) as [Hn Hds]. assert (Dd : is_dep es n d) by (apply Hds; left; auto). pose proof (c_dep _ _ _ _ _ _ H n d Dd) as Ld.
  assert (Bn : rank (ph n) = 1). { apply (c_blocked _ _ _ _ _ _ H). rewrite (c_nd _ _ _ _ _ _ H). cbn. rewrite Nat.eqb_refl. lia. }
  split; [lia|]. split; try apply H.
  - intros t L. destruct (c_empty _ _ _ _ _ _ H t L). rewrite !upd_other by lia. auto.
  - intros t k I. ucase t d; [destruct I as [<-|I]|]; try solve [apply (c_list _ _ _ _ _ _ H); auto]. split; [auto|]. split; [auto|lia].
  - intros k t I. destruct (c_link _ _ _ _ _ _ H k t I) as [A|[A|(ds' & E & A)]]; [auto| |].
    + right. left. ucase t d; [now right|auto].
    + injection E as <- <-. destruct A as [->|A]; [right; left; rewrite upd_same; now left|]. right. right. exists ds. auto.
  - split; [auto|]. intros t I. apply Hds. now right.
  - intros o j E. discriminate.
  - intros k. pose proof (occ_upd (length es) dl d (n :: dl d) k ltac:(lia)) as O. pose proof (c_nd _ _ _ _ _ _ H k) as N. cbn [own] in *. cbn [count_occ] in O.
    ucase k n; [rewrite Nat.eqb_refl in *|replace (n =? k) with false in * by lia]; destruct (Nat.eq_dec n _); try lia.
  - intros k. ucase k n; [rewrite Bn; lia|apply H].
Qed.
Lemma core_skip n d ds es ph nd dl c : core (FLink n (d :: ds)) es ph nd dl c -> 5 <= rank (ph d) -> core (FLink n ds) es ph nd dl c.
Proof.
  intros H Hr. destruct (c_front _ _ _ _ _ _ H) as [Hn Hds]. split; try apply H.
  - intros k t I. destruct (c_link _ _ _ _ _ _ H k t I) as [A|[A|(ds' & E & A)]]; [auto|auto|]. injection E as <- <-. destruct A as [->|A]; [auto|]. right. right. exists ds. auto.
  - split; [auto|]. intros t I. apply Hds. now right.
  - intros o j E. discriminate.
Qed.
(** The counter of instruction n drops by one. *)
Lemma release_own n es ph nd dl c : core (FLink n []) es ph nd dl c ->
  core (FPump (Some n)) es (if nd n =? 1 then upd ph n PQueued else ph) (upd nd n (nd n - 1)) dl (if nd n =? 1 then c ++ [MExec n] else c).
Proof.
  intros H. destruct (c_front _ _ _ _ _ _ H) as [Hn _]. pose proof (c_nd _ _ _ _ _ _ H n) as Nn. cbn [own] in Nn. rewrite Nat.eqb_refl in Nn.
  assert (Bn : rank (ph n) = 1) by (apply (c_blocked _ _ _ _ _ _ H); lia).
  assert (RB : forall k, rank ((if nd n =? 1 then upd ph n PQueued else ph) k) = if (nd n =? 1) && (k =? n) then 2 else rank (ph k)).
  { intros k. destruct (nd n =? 1) eqn:E; cbn [andb]; [|auto]. destruct (k =? n) eqn:E'; [assert (k = n) by lia; subst; now rewrite upd_same|rewrite upd_other by lia; auto]. }
  split; try apply H.
  - intros k. rewrite RB. pose proof (c_rank _ _ _ _ _ _ H k). destruct ((nd n =? 1) && (k =? n)) eqn:E; lia.
  - intros t L. destruct (c_empty _ _ _ _ _ _ H t L). rewrite upd_other by lia. auto.
  - intros t k I. destruct (c_list _ _ _ _ _ _ H t k I) as (A & B & C). rewrite !RB.
    assert (k = n -> (nd n =? 1) = false). { intros ->. pose proof (occ_in (length es) dl n t). assert (t < length es) by (pose proof (c_dep _ _ _ _ _ _ H n t B); lia). lia. }
    destruct ((nd n =? 1) && (k =? n)) eqn:E; [exfalso; lia|]. split; [auto|]. split; [auto|]. destruct ((nd n =? 1) && (t =? n)); [lia|exact C].
  - intros k t I. rewrite RB. destruct (c_link _ _ _ _ _ _ H k t I) as [A|[A|(ds' & E & A)]]; [|auto|injection E as <- <-; destruct A].
    left. destruct ((nd n =? 1) && (t =? n)) eqn:E; [|auto]. assert (t = n) by lia. subst. lia.
  - intros o j E. discriminate.
  - intros k. cbn [own]. pose proof (c_nd _ _ _ _ _ _ H k) as N. cbn [own] in N. ucase k n; [lia|]. replace (n =? k) with false in N by lia. auto.
  - intros k. rewrite RB. ucase k n; [|replace (k =? n) with false by lia; rewrite andb_false_r; apply H]. rewrite Nat.eqb_refl, andb_true_r, Bn. destruct (nd n =? 1) eqn:E; lia.
  - intros k. rewrite RB. pose proof (c_queue _ _ _ _ _ _ H k) as Q. destruct (nd n =? 1) eqn:E; cbn [andb]; [|auto]. rewrite cexec_app, cexec_one, Q.
    destruct (k =? n) eqn:E'; [assert (k = n) by lia; subst; rewrite Bn; cbn; rewrite Nat.eqb_refl; auto|]. replace (n =? k) with false by lia. lia.
Qed.
Lemma release_pop f j d rest es ph nd dl c : core f es ph nd dl c -> rank (ph j) = 5 -> dl j = d :: rest ->
  core f es (if nd d =? 1 then upd ph d PQueued else ph) (upd nd d (nd d - 1)) (upd dl j rest) (if nd d =? 1 then c ++ [MExec d] else c).
Proof.
  intros H Hj Hl. assert (Ij : In d (dl j)) by (rewrite Hl; left; auto). destruct (c_list _ _ _ _ _ _ H j d Ij) as (Bd & Dd & _).
  pose proof (c_dep _ _ _ _ _ _ H d j Dd) as Ljd. pose proof (is_dep_lt _ _ _ Dd) as Ld.
  pose proof (fun k => occ_upd (length es) dl j rest k ltac:(lia)) as O.
  assert (Od : 1 + occ (length es) (upd dl j rest) d = occ (length es) dl d). { specialize (O d). rewrite Hl in O. cbn [count_occ] in O. destruct (Nat.eq_dec d d); [lia|congruence]. }
  pose proof (c_nd _ _ _ _ _ _ H d) as Nd.
  assert (RB : forall k, rank ((if nd d =? 1 then upd ph d PQueued else ph) k) = if (nd d =? 1) && (k =? d) then 2 else rank (ph k)).
  { intros k. destruct (nd d =? 1) eqn:E; cbn [andb]; [|auto]. destruct (k =? d) eqn:E'; [assert (k = d) by lia; subst; now rewrite upd_same|rewrite upd_other by lia; auto]. }
  assert (IL : forall t k, In k (upd dl j rest t) -> In k (dl t)). { intros t k I. ucase t j; [rewrite Hl; now right|auto]. }
  split; try apply H.
  - intros k. rewrite RB. pose proof (c_rank _ _ _ _ _ _ H k). destruct ((nd d =? 1) && (k =? d)) eqn:E; lia.
  - intros t L. destruct (c_empty _ _ _ _ _ _ H t L). rewrite !upd_other by lia. auto.
  - intros t k I. destruct (c_list _ _ _ _ _ _ H t k (IL _ _ I)) as (A & B & C). rewrite !RB.
    assert (k = d -> (nd d =? 1) = false). { intros ->. assert (t < length es) by (pose proof (c_dep _ _ _ _ _ _ H d t B); lia). pose proof (occ_in (length es) (upd dl j rest) d t ltac:(auto) I). lia. }
    destruct ((nd d =? 1) && (k =? d)) eqn:E; [exfalso; lia|]. split; [auto|]. split; [auto|]. destruct ((nd d =? 1) && (t =? d)); [lia|exact C].
  - intros k t I. rewrite RB. destruct (c_link _ _ _ _ _ _ H k t I) as [A|[A|A]]; [| |auto].
    + left. destruct ((nd d =? 1) && (t =? d)) eqn:E; [|auto]. assert (t = d) by lia. subst. lia.
    + ucase t j; [left|auto]. destruct ((nd d =? 1) && (j =? d)) eqn:E; [|lia]. lia.
  - intros o k E. pose proof (c_busy _ _ _ _ _ _ H o k E). rewrite RB. destruct ((nd d =? 1) && (k =? d)) eqn:E'; [|auto]. assert (k = d) by lia. subst. lia.
  - intros k. pose proof (c_nd _ _ _ _ _ _ H k) as N. ucase k d; [lia|]. rewrite N. specialize (O k). rewrite Hl in O. cbn [count_occ] in O. destruct (Nat.eq_dec d k); [congruence|lia].
  - intros k. rewrite RB. ucase k d; [|replace (k =? d) with false by lia; rewrite andb_false_r; apply H]. rewrite Nat.eqb_refl, andb_true_r, Bd. destruct (nd d =? 1) eqn:E; lia.
  - intros k. rewrite RB. pose proof (c_queue _ _ _ _ _ _ H k) as Q. destruct (nd d =? 1) eqn:E; cbn [andb]; [|auto]. rewrite cexec_app, cexec_one, Q.
    destruct (k =? d) eqn:E'; [assert (k = d) by lia; subst; rewrite Bd; cbn; rewrite Nat.eqb_refl; auto|]. replace (d =? k) with false by lia. lia.
Qed.
(** A phase moves forward after execution. *)
Lemma core_phase f es ph nd dl c j x : core f es ph nd dl c -> 3 <= rank (ph j) -> 3 <= rank x -> rank (ph j) <= rank x -> (rank x = 6 -> dl j = []) ->
  core f es (upd ph j x) nd dl c.
Proof.
  intros H Hj Hx Hle He. assert (Lj : j < length es) by (apply (c_rank _ _ _ _ _ _ H); lia). split; try apply H.
  - intros k. ucase k j; [lia|apply H].
  - intros t k I. destruct (c_list _ _ _ _ _ _ H t k I) as (A & B & C). split; [ucase k j; [lia|auto]|]. split; [auto|]. ucase t j; [|auto].
    destruct (Nat.eq_dec (rank x) 6) as [E|E]; [rewrite (He E) in I; destruct I|]. destruct x; cbn in *; lia.
  - intros k t I. destruct (c_link _ _ _ _ _ _ H k t I) as [A|[A|A]]; auto. left. ucase t j; lia.
  - intros o k E. pose proof (c_busy _ _ _ _ _ _ H o k E). ucase k j; auto.
  - intros k. ucase k j; [|apply H]. pose proof (c_blocked _ _ _ _ _ _ H j). lia.
  - intros k. rewrite (c_queue _ _ _ _ _ _ H). ucase k j; [|auto]. replace (rank (ph j) =? 2) with false by lia. replace (rank x =? 2) with false by lia. auto.
Qed.
(** An instruction is taken from the channel and executed. *)
Lemma core_exec o es ph nd dl c j x : core (FPump o) es ph nd dl (MExec j :: c) -> rank x = 3 -> core (FPump o) es (upd ph j x) nd dl c /\ rank (ph j) = 2.
Proof.
  intros H Hx. pose proof (c_queue _ _ _ _ _ _ H j) as Q. rewrite cexec_cons, Nat.eqb_refl in Q. assert (Qj : rank (ph j) = 2) by (destruct (rank (ph j) =? 2) eqn:E; lia).
  split; [|auto]. assert (Lj : j < length es) by (apply (c_rank _ _ _ _ _ _ H); lia). split; try apply H.
  - intros k. ucase k j; [lia|apply H].
  - intros t k I. destruct (c_list _ _ _ _ _ _ H t k I) as (A & B & C). split; [ucase k j; [lia|auto]|]. split; [auto|]. ucase t j; [lia|auto].
  - intros k t I. destruct (c_link _ _ _ _ _ _ H k t I) as [A|[A|A]]; auto. left. ucase t j; [lia|auto].
  - intros o' k E. discriminate.
  - intros k. ucase k j; [|apply H]. pose proof (c_blocked _ _ _ _ _ _ H j). lia.
  - intros k. pose proof (c_queue _ _ _ _ _ _ H k) as Qk. rewrite cexec_cons in Qk. ucase k j; [rewrite Nat.eqb_refl, Qj in Qk; cbn in Qk; rewrite Hx; cbn; lia|]. replace (j =? k) with false in Qk by lia. cbn in Qk. auto.
Qed.
Lemma core_chan f es ph nd dl c c' : core f es ph nd dl c -> (forall k, cexec k c' = cexec k c) -> core f es ph nd dl c'.
Proof. intros H E. split; try apply H. intros k. rewrite E. apply H. Qed.
(** A queued instruction has no unfinished dependency. *)
Lemma core_ready f es ph nd dl c j t : core f es ph nd dl c -> 2 <= rank (ph j) -> is_dep es j t -> 5 <= rank (ph t).
Proof.
  intros H Hj Hd. assert (N : nd j = 0) by (pose proof (c_blocked _ _ _ _ _ _ H j); lia). pose proof (c_nd _ _ _ _ _ _ H j) as Nj.
  destruct (c_link _ _ _ _ _ _ H j t Hd) as [A|[A|(ds & E & A)]]; auto.
  - pose proof (is_dep_lt _ _ _ Hd). pose proof (c_dep _ _ _ _ _ _ H j t Hd). pose proof (occ_in (length es) dl j t ltac:(lia) A). lia.
  - rewrite E in Nj. cbn in Nj. rewrite Nat.eqb_refl in Nj. lia.
Qed.
