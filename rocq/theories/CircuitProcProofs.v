(** Proofs: scheduling invariants of the circuit processor. *)
From Coq Require Import ZifyBool ZifyNat.
From Verif Require Import Base Graph MuxGraph FheGraph CircuitProc SpecFhe SpecProc.
Open Scope nat_scope.

(** ** Sums over tasks *)
Fixpoint sumn (f : nat -> nat) (n : nat) : nat := match n with O => 0 | S n => sumn f n + f n end.
Lemma sumn_ext : forall f g n, (forall t, t < n -> f t = g t) -> sumn f n = sumn g n.
Proof. induction n as [|n IH]; intros H; cbn [sumn]; [auto|]. rewrite IH by (intros; apply H; lia). rewrite (H n) by lia. reflexivity. Qed.
Lemma sumn_upd : forall f f' k n, k < n -> (forall t, t <> k -> f' t = f t) -> sumn f' n + f k = sumn f n + f' k.
Proof.
  intros f f' k n. induction n as [|n IH]; intros H E; [lia|]. cbn [sumn]. destruct (Nat.eq_dec k n) as [->|Hn].
  - rewrite (sumn_ext f' f n) by (intros; apply E; lia). lia.
  - rewrite (E n) by lia. specialize (IH ltac:(lia) E). lia.
Qed.
Lemma sumn_ge : forall f n t, t < n -> f t <= sumn f n.
Proof. induction n as [|n IH]; intros t H; [lia|]. cbn [sumn]. destruct (Nat.eq_dec t n) as [->|]; [lia|]. specialize (IH t ltac:(lia)). lia. Qed.
Lemma sumn_zero : forall f n, (forall t, t < n -> f t = 0) -> sumn f n = 0.
Proof. induction n as [|n IH]; intros H; cbn [sumn]; [auto|]. rewrite IH, H by (intros; try apply H; lia). reflexivity. Qed.
Lemma sumn_pos : forall f n, 0 < sumn f n -> exists t, t < n /\ 0 < f t.
Proof. induction n as [|n IH]; intros H; cbn [sumn] in H; [lia|]. destruct (f n) as [|x] eqn:E; [|exists n; lia]. destruct IH as (t & Ht & Hf); [lia|]. exists t. lia. Qed.
Lemma sumn_two : forall f n a b, a < n -> b < n -> a <> b -> f a + f b <= sumn f n.
Proof.
  induction n as [|n IH]; intros a b Ha Hb N; [lia|]. cbn [sumn]. destruct (Nat.eq_dec a n) as [->|]; destruct (Nat.eq_dec b n) as [->|]; try lia.
  - pose proof (sumn_ge f n b ltac:(lia)). lia.
  - pose proof (sumn_ge f n a ltac:(lia)). lia.
  - specialize (IH a b ltac:(lia) ltac:(lia) N). lia.
Qed.

Lemma upd_same : forall A (f : nat -> A) i v, upd f i v i = v.
Proof. intros. unfold upd. now rewrite Nat.eqb_refl. Qed.
Lemma upd_other : forall A (f : nat -> A) i v k, k <> i -> upd f i v k = f k.
Proof. intros. unfold upd. replace (k =? i) with false by lia. reflexivity. Qed.
Ltac ucase k i := destruct (Nat.eq_dec k i) as [->|]; [rewrite ?upd_same in *|rewrite ?upd_other in * by auto].

Section Core.
Context (plan : list item) (PO : plan_ok plan).
Notation len := (length plan).

Definition is_task (i : nat) : Prop := exists h op deps, nth_error plan i = Some (ITask h op deps).
Definition is_dep (i t : nat) : Prop := exists h op deps l, nth_error plan i = Some (ITask h op deps) /\ In (t, l) deps.
Definition pos (d : dpc) : nat :=
  match d with DNext i | DCount i => i | DTry i _ | DAdd i _ | DPush i _ | DUnlock i _ | DSub i => S i end.
Definition own (d : dpc) (k : nat) : nat :=
  match d with DTry i _ | DAdd i _ | DPush i _ | DUnlock i _ | DSub i => if i =? k then 1 else 0 | _ => 0 end.
Definition pend (d : dpc) (k : nat) : nat := match d with DPush i _ => if i =? k then 1 else 0 | _ => 0 end.
Definition dep_at (i j : nat) : option nat :=
  match nth_error plan i with Some (ITask _ _ deps) => option_map fst (nth_error deps j) | _ => None end.
Definition hold (d : dpc) : option nat := match d with DAdd i j | DPush i j | DUnlock i j => dep_at i j | _ => None end.
Definition past (d : dpc) (i j : nat) : Prop :=
  match d with
  | DTry k m | DAdd k m | DPush k m => k = i -> j < m
  | DUnlock k m => k = i -> j <= m
  | _ => True
  end.
Definition dpc_ok (d : dpc) : Prop :=
  match d with
  | DNext i => i <= len
  | DCount i | DTry i _ | DSub i => is_task i
  | DAdd i j | DPush i j | DUnlock i j => exists t, dep_at i j = Some t
  end.
Definition occ (dl : nat -> list nat) (i : nat) : nat := sumn (fun t => count_occ Nat.eq_dec (dl t) i) len.

Record core (d : dpc) (ph : nat -> phase) (nd : nat -> nat) (lk : nat -> bool) (dl : nat -> list nat) : Prop := {
  c_dpc : dpc_ok d;
  c_created : forall i, 1 <= prank (ph i) <-> i < pos d /\ is_task i;
  c_lock : forall t, lk t = true <-> 5 <= prank (ph t) \/ hold d = Some t;
  c_hold : forall t, hold d = Some t -> prank (ph t) < 5;
  c_empty : forall t, prank (ph t) = 0 \/ 6 <= prank (ph t) -> dl t = [];
  c_list : forall t i, In i (dl t) -> prank (ph i) = 1 /\ is_dep i t;
  c_nd : forall i, 1 <= prank (ph i) -> nd i = own d i + pend d i + occ dl i;
  c_blocked : forall i, 1 <= prank (ph i) -> (prank (ph i) = 1 <-> 0 < nd i);
  c_past : forall i h op deps j t l, 1 <= prank (ph i) -> nth_error plan i = Some (ITask h op deps) -> nth_error deps j = Some (t, l) -> past d i j ->
    5 <= prank (ph t) \/ In i (dl t)
}.

Lemma task_lt : forall i, is_task i -> i < len.
Proof. intros i (h & op & deps & H). apply nth_error_Some. congruence. Qed.
Lemma dep_at_dep : forall i j t, dep_at i j = Some t -> is_dep i t /\ is_task i.
Proof.
  intros i j t H. unfold dep_at in H. destruct (nth_error plan i) as [[h op deps|]|] eqn:E; try discriminate. destruct (nth_error deps j) as [[t' l]|] eqn:Ej; [|discriminate].
  cbn in H. injection H as <-. split; [exists h, op, deps, l; split; auto; eapply nth_error_In; eauto|exists h, op, deps; auto].
Qed.
Lemma dep_lt : forall i t, is_dep i t -> t < i /\ is_task t.
Proof. intros i t (h & op & deps & l & H & Hi). destruct (po_deps plan PO _ _ _ _ _ _ H Hi) as (A & op' & deps' & B & _). split; auto. exists h, op', deps'. auto. Qed.
Lemma dl_lt : forall d ph nd lk dl t i, core d ph nd lk dl -> In i (dl t) -> t < len.
Proof.
  intros d ph nd lk dl t i C H. destruct (prank (ph t)) eqn:E.
  - rewrite (c_empty _ _ _ _ _ C t) in H by auto. destruct H.
  - apply task_lt. apply (c_created _ _ _ _ _ C). lia.
Qed.
Lemma occ_zero : forall d ph nd lk dl i, core d ph nd lk dl -> (forall t, ~ In i (dl t)) -> occ dl i = 0.
Proof. intros d ph nd lk dl i C H. apply sumn_zero. intros t _. apply count_occ_not_In. apply H. Qed.
Lemma occ_In : forall d ph nd lk dl i t, core d ph nd lk dl -> In i (dl t) -> 1 <= occ dl i.
Proof.
  intros d ph nd lk dl i t C H. pose proof (sumn_ge (fun t => count_occ Nat.eq_dec (dl t) i) len t (dl_lt _ _ _ _ _ _ _ C H)) as G. cbv beta in G.
  apply (count_occ_In Nat.eq_dec) in H. unfold occ. lia.
Qed.
Lemma core_own : forall d ph nd lk dl i, core d ph nd lk dl -> own d i = 1 -> prank (ph i) = 1.
Proof.
  intros d ph nd lk dl i C H. assert (P : 1 <= prank (ph i)).
  { apply (c_created _ _ _ _ _ C). pose proof (c_dpc _ _ _ _ _ C) as D.
    destruct d; cbn [own] in H; try discriminate; (destruct (i0 =? i) eqn:E; [|discriminate]); assert (i0 = i) by lia; subst i0; cbn [pos dpc_ok] in *;
      (split; [lia|]); auto; destruct D as [t D]; apply dep_at_dep in D; apply D. }
  apply (c_blocked _ _ _ _ _ C i P). rewrite (c_nd _ _ _ _ _ C i P). lia.
Qed.

(** A task that is past its dependencies moves on. *)
Lemma core_advance : forall d ph nd lk dl i p, core d ph nd lk dl -> 2 <= prank (ph i) -> prank (ph i) <= prank p ->
  (5 <= prank p -> 5 <= prank (ph i)) -> (6 <= prank p -> dl i = []) -> core d (upd ph i p) nd lk dl.
Proof.
  intros d ph nd lk dl i p C H1 H2 H3 H4. constructor.
  - apply (c_dpc _ _ _ _ _ C).
  - intros k. rewrite <- (c_created _ _ _ _ _ C). ucase k i; lia.
  - intros t. rewrite (c_lock _ _ _ _ _ C). ucase t i; [|tauto]. split; (intros [H|H]; [left; auto; lia|auto]).
  - intros t H. apply (c_hold _ _ _ _ _ C) in H as H'. ucase t i; [|auto]. destruct (le_lt_dec 5 (prank p)); auto. specialize (H3 ltac:(lia)). lia.
  - intros t H. ucase t i; [|now apply (c_empty _ _ _ _ _ C)]. destruct H; [lia|auto].
  - intros t k H. destruct (c_list _ _ _ _ _ C _ _ H) as [A B]. split; auto. ucase k i; [lia|auto].
  - intros k H. apply (c_nd _ _ _ _ _ C). ucase k i; [lia|auto].
  - intros k H. rewrite <- (c_blocked _ _ _ _ _ C k) by (ucase k i; [lia|auto]). ucase k i; [lia|tauto].
  - intros k h op deps j t l Hk Hi Hj Hp. assert (1 <= prank (ph k)) by (ucase k i; [lia|auto]). destruct (c_past _ _ _ _ _ C k h op deps j t l) as [A|A]; auto.
    left. ucase t i; [lia|auto].
Qed.
(** Only the dispatcher's position changes. *)
Lemma core_dpc : forall d d' ph nd lk dl, core d ph nd lk dl -> dpc_ok d' -> (forall i, is_task i -> (i < pos d' <-> i < pos d)) -> hold d' = hold d ->
  (forall k, own d' k = own d k) -> (forall k, pend d' k = pend d k) ->
  (forall i h op deps j t l, 1 <= prank (ph i) -> nth_error plan i = Some (ITask h op deps) -> nth_error deps j = Some (t, l) -> past d' i j -> past d i j \/ 5 <= prank (ph t) \/ In i (dl t)) ->
  core d' ph nd lk dl.
Proof.
  intros d d' ph nd lk dl C H1 H2 H3 H4 H5 H6. constructor; auto.
  - intros i. rewrite (c_created _ _ _ _ _ C). split; intros [A B]; split; auto; now apply H2.
  - intros t. rewrite H3. apply (c_lock _ _ _ _ _ C).
  - intros t. rewrite H3. apply (c_hold _ _ _ _ _ C).
  - apply (c_empty _ _ _ _ _ C).
  - apply (c_list _ _ _ _ _ C).
  - intros i H. rewrite H4, H5. now apply (c_nd _ _ _ _ _ C).
  - apply (c_blocked _ _ _ _ _ C).
  - intros i h op deps j t l A B Cc D. destruct (H6 _ _ _ _ _ _ _ A B Cc D) as [E|E]; auto. eapply (c_past _ _ _ _ _ C); eauto.
Qed.

Lemma dep_at_eq : forall i j h op deps d l, nth_error plan i = Some (ITask h op deps) -> nth_error deps j = Some (d, l) -> dep_at i j = Some d.
Proof. intros. unfold dep_at. now rewrite H, H0. Qed.

Lemma core_init : core (DNext 0) (fun _ => PNone) (fun _ => 0) (fun _ => false) (fun _ => []).
Proof.
  constructor; cbn; try tauto; try (intros; lia); try (intros; split; intros; lia); try discriminate.
  all: intros t; split; [discriminate|]; intros [H|H]; [lia|discriminate].
Qed.

Lemma core_count : forall ph nd lk dl i h op deps, core (DCount i) ph nd lk dl -> nth_error plan i = Some (ITask h op deps) ->
  core (DTry i 0) (upd ph i PBlocked) (upd nd i 1) (upd lk i false) (upd dl i []).
Proof.
  intros ph nd lk dl i h op deps C Hi. assert (T : is_task i) by (exists h, op, deps; auto).
  assert (Z : prank (ph i) = 0). { destruct (prank (ph i)) eqn:E; auto. assert (1 <= prank (ph i)) by lia. apply (c_created _ _ _ _ _ C) in H. cbn [pos] in H. lia. }
  assert (De : dl i = []) by (apply (c_empty _ _ _ _ _ C); auto).
  assert (Dl : forall t, upd dl i [] t = dl t) by (intros t; ucase t i; auto).
  assert (No : forall t, ~ In i (dl t)) by (intros t H; apply (c_list _ _ _ _ _ C) in H; lia).
  assert (Oc : forall k, occ (upd dl i []) k = occ dl k) by (intros k; apply sumn_ext; intros t _; now rewrite Dl).
  constructor.
  - exact T.
  - intros k. cbn [pos]. ucase k i.
    + cbn. split; [intros; split; [lia|auto]|lia].
    + rewrite (c_created _ _ _ _ _ C). cbn [pos]. split; intros [A B]; split; auto; lia.
  - intros t. cbn [hold]. ucase t i.
    + cbn. split; [discriminate|]. intros [A|A]; [lia|discriminate].
    + rewrite (c_lock _ _ _ _ _ C). cbn [hold]. tauto.
  - cbn [hold]. discriminate.
  - intros t H. rewrite Dl. ucase t i; [auto|now apply (c_empty _ _ _ _ _ C)].
  - intros t k H. rewrite Dl in H. destruct (c_list _ _ _ _ _ C _ _ H) as [A B]. split; auto. ucase k i; [reflexivity|auto].
  - intros k H. rewrite Oc. cbn [own pend]. ucase k i.
    + rewrite Nat.eqb_refl, (occ_zero _ _ _ _ _ _ C No). reflexivity.
    + replace (i =? k) with false by lia. rewrite (c_nd _ _ _ _ _ C k H). reflexivity.
  - intros k H. ucase k i; [cbn; split; lia|now apply (c_blocked _ _ _ _ _ C)].
  - intros k h' op' deps' j t l Hk Hn Hj Hp. rewrite Dl. cbn [past] in Hp. ucase k i; [specialize (Hp eq_refl); lia|].
    destruct (c_past _ _ _ _ _ C k h' op' deps' j t l) as [A|A]; cbn; auto. left. ucase t i; [lia|auto].
Qed.

Lemma core_try_ok : forall ph nd lk dl i j d, core (DTry i j) ph nd lk dl -> dep_at i j = Some d -> lk d = false -> core (DAdd i j) ph nd (upd lk d true) dl.
Proof.
  intros ph nd lk dl i j d C Hd Hl.
  assert (NF : prank (ph d) < 5). { destruct (le_lt_dec 5 (prank (ph d))) as [H|]; auto. assert (lk d = true) by (apply (c_lock _ _ _ _ _ C); auto). congruence. }
  constructor; try (apply C).
  - cbn. eauto.
  - intros t. cbn [hold]. rewrite Hd. ucase t d; [split; auto|]. rewrite (c_lock _ _ _ _ _ C). cbn [hold]. split; [intros [A|A]; [auto|discriminate]|]. intros [A|A]; [auto|congruence].
  - intros t H. cbn [hold] in H. rewrite Hd in H. injection H as <-. auto.
Qed.
Lemma core_add : forall ph nd lk dl i j, core (DAdd i j) ph nd lk dl -> core (DPush i j) ph (upd nd i (nd i + 1)) lk dl.
Proof.
  intros ph nd lk dl i j C. assert (B := core_own _ _ _ _ _ i C ltac:(cbn; now rewrite Nat.eqb_refl)).
  constructor; try (apply C).
  - intros k H. pose proof (c_nd _ _ _ _ _ C k H) as N. cbn [own pend] in *. ucase k i; [rewrite Nat.eqb_refl in *; lia|]. replace (i =? k) with false in * by lia. lia.
  - intros k H. pose proof (c_blocked _ _ _ _ _ C k H) as N. ucase k i; [|auto]. split; [lia|]. intros _. exact B.
Qed.
Lemma core_push : forall ph nd lk dl i j d, core (DPush i j) ph nd lk dl -> dep_at i j = Some d -> core (DUnlock i j) ph nd lk (upd dl d (i :: dl d)).
Proof.
  intros ph nd lk dl i j d C Hd. assert (B := core_own _ _ _ _ _ i C ltac:(cbn; now rewrite Nat.eqb_refl)).
  destruct (dep_at_dep _ _ _ Hd) as [Dd Ti]. destruct (dep_lt _ _ Dd) as [Lt Td].
  assert (Cd : 1 <= prank (ph d)) by (apply (c_created _ _ _ _ _ C); cbn [pos]; split; [lia|auto]).
  assert (NF : prank (ph d) < 5) by (apply (c_hold _ _ _ _ _ C); exact Hd).
  assert (Oc : forall k, occ (upd dl d (i :: dl d)) k = occ dl k + (if i =? k then 1 else 0)).
  { intros k. pose proof (sumn_upd (fun t => count_occ Nat.eq_dec (dl t) k) (fun t => count_occ Nat.eq_dec (upd dl d (i :: dl d) t) k) d len (task_lt d Td)) as S.
    cbv beta in S. rewrite upd_same in S. specialize (S ltac:(intros t Ht; now rewrite upd_other)). unfold occ. cbn [count_occ] in S.
    destruct (Nat.eq_dec i k) as [->|]; [rewrite Nat.eqb_refl; lia|]. replace (i =? k) with false by lia. lia. }
  constructor; try (apply C).
  - intros t H. ucase t d; [lia|now apply (c_empty _ _ _ _ _ C)].
  - intros t k H. ucase t d; [|now apply (c_list _ _ _ _ _ C)]. destruct H as [<-|H]; [auto|now apply (c_list _ _ _ _ _ C)].
  - intros k H. pose proof (c_nd _ _ _ _ _ C k H) as N. rewrite Oc. cbn [own pend] in *. destruct (i =? k); lia.
  - intros k h op deps m t l Hk Hn Hj Hp. cbn [past] in Hp. destruct (Nat.eq_dec k i) as [->|Nk].
    + specialize (Hp eq_refl). destruct (Nat.eq_dec m j) as [->|].
      * right. assert (t = d) by (pose proof (dep_at_eq _ _ _ _ _ _ _ Hn Hj); congruence). subst t. rewrite upd_same. now left.
      * destruct (c_past _ _ _ _ _ C i h op deps m t l) as [A|A]; auto; [cbn; intros; lia|]. right. ucase t d; [now right|auto].
    + destruct (c_past _ _ _ _ _ C k h op deps m t l) as [A|A]; auto; [cbn; intros; congruence|]. right. ucase t d; [now right|auto].
Qed.
Lemma core_unlock : forall ph nd lk dl i j d, core (DUnlock i j) ph nd lk dl -> dep_at i j = Some d -> core (DTry i (S j)) ph nd (upd lk d false) dl.
Proof.
  intros ph nd lk dl i j d C Hd. assert (NF : prank (ph d) < 5) by (apply (c_hold _ _ _ _ _ C); exact Hd).
  constructor; try (apply C).
  - rewrite (core_own _ _ _ _ _ i C); [lia|]. cbn. now rewrite Nat.eqb_refl.
  - intros t. cbn [hold]. ucase t d; [split; [discriminate|intros [A|A]; [lia|discriminate]]|]. rewrite (c_lock _ _ _ _ _ C). cbn [hold]. rewrite Hd.
    split; [intros [A|A]; [auto|congruence]|]. intros [A|A]; [auto|discriminate].
  - cbn [hold]. discriminate.
  - intros k h op deps m t l Hk Hn Hj Hp. eapply (c_past _ _ _ _ _ C); eauto. cbn [past] in *. intros E. specialize (Hp E). lia.
Qed.
Lemma core_release : forall d d' ph nd lk dl dl' k, core d ph nd lk dl -> 1 <= prank (ph k) -> prank (ph k) = 1 -> 1 <= nd k ->
  dpc_ok d' -> pos d' = pos d -> hold d' = hold d -> (forall i j, past d' i j -> past d i j) ->
  (forall t x, In x (dl' t) -> In x (dl t)) ->
  (forall t x, In x (dl t) -> In x (dl' t) \/ 5 <= prank (ph t)) ->
  (forall i, own d' i + pend d' i + occ dl' i + (if i =? k then 1 else 0) = own d i + pend d i + occ dl i) ->
  core d' (if nd k =? 1 then upd ph k PReady else ph) (upd nd k (nd k - 1)) lk dl'.
Proof.
  intros d d' ph nd lk dl dl' k C K1 K2 K3 D1 D2 D3 D4 D5 D6 D7.
  set (ph' := if nd k =? 1 then upd ph k PReady else ph).
  assert (P : forall t, t <> k -> ph' t = ph t) by (intros t Ht; unfold ph'; destruct (nd k =? 1); auto; now rewrite upd_other).
  assert (Pk : prank (ph' k) = if nd k =? 1 then 2 else 1) by (unfold ph'; destruct (nd k =? 1); [now rewrite upd_same|auto]).
  assert (P5 : forall t, 5 <= prank (ph' t) <-> 5 <= prank (ph t)).
  { intros t. destruct (Nat.eq_dec t k) as [->|Nt]; [rewrite Pk, K2; destruct (nd k =? 1); lia|now rewrite P]. }
  assert (P1 : forall t, 1 <= prank (ph' t) <-> 1 <= prank (ph t)).
  { intros t. destruct (Nat.eq_dec t k) as [->|Nt]; [rewrite Pk; destruct (nd k =? 1); lia|now rewrite P]. }
  assert (Occ' : forall t x, In x (dl' t) -> 1 <= occ dl' x).
  { intros t x H. pose proof (dl_lt _ _ _ _ _ _ _ C (D5 _ _ H)) as L. pose proof (sumn_ge (fun t => count_occ Nat.eq_dec (dl' t) x) len t L) as G. cbv beta in G.
    apply (count_occ_In Nat.eq_dec) in H. unfold occ. lia. }
  constructor; auto.
  - intros i. rewrite P1, D2. apply (c_created _ _ _ _ _ C).
  - intros t. rewrite P5, D3. apply (c_lock _ _ _ _ _ C).
  - intros t H. rewrite D3 in H. apply (c_hold _ _ _ _ _ C) in H. destruct (le_lt_dec 5 (prank (ph' t))) as [A|]; auto. apply P5 in A. lia.
  - intros t H. assert (E : dl t = []).
    { apply (c_empty _ _ _ _ _ C). destruct (Nat.eq_dec t k) as [->|Nt]; [rewrite Pk in H; destruct (nd k =? 1); lia|]. now rewrite P in H. }
    destruct (dl' t) as [|x r] eqn:Er; auto. exfalso. assert (In x (dl t)) by (apply D5; rewrite Er; now left). rewrite E in H0. destruct H0.
  - intros t i H. destruct (c_list _ _ _ _ _ C _ _ (D5 _ _ H)) as [A B]. split; auto. destruct (Nat.eq_dec i k) as [->|Ni]; [|now rewrite P].
    rewrite Pk. destruct (nd k =? 1) eqn:E; auto. exfalso. specialize (D7 k). rewrite Nat.eqb_refl in D7. pose proof (c_nd _ _ _ _ _ C k K1). apply Occ' in H. lia.
  - intros i H. apply P1 in H. pose proof (c_nd _ _ _ _ _ C i H) as N. specialize (D7 i). ucase i k; [rewrite Nat.eqb_refl in D7; lia|].
    replace (i =? k) with false in D7 by lia. lia.
  - intros i H. apply P1 in H. ucase i k; [rewrite Pk; destruct (nd k =? 1) eqn:E; lia|]. rewrite P by auto. now apply (c_blocked _ _ _ _ _ C).
  - intros i h op deps j t l Hk Hn Hj Hp. apply P1 in Hk. destruct (c_past _ _ _ _ _ C i h op deps j t l) as [A|A]; auto; [left; now apply P5|].
    apply D6 in A. destruct A as [A|A]; auto. left. now apply P5.
Qed.
Lemma core_sub : forall ph nd lk dl i, core (DSub i) ph nd lk dl -> core (DNext (S i)) (if nd i =? 1 then upd ph i PReady else ph) (upd nd i (nd i - 1)) lk dl.
Proof.
  intros ph nd lk dl i C. assert (B := core_own _ _ _ _ _ i C ltac:(cbn; now rewrite Nat.eqb_refl)).
  apply (core_release (DSub i) (DNext (S i)) ph nd lk dl dl i C); auto; try lia.
  - apply (c_blocked _ _ _ _ _ C i); lia.
  - cbn. pose proof (task_lt i (c_dpc _ _ _ _ _ C)). lia.
  - intros k. cbn [own pend]. rewrite (Nat.eqb_sym i k). destruct (k =? i); lia.
Qed.
Lemma core_lock : forall d ph nd lk dl i, core d ph nd lk dl -> prank (ph i) = 4 -> lk i = false -> core d (upd ph i PDrain) nd (upd lk i true) dl.
Proof.
  intros d ph nd lk dl i C H1 H2. assert (NH : hold d <> Some i) by (intros H; assert (lk i = true) by (apply (c_lock _ _ _ _ _ C); auto); congruence).
  constructor.
  - apply C.
  - intros k. rewrite <- (c_created _ _ _ _ _ C). ucase k i; [cbn; lia|tauto].
  - intros t. ucase t i; [cbn; split; [left; lia|auto]|]. apply (c_lock _ _ _ _ _ C).
  - intros t H. ucase t i; [congruence|now apply (c_hold _ _ _ _ _ C)].
  - intros t H. ucase t i; [cbn in H; lia|now apply (c_empty _ _ _ _ _ C)].
  - intros t k H. destruct (c_list _ _ _ _ _ C _ _ H) as [A B]. split; auto. ucase k i; [lia|auto].
  - intros k H. apply (c_nd _ _ _ _ _ C). ucase k i; [lia|auto].
  - intros k H. rewrite <- (c_blocked _ _ _ _ _ C k) by (ucase k i; [lia|auto]). ucase k i; [cbn; lia|tauto].
  - intros k h op deps j t l Hk Hi Hj Hp. assert (1 <= prank (ph k)) by (ucase k i; [lia|auto]). destruct (c_past _ _ _ _ _ C k h op deps j t l) as [A|A]; auto.
    left. ucase t i; [cbn; lia|auto].
Qed.
Lemma core_pop : forall d ph nd lk dl i k rest, core d ph nd lk dl -> prank (ph i) = 5 -> dl i = k :: rest ->
  core d (if nd k =? 1 then upd ph k PReady else ph) (upd nd k (nd k - 1)) lk (upd dl i rest).
Proof.
  intros d ph nd lk dl i k rest C H1 H2. assert (Ik : In k (dl i)) by (rewrite H2; now left). destruct (c_list _ _ _ _ _ C _ _ Ik) as [B _].
  apply (core_release d d ph nd lk dl (upd dl i rest) k C); auto; try lia.
  - apply (c_blocked _ _ _ _ _ C k); lia.
  - apply C.
  - intros t x H. ucase t i; [rewrite H2; now right|auto].
  - intros t x H. ucase t i; [right; lia|auto].
  - intros x. pose proof (sumn_upd (fun t => count_occ Nat.eq_dec (dl t) x) (fun t => count_occ Nat.eq_dec (upd dl i rest t) x) i len (dl_lt _ _ _ _ _ _ _ C Ik)) as S.
    cbv beta in S. rewrite upd_same, H2 in S. specialize (S ltac:(intros t Ht; now rewrite upd_other)). unfold occ. cbn [count_occ] in S.
    destruct (Nat.eq_dec k x) as [->|]; [rewrite Nat.eqb_refl; lia|]. replace (x =? k) with false by lia. lia.
Qed.

(** ** The core invariant holds in every reachable state *)
Context (deg cap : nat) (cells : cty -> nat -> ct).
Definition core_s (s : pstate) : Prop := core (dp s) (ph s) (nd s) (lk s) (dl s).
Lemma core_step : forall s s', core_s s -> step deg plan cap s s' -> core_s s'.
Proof.
  intros s s' C St. unfold core_s in *. destruct St as
    [i h Hd Hi|i h op deps t Hd Hi Ht|i h op deps Hd Hi|i j h op deps d l Hd Hi Hj Hl|i j h op deps d l Hd Hi Hj Hl|i j Hd|i j h op deps d l Hd Hi Hj|i j h op deps d l Hd Hi Hj
    |i j h op deps Hd Hi Hj|i Hd|i h op deps Hp Hi|i h op deps o w Hp Hi He|i h op deps e Hp Hi He|i Hp Hl|i d rest Hp Hr|i Hp Hr|i Hp Ht|i h op deps Hp Hi]; cbn [dp ph nd lk dl];
    unfold item_at in *; try rewrite Hd in C.
  - apply (core_dpc (DNext i)); auto.
    + cbn. apply nth_error_Some. congruence.
    + intros k (h' & op' & deps' & Hk). cbn [pos]. assert (k <> i) by (intros ->; congruence). lia.
  - apply (core_dpc (DNext i)); auto.
    + exists h, op, deps. auto.
    + cbn [pos]. tauto.
  - eapply core_count; eauto.
  - apply (core_dpc (DTry i j)); auto.
    + exact (c_dpc _ _ _ _ _ C).
    + cbn [pos]. tauto.
    + intros k h' op' deps' m t l' Hk Hn Hm Hp. cbn [past] in *. destruct (Nat.eq_dec k i) as [->|]; [|left; congruence].
      specialize (Hp eq_refl). destruct (Nat.eq_dec m j) as [->|]; [|left; intros; lia].
      right. left. assert (t = d) by congruence. subst t. apply (c_lock _ _ _ _ _ C) in Hl. cbn [hold] in Hl. destruct Hl; [auto|discriminate].
  - eapply core_try_ok; eauto. eapply dep_at_eq; eauto.
  - now apply core_add.
  - eapply core_push; eauto. eapply dep_at_eq; eauto.
  - eapply core_unlock; eauto. eapply dep_at_eq; eauto.
  - apply (core_dpc (DTry i j)); auto.
    + exists h, op, deps. auto.
    + cbn [pos]. tauto.
    + intros k h' op' deps' m t l' Hk Hn Hm Hp. left. cbn [past]. intros <-. assert (deps' = deps) by congruence. subst deps'.
      apply nth_error_None in Hj. assert (m < length deps) by (apply nth_error_Some; congruence). lia.
  - now apply core_sub.
  - apply core_advance; auto; rewrite ?Hp; destruct (er s h); cbn; intros; lia.
  - apply core_advance; auto; rewrite ?Hp; cbn; intros; solve [lia | auto].
  - apply core_advance; auto; rewrite ?Hp; cbn; intros; solve [lia | auto].
  - apply core_lock; auto. now rewrite Hp.
  - apply core_pop; auto. now rewrite Hp.
  - apply core_advance; auto; rewrite ?Hp; cbn; intros; solve [lia | auto].
  - apply core_advance; auto; try (rewrite ?Hp; cbn; intros; lia). intros _. apply (c_empty _ _ _ _ _ C). rewrite Hp. cbn. lia.
  - apply core_advance; auto; try (rewrite ?Hp; cbn; intros; lia). intros _. apply (c_empty _ _ _ _ _ C). rewrite Hp. cbn. lia.
Qed.
Lemma core_reach : forall s, reach deg plan cap cells s -> core_s s.
Proof. intros s R. induction R as [|s s' R IH St]; [apply core_init|eapply core_step; eauto]. Qed.
End Core.
