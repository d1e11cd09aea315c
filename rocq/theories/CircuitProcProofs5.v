(** Proofs: the plan of several submitted circuits, and its meaning. *)
From Coq Require Import ZifyBool ZifyNat.
From Verif Require Import Base Graph MuxGraph FheGraph CircuitProc SpecFhe SpecProc FheProofs FheProofs2 CircuitProcProofs3 CircuitProcProofs4.
Open Scope nat_scope.

Definition seg_ok (g : fgraph) (order : list nat) (h base : nat) (p : list item) : Prop :=
  length p = length (live g order) /\
  forall k n, nth_error (live g order) k = Some n -> exists op deps, node g n = Some op /\ op <> FRetire /\
      nth_error p k = Some (ITask h op deps) /\ Forall2 (dep_of order base) (in_edges g n) deps.

Lemma tailp_len : forall g order h p, length p = length (live g order) -> length (p ++ tailp g h order) = width g order.
Proof. intros g order h p E. rewrite app_length, E. unfold tailp, width. destruct (_ =? _); reflexivity. Qed.

Lemma plan_graphs_ok : forall gs h base, (forall g order, In (g, order) gs -> topo_order g order) ->
  exists plan, plan_graphs h gs base = Ok plan /\
    (forall c g order, nth_error gs c = Some (g, order) -> exists p, seg_ok g order (h + c) (base + base_of gs c) p /\
       forall k, k < width g order -> nth_error plan (base_of gs c + k) = nth_error (p ++ tailp g (h + c) order) k) /\
    (forall i, i < length plan -> exists c g order k, nth_error gs c = Some (g, order) /\ k < width g order /\ i = base_of gs c + k).
Proof.
  induction gs as [|[g order] gs IH]; intros h base H.
  - exists []. split; [reflexivity|]. split; [intros [|c] g order E; discriminate|]. intros i Hi. cbn in Hi. lia.
  - destruct (plan_graph_ok g order (H g order ltac:(now left)) h base) as (p & Ep & Lp & Hp).
    pose proof (tailp_len g order h p Lp) as Lw.
    destruct (IH (S h) (base + length (p ++ tailp g h order)) ltac:(intros; apply H; now right)) as (q & Eq & Hq & Cq).
    exists ((p ++ tailp g h order) ++ q). split; [cbn [plan_graphs]; rewrite Ep; cbn [bind]; rewrite Eq; reflexivity|]. split.
    + intros [|c] g' order' E; cbn [nth_error] in E.
      * injection E as <- <-. exists p. cbn [base_of]. rewrite !Nat.add_0_r. split; [split; auto|]. intros k Hk. cbn [Nat.add]. rewrite nth_error_app1 by lia. reflexivity.
      * destruct (Hq c g' order' E) as (p' & Sp & Np). exists p'. rewrite Lw in *. cbn [base_of].
        replace (h + S c) with (S h + c) by lia. replace (base + (width g order + base_of gs c)) with (base + width g order + base_of gs c) by lia.
        split; auto. intros k Hk. rewrite nth_error_app2 by lia. rewrite Lw. replace (width g order + base_of gs c + k - width g order) with (base_of gs c + k) by lia. auto.
    + intros i Hi. rewrite app_length, Lw in Hi. destruct (le_lt_dec (width g order) i) as [L|L].
      * destruct (Cq (i - width g order) ltac:(lia)) as (c & g' & o' & k & A & B & C). exists (S c), g', o', k. cbn [nth_error base_of]. split; auto. split; auto. lia.
      * exists 0, g, order, i. cbn. auto.
Qed.

Section Sub.
Context (gs : list (fgraph * list nat)) (SUB : submission gs) (plan : list item) (PL : plan_graphs 0 gs 0 = Ok plan).

Lemma sub_topo : forall g order, In (g, order) gs -> topo_order g order.
Proof. intros g order H. apply (SUB g order H). Qed.
Lemma segs : (forall c g order, nth_error gs c = Some (g, order) -> exists p, seg_ok g order c (base_of gs c) p /\
       forall k, k < width g order -> nth_error plan (base_of gs c + k) = nth_error (p ++ tailp g c order) k) /\
    (forall i, i < length plan -> exists c g order k, nth_error gs c = Some (g, order) /\ k < width g order /\ i = base_of gs c + k).
Proof. destruct (plan_graphs_ok gs 0 0 sub_topo) as (plan' & E & A & B). assert (plan' = plan) by congruence. subst plan'. split; auto. Qed.

Lemma base_mono : forall l c c' g order, nth_error l c = Some (g, order) -> c < c' -> base_of l c + width g order <= base_of l c'.
Proof.
  induction l as [|[g0 o0] l IH]; intros c c' g order E L; [destruct c; discriminate|]. destruct c' as [|c']; [lia|]. destruct c as [|c]; cbn [nth_error base_of] in *.
  - injection E as <- <-. lia.
  - specialize (IH c c' g order E ltac:(lia)). lia.
Qed.
Lemma seg_unique : forall c c' g g' o o' k k', nth_error gs c = Some (g, o) -> nth_error gs c' = Some (g', o') -> k < width g o -> k' < width g' o' -> base_of gs c + k = base_of gs c' + k' -> c = c' /\ k = k'.
Proof.
  intros c c' g g' o o' k k' E E' L L' H. destruct (Nat.lt_trichotomy c c') as [Hc|[->|Hc]].
  - pose proof (base_mono gs _ _ _ _ E Hc). lia.
  - split; lia.
  - pose proof (base_mono gs _ _ _ _ E' Hc). lia.
Qed.
(** The task of a submitted node. *)
Lemma node_task : forall c g order k n, nth_error gs c = Some (g, order) -> nth_error (live g order) k = Some n ->
  exists op deps, node g n = Some op /\ op <> FRetire /\ nth_error plan (base_of gs c + k) = Some (ITask c op deps) /\ Forall2 (dep_of order (base_of gs c)) (in_edges g n) deps.
Proof.
  intros c g order k n E Hk. destruct (proj1 segs c g order E) as (p & [Lp Hp] & Np). destruct (Hp k n Hk) as (op & deps & A & B & C & D). exists op, deps. split; auto. split; auto. split; auto.
  assert (k < length (live g order)) by (apply nth_error_Some; congruence). rewrite Np by (unfold width; lia). rewrite nth_error_app1 by lia. auto.
Qed.
Lemma retire_task : forall c g order, nth_error gs c = Some (g, order) -> nth_error plan (base_of gs c + (width g order - 1)) = Some (ITask c FRetire []).
Proof.
  intros c g order E. destruct (proj1 segs c g order E) as (p & [Lp Hp] & Np). rewrite Np by (unfold width; destruct (_ =? _); lia). rewrite nth_error_app2 by (unfold width; destruct (_ =? _); lia).
  rewrite Lp. unfold width, tailp. destruct (length (live g order) =? length order).
  - replace (length (live g order) + 1 - 1 - length (live g order)) with 0 by lia. reflexivity.
  - replace (length (live g order) + 2 - 1 - length (live g order)) with 1 by lia. reflexivity.
Qed.
Lemma bad_task : forall c g order, nth_error gs c = Some (g, order) -> length (live g order) <> length order -> nth_error plan (base_of gs c + length (live g order)) = Some (IBad c).
Proof.
  intros c g order E Ne. destruct (proj1 segs c g order E) as (p & [Lp Hp] & Np). rewrite Np by (unfold width; destruct (_ =? _); lia). rewrite nth_error_app2 by lia. rewrite Lp, Nat.sub_diag.
  unfold tailp. replace (length (live g order) =? length order) with false by lia. reflexivity.
Qed.
(** Every item is one of these. *)
Lemma item_cases : forall i x, nth_error plan i = Some x -> exists c g order k, nth_error gs c = Some (g, order) /\ i = base_of gs c + k /\ k < width g order /\ item_handler x = c /\
  ((exists n op deps, nth_error (live g order) k = Some n /\ node g n = Some op /\ op <> FRetire /\ x = ITask c op deps /\ Forall2 (dep_of order (base_of gs c)) (in_edges g n) deps) \/
   (x = IBad c /\ k = length (live g order) /\ length (live g order) <> length order) \/
   (x = ITask c FRetire [] /\ k = width g order - 1)).
Proof.
  intros i x Hi. destruct (proj2 segs i ltac:(apply nth_error_Some; congruence)) as (c & g & order & k & E & Lk & ->). exists c, g, order, k. split; auto. split; auto. split; auto.
  destruct (le_lt_dec (length (live g order)) k) as [L|L].
  - destruct (Nat.eq_dec k (width g order - 1)) as [->|N].
    + rewrite (retire_task c g order E) in Hi. injection Hi as <-. split; auto.
    + unfold width in Lk, N. destruct (length (live g order) =? length order) eqn:Eb; [lia|]. assert (k = length (live g order)) by lia. subst k.
      rewrite (bad_task c g order E ltac:(lia)) in Hi. injection Hi as <-. split; auto. right. left. split; [auto|]. split; [auto|lia].
  - destruct (nth_error (live g order) k) as [n|] eqn:En; [|apply nth_error_None in En; lia].
    destruct (node_task c g order k n E En) as (op & deps & A & B & C & D). rewrite C in Hi. injection Hi as <-. split; auto. left. exists n, op, deps. auto.
Qed.

Lemma sub_in : forall c g order, nth_error gs c = Some (g, order) -> topo_order g order /\ forall n, node g n <> Some (FZero TLwe1) /\ node g n <> Some (FOne TLwe1).
Proof. intros c g order E. apply SUB. eapply nth_error_In; eauto. Qed.

Lemma F2_In_r : forall A B (P : A -> B -> Prop) l l' b, Forall2 P l l' -> In b l' -> exists a, In a l /\ P a b.
Proof. intros A B P l l' b F. induction F as [|x y l l' H F IH]; intros Hb; [destruct Hb|]. destruct Hb as [<-|Hb]; [exists x; split; [now left|auto]|]. destruct (IH Hb) as (a & Ha & Hp). exists a. split; [now right|auto]. Qed.

Lemma live_nth_lt : forall c g order j k, nth_error gs c = Some (g, order) -> j < k -> k < length (live g order) -> forall n, nth_error order j = Some n -> nth_error (live g order) j = Some n.
Proof.
  intros c g order j k E L1 L2 n H. destruct (live_prefix g order) as [post Ep]. rewrite Ep in H. rewrite nth_error_app1 in H by lia. exact H.
Qed.

Lemma sub_plan_ok : plan_ok plan.
Proof.
  constructor.
  - intros i h op deps d l Hi Hd. destruct (item_cases i _ Hi) as (c & g & order & k & E & -> & Lk & Eh & [(n & op' & deps' & Hn & No & Nr & Ex & F)|[(Ex & _)|(Ex & _)]]); [|discriminate|injection Ex as -> -> ->; destruct Hd].
    injection Ex as -> -> ->. destruct (sub_in c g order E) as [TO _]. destruct (F2_In_r _ _ _ _ _ _ F Hd) as (e & He & De).
    pose proof (live_nth g order k n Hn) as Hk. destruct (dep_before g order TO (base_of gs c) k n e (d, l) Hk He De) as (j & Lj & Hj & Ed). injection Ed as -> ->.
    split; [lia|]. assert (Lk2 : k < length (live g order)) by (apply nth_error_Some; congruence).
    destruct (node_task c g order j _ E (live_nth_lt c g order j k E Lj Lk2 _ Hj)) as (op2 & deps2 & _ & B & C & _). eauto.
  - intros i h deps Hi. destruct (item_cases i _ Hi) as (c & g & order & k & E & -> & Lk & Eh & [(n & op' & deps' & Hn & No & Nr & Ex & F)|[(Ex & _)|(Ex & Ek)]]); [congruence|discriminate|].
    injection Ex as -> ->. split; auto. intros i' x Hi' Hx. destruct (item_cases i' x Hi') as (c' & g' & order' & k' & E' & -> & Lk' & Eh' & _). rewrite Hx in Eh'. subst c'.
    rewrite E in E'. injection E' as <- <-. lia.
  - intros i x Hi. destruct (item_cases i x Hi) as (c & g & order & k & E & -> & Lk & Eh & _). rewrite Eh. eexists. apply (retire_task c g order E).
  - intros i h op deps Hi. destruct (item_cases i _ Hi) as (c & g & order & k & E & -> & Lk & Eh & [(n & op' & deps' & Hn & No & Nr & Ex & F)|[(Ex & _)|(Ex & Ek)]]); [|discriminate|].
    + injection Ex as -> -> ->. destruct (sub_in c g order E) as [_ K]. destruct (K n) as [K1 K2]. split; congruence.
    + injection Ex as -> -> ->. split; discriminate.
Qed.

Lemma sub_no_alias : exclusive gs -> no_alias plan.
Proof.
  intros X. split.
  - intros i j h h' t r deps deps' Hi Hj.
    destruct (item_cases i _ Hi) as (c & g & order & k & E & -> & Lk & Eh & [(n & op & d1 & Hn & No & Nr & Ex & F)|[(Ex & _)|(Ex & Ek)]]); [|discriminate|discriminate].
    destruct (item_cases j _ Hj) as (c' & g' & order' & k' & E' & -> & Lk' & Eh' & [(n' & op' & d1' & Hn' & No' & Nr' & Ex' & F')|[(Ex' & _)|(Ex' & Ek')]]); [|discriminate|discriminate].
    injection Ex as -> <- ->. injection Ex' as -> <- ->. destruct (X c c' g g' order order' n n' t r E E' No') as [A _]. contradiction.
  - intros i j h h' t r deps deps' Hi Hj.
    destruct (item_cases i _ Hi) as (c & g & order & k & E & -> & Lk & Eh & [(n & op & d1 & Hn & No & Nr & Ex & F)|[(Ex & _)|(Ex & Ek)]]); [|discriminate|discriminate].
    destruct (item_cases j _ Hj) as (c' & g' & order' & k' & E' & -> & Lk' & Eh' & [(n' & op' & d1' & Hn' & No' & Nr' & Ex' & F')|[(Ex' & _)|(Ex' & Ek')]]); [|discriminate|discriminate].
    injection Ex as -> <- ->. injection Ex' as -> <- ->. destruct (X c c' g g' order order' n n' t r E E' No') as [_ A]. destruct (A No) as [-> ->]. rewrite E in E'. injection E' as <- <-.
    destruct (sub_in c' g order E) as [TO _]. f_equal. apply (proj1 (NoDup_nth_error order) (to_once _ _ TO)).
    + apply nth_error_Some. rewrite (live_nth g order k n' Hn). discriminate.
    + rewrite (live_nth g order k n' Hn), (live_nth g order k' n' Hn'). reflexivity.
Qed.

(** ** Meaning *)
Context (deg : nat) (cells : cty -> nat -> ct).
Lemma pval_fvalue : forall c g order, nth_error gs c = Some (g, order) -> forall k n o, nth_error (live g order) k = Some n -> pval deg cells plan (base_of gs c + k) o -> fvalue deg cells g n o.
Proof.
  intros c g order E k. induction k as [k IH] using lt_wf_ind. intros n o Hn Hv. destruct (node_task c g order k n E Hn) as (op & deps & No & Nr & Hi & F).
  inversion Hv as [i' h' op' deps' ins o' Hi' Hp He]; subst. rewrite Hi in Hi'. injection Hi' as <- <- <-.
  apply (fv_node deg cells g n op ins o No); [|exact He]. destruct (sub_in c g order E) as [TO _].
  assert (Hk := live_nth g order k n Hn). assert (Lk : k < length (live g order)) by (apply nth_error_Some; congruence).
  assert (G : forall es deps ins, (forall e, In e es -> In e (in_edges g n)) -> Forall2 (dep_of order (base_of gs c)) es deps -> pins deg cells plan deps ins -> finputs deg cells g es ins).
  { intros es. induction es as [|[[a b] l] es IHe]; intros ds is Hin Fs Hps; inversion Fs as [|x y l1 l2 D1 D2]; subst.
    - inversion Hps. constructor.
    - destruct (dep_before g order TO (base_of gs c) k n (a, b, l) y Hk (Hin _ ltac:(now left)) D1) as (j & Lj & Hj & ->). cbn [fst snd] in *.
      inversion Hps as [|d' l' ds' cc w is' Hv1 Hps1]; subst. apply (fi_cons deg cells g a b l es cc w is').
      + apply (IH j Lj a (cc, w)); auto. eapply live_nth_lt; eauto.
      + apply (IHe l2); auto. intros e He'. apply Hin. now right. }
  eapply G; eauto.
Qed.
Lemma fvalue_pval : forall c g order, nth_error gs c = Some (g, order) -> forall k n o, nth_error (live g order) k = Some n -> fvalue deg cells g n o -> pval deg cells plan (base_of gs c + k) o.
Proof.
  intros c g order E k. induction k as [k IH] using lt_wf_ind. intros n o Hn Hv. destruct (node_task c g order k n E Hn) as (op & deps & No & Nr & Hi & F).
  inversion Hv as [n' op' ins o' No' Hp He]; subst. rewrite No in No'. injection No' as <-.
  apply (pv_task deg cells plan _ c op deps ins o Hi); [|exact He]. destruct (sub_in c g order E) as [TO _].
  assert (Hk := live_nth g order k n Hn). assert (Lk : k < length (live g order)) by (apply nth_error_Some; congruence).
  assert (G : forall es deps ins, (forall e, In e es -> In e (in_edges g n)) -> Forall2 (dep_of order (base_of gs c)) es deps -> finputs deg cells g es ins -> pins deg cells plan deps ins).
  { intros es. induction es as [|[[a b] l] es IHe]; intros ds is Hin Fs Hps; inversion Fs as [|x y l1 l2 D1 D2]; subst.
    - inversion Hps. constructor.
    - destruct (dep_before g order TO (base_of gs c) k n (a, b, l) y Hk (Hin _ ltac:(now left)) D1) as (j & Lj & Hj & ->). cbn [fst snd] in *.
      inversion Hps as [|s' t' l' es' cc w is' Hv1 Hps1]; subst. apply (pi_cons deg cells plan _ l l2 cc w is').
      + apply (IH j Lj a (cc, w)); auto. eapply live_nth_lt; eauto.
      + apply IHe; auto. intros e He'. apply Hin. now right. }
  eapply G; eauto.
Qed.
Lemma pins_finputs : forall c g order k n op deps ins, nth_error gs c = Some (g, order) -> nth_error (live g order) k = Some n -> nth_error plan (base_of gs c + k) = Some (ITask c op deps) ->
  pins deg cells plan deps ins -> finputs deg cells g (in_edges g n) ins.
Proof.
  intros c g order k n op deps ins E Hn Hi Hp. destruct (node_task c g order k n E Hn) as (op' & deps' & No & Nr & Hi' & F). rewrite Hi in Hi'. injection Hi' as <- <-.
  destruct (sub_in c g order E) as [TO _]. assert (Hk := live_nth g order k n Hn). assert (Lk : k < length (live g order)) by (apply nth_error_Some; congruence).
  assert (G : forall es deps ins, (forall e, In e es -> In e (in_edges g n)) -> Forall2 (dep_of order (base_of gs c)) es deps -> pins deg cells plan deps ins -> finputs deg cells g es ins).
  { intros es. induction es as [|[[a b] l] es IHe]; intros ds is Hin Fs Hps; inversion Fs as [|x y l1 l2 D1 D2]; subst.
    - inversion Hps. constructor.
    - destruct (dep_before g order TO (base_of gs c) k n (a, b, l) y Hk (Hin _ ltac:(now left)) D1) as (j & Lj & Hj & ->). cbn [fst snd] in *.
      inversion Hps as [|d' l' ds' cc w is' Hv1 Hps1]; subst. apply (fi_cons deg cells g a b l es cc w is').
      + eapply pval_fvalue; eauto. eapply live_nth_lt; eauto.
      + apply (IHe l2); auto. intros e He'. apply Hin. now right. }
  eapply G; eauto.
Qed.
End Sub.

Lemma live_all : forall g order, (forall n, node g n <> Some FRetire) -> live g order = order.
Proof. intros g order H. induction order as [|n order IH]; cbn [live]; auto. specialize (H n). destruct (node g n) as [[]|]; congruence. Qed.
(** In a circuit without cycles every node is submitted. *)
Lemma topo_covers : forall g order, topo_order g order -> edges_ok g -> (exists rank : nat -> nat, forall s t l, In (s, t, l) (gedges g) -> rank s < rank t) ->
  forall n, contains g n = true -> In n order.
Proof.
  intros g order TO EO [rank R]. intros n. remember (rank n) as m eqn:Em. revert n Em. induction m as [m IH] using lt_wf_ind. intros n Em Hn. apply (to_all _ _ TO n Hn). intros s l Hs. apply (IH (rank s)); auto.
  - specialize (R _ _ _ Hs). lia.
  - apply (EO _ _ _ Hs).
Qed.
