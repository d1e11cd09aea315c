(** Proofs: what spawn_graph submits. *)
From Coq Require Import ZifyBool ZifyNat.
From Verif Require Import Base Graph MuxGraph FheGraph CircuitProc SpecFhe SpecProc FheProofs FheProofs2 CircuitProcProofs3.
Open Scope nat_scope.

Lemma tlookup_remove_same : forall m k, tlookup (tremove m k) k = None.
Proof.
  induction m as [|[a b] m IH]; intros k; cbn; auto. destruct (a =? k) eqn:E; cbn; [apply IH|]. rewrite E. apply IH.
Qed.
Lemma tlookup_remove_other : forall m k k', k' <> k -> tlookup (tremove m k) k' = tlookup m k'.
Proof.
  induction m as [|[a b] m IH]; intros k k' N; cbn; auto. destruct (Nat.eqb_spec a k) as [->|]; cbn.
  - replace (k =? k') with false by lia. now apply IH.
  - destruct (a =? k'); auto. now apply IH.
Qed.
Lemma tlookup_insert_same : forall m k v, tlookup (tinsert m k v) k = Some v.
Proof. intros. cbn. now rewrite Nat.eqb_refl. Qed.
Lemma tlookup_insert_other : forall m k v k', k' <> k -> tlookup (tinsert m k v) k' = tlookup m k'.
Proof. intros. cbn. replace (k =? k') with false by lia. now apply tlookup_remove_other. Qed.

Definition nsrc (es : list (nat * nat * fedge)) (v : nat) : nat := length (filter (fun e => fst (fst e) =? v) es).
(** The task table: visited nodes with U v > 0 pending out-edges. *)
Definition tab (pre : list nat) (base : nat) (U : nat -> nat) (m : tmap) : Prop :=
  forall v k, nth_error pre k = Some v -> 0 < U v -> tlookup m v = Some (base + k, U v).
Definition dep_of (pre : list nat) (base : nat) (e : nat * nat * fedge) (d : nat * fedge) : Prop :=
  exists k, nth_error pre k = Some (fst (fst e)) /\ d = (base + k, snd e).

Lemma take_deps : forall pre base es U m acc, NoDup pre -> (forall e, In e es -> In (fst (fst e)) pre) ->
  tab pre base (fun v => U v + nsrc es v) m ->
  exists m' deps, foldM take_dep es (m, acc) = Ok (m', acc ++ deps) /\ Forall2 (dep_of pre base) es deps /\ tab pre base U m'.
Proof.
  intros pre base es. induction es as [|e es IH]; intros U m acc ND Hin T.
  - exists m, []. cbn. rewrite app_nil_r. split; auto. split; [constructor|]. intros v k Hv Hu. replace (U v) with (U v + nsrc [] v) in * by (cbn; lia). now apply T.
  - destruct (In_nth_error _ _ (Hin e ltac:(now left))) as [k Hk]. set (v := fst (fst e)) in *.
    assert (Nv : nsrc (e :: es) v = S (nsrc es v)) by (unfold nsrc; cbn [filter]; fold v; rewrite Nat.eqb_refl; reflexivity).
    pose proof (T v k Hk ltac:(cbv beta; lia)) as L. cbv beta in L.
    set (m1 := if U v + nsrc es v =? 0 then tremove m v else tinsert m v (base + k, U v + nsrc es v)).
    assert (T1 : tab pre base (fun w => U w + nsrc es w) m1).
    { intros w j Hw Hu. cbv beta in *. destruct (Nat.eq_dec w v) as [->|Nw].
      - unfold m1. replace (U v + nsrc es v =? 0) with false by lia. rewrite tlookup_insert_same.
        assert (j = k); [|congruence]. apply (proj1 (NoDup_nth_error pre) ND); [apply nth_error_Some; congruence|congruence].
      - assert (En : nsrc (e :: es) w = nsrc es w) by (unfold nsrc; cbn [filter]; fold v; replace (v =? w) with false by lia; reflexivity).
        unfold m1. assert (Lw : tlookup m w = Some (base + j, U w + nsrc es w)) by (rewrite <- En; apply T; auto; cbv beta; lia).
        destruct (U v + nsrc es v =? 0); [rewrite tlookup_remove_other by auto|rewrite tlookup_insert_other by auto]; auto. }
    destruct (IH U m1 (acc ++ [(base + k, snd e)]) ND ltac:(intros; apply Hin; now right) T1) as (m' & deps & E & F & T').
    exists m', ((base + k, snd e) :: deps). split; [|split; [constructor; [exists k; auto|auto]|auto]].
    cbn [foldM]. unfold take_dep at 1. fold v. rewrite L, Nv. replace (U v + S (nsrc es v)) with (S (U v + nsrc es v)) by lia. fold m1.
    cbn [bind]. rewrite E. now rewrite <- app_assoc.
Qed.

Definition pending (g : fgraph) (pre : list nat) (v : nat) : nat := length (filter (fun e => negb (existsb (Nat.eqb (snd (fst e))) pre)) (out_edges g v)).
Lemma existsb_In : forall x l, existsb (Nat.eqb x) l = true <-> In x l.
Proof. intros x l. rewrite existsb_exists. split; [intros (y & H & E); assert (x = y) by lia; now subst|intros H; exists x; split; auto; lia]. Qed.

Lemma pending_snoc : forall g pre n v, ~ In n pre -> pending g pre v = pending g (pre ++ [n]) v + nsrc (in_edges g n) v.
Proof.
  intros g pre n v Hn. unfold pending, nsrc, in_edges, out_edges. unfold fgraph in *. generalize (gedges g) as es. intros es. induction es as [|[[a b] l] es IH]; [reflexivity|]. cbn [filter fst snd].
  destruct (Nat.eqb_spec a v) as [->|Na]; destruct (Nat.eqb_spec b n) as [->|Nb]; cbn [filter fst snd];
    rewrite ?Nat.eqb_refl, ?existsb_app; cbn [existsb]; rewrite ?Nat.eqb_refl, ?orb_true_r, ?orb_false_r; cbn [negb].
  - replace (existsb (Nat.eqb n) pre) with false; [cbn [negb length]; rewrite IH; lia|]. symmetry. apply not_true_iff_false. now rewrite existsb_In.
  - replace (b =? n) with false by lia. rewrite orb_false_r. destruct (existsb (Nat.eqb b) pre); cbn [negb length]; rewrite IH; lia.
  - replace (a =? v) with false by lia. exact IH.
  - exact IH.
Qed.

Lemma filter_all : forall A (f : A -> bool) l, (forall x, In x l -> f x = true) -> filter f l = l.
Proof. induction l as [|x l IH]; intros H; cbn [filter]; auto. rewrite H by now left. now rewrite IH by (intros; apply H; now right). Qed.
Lemma F2_impl : forall A B (P Q : A -> B -> Prop) l l', (forall a b, P a b -> Q a b) -> Forall2 P l l' -> Forall2 Q l l'.
Proof. intros A B P Q l l' H F. induction F; constructor; auto. Qed.
Lemma NoDup_pre : forall A (a b : list A), NoDup (a ++ b) -> NoDup a.
Proof. induction a as [|x a IH]; intros b H; [constructor|]. cbn in H. apply NoDup_cons_iff in H. destruct H as [H1 H2]. constructor; eauto. intros H. apply H1. apply in_app_iff. auto. Qed.
Section One.
Context (g : fgraph) (order : list nat) (TO : topo_order g order).

Lemma in_edges_In : forall n e, In e (in_edges g n) -> In e (gedges g) /\ snd (fst e) = n.
Proof. intros n e H. unfold in_edges in H. apply filter_In in H. destruct H as [A B]. split; auto. lia. Qed.
Lemma out_edges_In : forall n e, In e (out_edges g n) -> In e (gedges g) /\ fst (fst e) = n.
Proof. intros n e H. unfold out_edges in H. apply filter_In in H. destruct H as [A B]. split; auto. lia. Qed.

Lemma pending_new : forall pre n post, order = pre ++ n :: post -> pending g (pre ++ [n]) n = length (out_edges g n).
Proof.
  intros pre n post E. unfold pending. f_equal. apply filter_all. intros [[a b] l] H. apply out_edges_In in H. cbn [fst snd] in *. destruct H as [H ->].
  apply negb_true_iff. apply not_true_iff_false. rewrite existsb_In. intros Hb.
  pose proof (to_once _ _ TO) as ND. rewrite E in ND. apply in_app_iff in Hb. destruct Hb as [Hb|[<-|[]]].
  - apply in_split in Hb. destruct Hb as (p1 & p2 & ->). assert (E' : order = p1 ++ b :: (p2 ++ n :: post)) by (rewrite E, <- app_assoc; reflexivity).
    pose proof (to_after _ _ TO _ _ _ E' _ _ H) as Hp. apply NoDup_remove_2 in ND. apply ND. rewrite <- app_assoc, !in_app_iff. auto.
  - pose proof (to_after _ _ TO _ _ _ E _ _ H) as Hp. apply NoDup_remove_2 in ND. apply ND. apply in_app_iff. auto.
Qed.

Definition tailp (h : nat) (post : list nat) : list item := if length (live g post) =? length post then [ITask h FRetire []] else [IBad h; ITask h FRetire []].
Lemma live_len : forall post, length (live g post) <= length post.
Proof. induction post as [|n post IH]; cbn [live]; [lia|]. destruct (node g n) as [[]|]; cbn [length]; lia. Qed.

Lemma plan_loop_ok : forall h post pre base m, order = pre ++ post -> tab pre base (pending g pre) m ->
  exists p, plan_loop h g post m (base + length pre) = Ok (p ++ tailp h post) /\ length p = length (live g post) /\
    forall k n, nth_error (live g post) k = Some n -> exists op deps, node g n = Some op /\ op <> FRetire /\
      nth_error p k = Some (ITask h op deps) /\ Forall2 (dep_of order base) (in_edges g n) deps.
Proof.
  intros h post. induction post as [|n post IH]; intros pre base m E T.
  - exists []. cbn. split; auto. split; auto. intros [|k] n H; discriminate.
  - pose proof (to_once _ _ TO) as ND.
    assert (NDp : NoDup pre) by (rewrite E in ND; now apply NoDup_pre in ND).
    assert (Nn : ~ In n pre) by (rewrite E in ND; apply NoDup_remove_2 in ND; intros H; apply ND; apply in_app_iff; auto).
    assert (Hin : forall e, In e (in_edges g n) -> In (fst (fst e)) pre).
    { intros [[a b] l] H. apply in_edges_In in H. cbn [fst snd] in *. destruct H as [H ->]. exact (to_after _ _ TO _ _ _ E _ _ H). }
    destruct (take_deps pre base (in_edges g n) (pending g (pre ++ [n])) m [] NDp Hin) as (m' & deps & Ef & F & T').
    { intros v k Hv Hu. cbv beta in *. rewrite <- pending_snoc in * by auto. now apply T. }
    cbn [app] in Ef. cbn [plan_loop]. rewrite Ef. cbn [bind].
    assert (Cn : contains g n = true) by (apply (to_nodes _ _ TO); rewrite E; apply in_app_iff; right; now left).
    unfold contains in Cn. destruct (node g n) as [op|] eqn:En; [|discriminate].
    assert (Dec : op = FRetire \/ op <> FRetire) by (destruct op; auto; right; discriminate).
    destruct Dec as [->|Nr].
    + exists []. cbn [live]. rewrite En. cbn [length app]. unfold tailp. cbn [live]. rewrite En. cbn [length]. replace (0 =? S (length post)) with false by lia.
      split; auto. split; auto. intros [|k] x H; discriminate.
    + assert (E2 : order = (pre ++ [n]) ++ post) by (rewrite E, <- app_assoc; reflexivity).
      assert (T2 : tab (pre ++ [n]) base (pending g (pre ++ [n])) (tinsert m' n (base + length pre, length (out_edges g n)))).
      { intros v k Hv Hu. destruct (Nat.eq_dec v n) as [->|Nv].
        - rewrite tlookup_insert_same. rewrite (pending_new _ _ _ E). assert (k = length pre); [|congruence].
          destruct (Nat.lt_trichotomy k (length pre)) as [Lk|[Ek|Lk]]; auto.
          + rewrite nth_error_app1 in Hv by auto. apply nth_error_In in Hv. contradiction.
          + assert (k < length (pre ++ [n])) by (apply nth_error_Some; congruence). rewrite app_length in H. cbn in H. lia.
        - rewrite tlookup_insert_other by auto. apply T'; auto. destruct (le_lt_dec (length pre) k) as [Lk|Lk]; [|now rewrite nth_error_app1 in Hv by auto].
          rewrite nth_error_app2 in Hv by auto. destruct (k - length pre) as [|[|]]; cbn in Hv; try discriminate. congruence. }
      destruct (IH (pre ++ [n]) base _ E2 T2) as (p & Ep & Lp & Hp). rewrite app_length in Ep. cbn [length] in Ep. replace (base + (length pre + 1)) with (S (base + length pre)) in Ep by lia.
      exists (ITask h op deps :: p). assert (Lv : live g (n :: post) = n :: live g post) by (cbn [live]; rewrite En; destruct op; auto; congruence).
      assert (Tp : tailp h (n :: post) = tailp h post) by (unfold tailp; rewrite Lv; reflexivity).
      rewrite Tp, Lv. split; [destruct op; try congruence; rewrite Ep; reflexivity|]. split; [cbn [length]; lia|].
      intros [|k] x Hx; cbn [nth_error] in Hx.
      * injection Hx as <-. exists op, deps. split; auto. split; auto. split; auto. eapply F2_impl; [|exact F]. intros e d (j & Hj & ->). exists j. split; auto. rewrite E.
        rewrite nth_error_app1; auto. apply nth_error_Some. congruence.
      * exact (Hp k x Hx).
Qed.
Lemma plan_graph_ok : forall h base, exists p, plan_graph h g order base = Ok (p ++ tailp h order) /\ length p = length (live g order) /\
    forall k n, nth_error (live g order) k = Some n -> exists op deps, node g n = Some op /\ op <> FRetire /\
      nth_error p k = Some (ITask h op deps) /\ Forall2 (dep_of order base) (in_edges g n) deps.
Proof.
  intros h base. unfold plan_graph. destruct (plan_loop_ok h order [] base [] eq_refl) as (p & A & B); [intros v k Hv; destruct k; discriminate|].
  cbn [length] in A. rewrite Nat.add_0_r in A. eauto.
Qed.
Lemma live_prefix : forall ord, exists post, ord = live g ord ++ post.
Proof. induction ord as [|n ord [post IH]]; [exists []; reflexivity|]. cbn [live]. destruct (node g n) as [[]|]; try (exists post; cbn [app]; congruence). exists (n :: ord). reflexivity. Qed.
Lemma live_nth : forall k n, nth_error (live g order) k = Some n -> nth_error order k = Some n.
Proof. intros k n H. destruct (live_prefix order) as [post E]. rewrite E. rewrite nth_error_app1; auto. apply nth_error_Some. congruence. Qed.
(** Dependencies precede. *)
Lemma dep_before : forall base k n e d, nth_error order k = Some n -> In e (in_edges g n) -> dep_of order base e d -> exists j, j < k /\ nth_error order j = Some (fst (fst e)) /\ d = (base + j, snd e).
Proof.
  intros base k n [[a b] l] d Hk He (j & Hj & ->). cbn [fst snd] in *. apply in_edges_In in He. cbn [fst snd] in He. destruct He as [He ->].
  apply nth_error_split in Hk. destruct Hk as (pre & post & E & <-). pose proof (to_after _ _ TO _ _ _ E _ _ He) as Hp. apply In_nth_error in Hp. destruct Hp as [j' Hj'].
  assert (j' < length pre) by (apply nth_error_Some; congruence). assert (j = j'); [|subst; exists j'; auto].
  apply (proj1 (NoDup_nth_error order) (to_once _ _ TO)); [apply nth_error_Some; congruence|]. rewrite Hj, E, nth_error_app1; auto.
Qed.
End One.
