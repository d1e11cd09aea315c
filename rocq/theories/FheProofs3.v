(** Proofs: prune. *)
From Coq Require Import ZifyBool ZifyNat Permutation.
From Verif Require Import Base Graph MuxGraph FheGraph SpecFhe MuxGraphProofs FheProofs FheProofs2.
Open Scope nat_scope.

Lemma alookup_In : forall l k v, alookup l k = Some v -> In (k, v) l.
Proof. induction l as [|[a b] l IH]; intros k v H; cbn [alookup] in H; [discriminate|]. destruct (a =? k) eqn:E; [|right; auto]. injection H as ->. left. f_equal. lia. Qed.
Lemma alookup_NoDup : forall l k v, NoDup (map fst l) -> In (k, v) l -> alookup l k = Some v.
Proof.
  induction l as [|[a b] l IH]; intros k v ND H; [destruct H|]. cbn [map fst] in ND. inversion ND as [|? ? N1 N2]; subst. cbn [alookup].
  destruct H as [H|H].
  - injection H as -> ->. now rewrite Nat.eqb_refl.
  - destruct (a =? k) eqn:E; [|auto]. exfalso. apply N1. replace a with k by lia. apply in_map_iff. exists (k, v). auto.
Qed.
Lemma alookup_None : forall l k, alookup l k = None <-> ~ In k (map fst l).
Proof.
  induction l as [|[a b] l IH]; intros k; cbn [alookup map fst In]; [tauto|]. destruct (a =? k) eqn:E.
  - split; [discriminate|]. intros H. exfalso. apply H. left. lia.
  - rewrite IH. split; [|tauto]. intros H [H'|H']; [lia|tauto].
Qed.
Lemma alookup_Some : forall l k, In k (map fst l) <-> exists v, alookup l k = Some v.
Proof.
  intros l k. destruct (alookup l k) as [v|] eqn:E.
  - split; [eauto|]. intros _. apply alookup_In in E. apply in_map_iff. exists (k, v). auto.
  - apply alookup_None in E. split; [tauto|]. intros [v H]. discriminate.
Qed.

Lemma in_edges3 : forall (g : fgraph) n s t l, In (s, t, l) (in_edges g n) <-> In (s, t, l) (gedges g) /\ t = n.
Proof. intros. rewrite in_edges_spec. reflexivity. Qed.

Section P.
Context (g : fgraph) (roots : list nat) (EN : edges_ok g) (RC : forall r, In r roots -> contains g r = true).

Record inv (out : fgraph) (ren : list (nat * nat)) (queue : list nat) : Prop := {
  i_nodup : NoDup (map fst ren);
  i_snd : map snd ren = rev (seq 0 (size out));
  i_node : forall n m, In (n, m) ren -> node out m = node g n /\ contains g n = true;
  i_edges : gedges out = [];
  i_queue : forall q, In q queue -> contains g q = true /\ ancestor g roots q;
  i_anc : forall n, In n (map fst ren) -> ancestor g roots n;
  i_roots : forall r, In r roots -> In r (map fst ren) \/ In r queue }.
Definition closed (ren : list (nat * nat)) (queue : list nat) : Prop :=
  forall n, In n (map fst ren) -> In n queue \/ forall s l, In (s, n, l) (gedges g) -> In s (map fst ren).

Lemma inv_add : forall out ren queue n w, inv out ren queue -> node g n = Some w -> alookup ren n = None -> ancestor g roots n ->
  inv (snd (add_node out w)) ((n, fst (add_node out w)) :: ren) queue.
Proof.
  intros out ren queue n w I Hn Ha A. destruct I. rewrite add_node_extend. cbn [fst snd]. constructor; auto.
  - cbn [map fst]. constructor; auto. now apply alookup_None.
  - rewrite extend_size. cbn [length map snd]. rewrite Nat.add_1_r, seq_S, rev_app_distr, i_snd0. reflexivity.
  - intros n' m [H|H].
    + injection H as <- <-. split.
      * rewrite <- (Nat.add_0_r (size out)) at 1. rewrite extend_node_new. cbn. congruence.
      * unfold contains. now rewrite Hn.
    + destruct (i_node0 n' m H) as [H1 H2]. split; auto. rewrite extend_node_old; auto.
      assert (Hm : In m (map snd ren)) by (apply in_map_iff; exists (n', m); auto). rewrite i_snd0 in Hm. apply in_rev, in_seq in Hm. lia.
  - intros n' [<-|H]; auto.
  - intros r Hr. cbn [map fst In]. destruct (i_roots0 r Hr); auto.
Qed.

Lemma inv_queue : forall out ren queue n, inv out ren queue -> contains g n = true -> ancestor g roots n -> inv out ren (queue ++ [n]).
Proof.
  intros out ren queue n I C A. destruct I. constructor; auto.
  - intros q H. apply in_app_iff in H. destruct H as [H|[<-|[]]]; auto.
  - intros r Hr. rewrite in_app_iff. destruct (i_roots0 r Hr); auto.
Qed.

(** The loop over the predecessors of [cur]. *)
Lemma preds_loop : forall cur, ancestor g roots cur -> forall ps, (forall p, In p ps -> exists l, In (p, cur, l) (gedges g)) ->
  forall out ren queue, inv out ren queue ->
  (forall n, In n (map fst ren) -> n = cur \/ In n queue \/ forall s l, In (s, n, l) (gedges g) -> In s (map fst ren)) ->
  exists out' ren' queue', foldM (prune_pred g) ps (out, ren, queue) = Ok (out', ren', queue') /\ inv out' ren' queue' /\
    (forall n, In n (map fst ren') -> n = cur \/ In n queue' \/ forall s l, In (s, n, l) (gedges g) -> In s (map fst ren')) /\
    (forall p, In p ps -> In p (map fst ren')) /\ (forall n, In n (map fst ren) -> In n (map fst ren')) /\
    length queue' + length ren = length queue + length ren'.
Proof.
  intros cur A. induction ps as [|p ps IH]; intros HP out ren queue I Cl.
  - exists out, ren, queue. split; [reflexivity|]. split; [auto|]. split; [auto|]. split; [intros p []|]. auto.
  - cbn [foldM]. unfold prune_pred at 1. destruct (alookup ren p) as [v|] eqn:Ep.
    + cbn [bind]. destruct (IH (fun q Hq => HP q (or_intror Hq)) out ren queue I Cl) as (out' & ren' & queue' & E & I' & C' & P' & M' & L').
      exists out', ren', queue'. split; [auto|]. split; [auto|]. split; [auto|]. split; [|auto]. intros q [<-|Hq]; auto. apply M'. apply alookup_Some. eauto.
    + destruct (HP p (or_introl eq_refl)) as [l Hl]. assert (Cp : contains g p = true) by (apply (EN _ _ _ Hl)).
      assert (Ap : ancestor g roots p) by (eapply anc_step; eauto).
      destruct (node g p) as [w|] eqn:Ew; [|unfold contains in Cp; rewrite Ew in Cp; discriminate].
      assert (I1 := inv_queue _ _ _ p (inv_add _ _ _ p w I Ew Ep Ap) Cp Ap). rewrite add_node_extend in *. cbn [fst snd bind] in *.
      match type of I1 with inv ?o ?r ?qq => destruct (IH (fun q Hq => HP q (or_intror Hq)) o r qq I1) as (out' & ren' & queue' & E & I' & C' & P' & M' & L') end.
      { intros n [<-|Hn].
        - right. left. apply in_app_iff. right. now left.
        - destruct (Cl n Hn) as [H|[H|H]]; auto.
          + right. left. apply in_app_iff. auto.
          + right. right. intros s l' Hs. right. eapply H. eauto. }
      exists out', ren', queue'. split; [exact E|]. split; [exact I'|]. split; [exact C'|]. split; [|split].
      * intros q [<-|Hq]; auto. apply M'. now left.
      * intros n Hn. apply M'. now right.
      * cbn [length] in L'. rewrite app_length in L'. cbn [length] in L'. lia.
Qed.

Lemma keys_bound : forall out ren queue, inv out ren queue -> length ren <= size g.
Proof.
  intros out ren queue I. destruct I. rewrite <- (map_length fst), <- (seq_length (size g) 0). apply NoDup_incl_length; auto.
  intros n Hn. apply in_map_iff in Hn. destruct Hn as ([n' m] & <- & Hn). apply in_seq. split; [lia|]. cbn. apply contains_lt. now apply (i_node0 n' m).
Qed.

Lemma preds_spec : forall cur p, In p (preds g cur) <-> exists l, In (p, cur, l) (gedges g).
Proof.
  intros cur p. unfold preds. rewrite in_map_iff. split.
  - intros ([[s t] l] & E & H). cbn in E. subst s. apply in_edges3 in H. exists l. destruct H as [H ->]. auto.
  - intros [l H]. exists (p, cur, l). split; auto. apply in_edges3. auto.
Qed.

Lemma prune_loop_ok : forall fuel out ren queue, inv out ren queue -> closed ren queue -> length queue + size g <= fuel + length ren ->
  exists out' ren', prune_loop fuel g out ren queue = Ok (out', ren') /\ inv out' ren' [] /\ closed ren' [].
Proof.
  induction fuel as [|fuel IH]; intros out ren queue I Cl L.
  - destruct queue as [|q queue]; [cbn; eauto|]. exfalso. pose proof (keys_bound _ _ _ I). cbn [length] in L. lia.
  - destruct queue as [|cur queue]; [cbn; eauto|]. cbn [prune_loop].
    destruct (i_queue _ _ _ I cur (or_introl eq_refl)) as [C A].
    assert (S1 : exists out1 ren1, (match alookup ren cur with
                             | Some _ => Ok (out, ren)
                             | None => match node g cur with
                                       | Some w => let '(n, out') := add_node out w in Ok (out', (cur, n) :: ren)
                                       | None => Panic
                                       end
                             end) = Ok (out1, ren1) /\ inv out1 ren1 (cur :: queue) /\ In cur (map fst ren1) /\ length ren <= length ren1 /\
                             closed ren1 (cur :: queue)).
    { destruct (alookup ren cur) as [v|] eqn:Ec.
      - exists out, ren. split; [auto|]. split; [auto|]. split; [|auto]. apply alookup_Some. eauto.
      - destruct (node g cur) as [w|] eqn:Ew; [|unfold contains in C; rewrite Ew in C; discriminate].
        assert (I1 := inv_add _ _ _ cur w I Ew Ec A). rewrite add_node_extend in *. cbn [fst snd] in I1. eexists _, _. split; [reflexivity|].
        split; [exact I1|]. split; [now left|]. split; [cbn [length]; lia|]. intros n [<-|Hn]; [left; now left|]. destruct (Cl n Hn) as [H|H]; auto.
        right. intros s l Hs. right. eapply H. eauto. }
    destruct S1 as (out1 & ren1 & E1 & I1 & In1 & L1 & Cl1).
    match goal with |- context [bind ?X _] => change X with (match alookup ren cur with Some _ => Ok (out, ren) | None => match node g cur with Some w => let '(n, out') := add_node out w in Ok (out', (cur, n) :: ren) | None => Panic end end) end.
    unfold fgraph in *. rewrite E1. cbn [bind].
    assert (I2 : inv out1 ren1 queue).
    { destruct I1. constructor; auto. 2:{ intros r Hr. destruct (i_roots0 r Hr) as [H|[<-|H]]; auto. } intros q Hq. apply i_queue0. now right. }
    destruct (preds_loop cur A (preds g cur)) with (out := out1) (ren := ren1) (queue := queue) as (out2 & ren2 & queue2 & E2 & I3 & C3 & P3 & M3 & L3); auto.
    { intros p Hp. now apply preds_spec. }
    { intros n Hn. destruct (Cl1 n Hn) as [[<-|H]|H]; auto. }
    unfold fgraph in *. rewrite E2. cbn [bind]. apply IH; auto.
    + intros n Hn. destruct (C3 n Hn) as [->|[H|H]]; auto. right. intros s l Hs. apply P3. apply preds_spec. eauto.
    + cbn [length] in L. lia.
Qed.


Lemma inv0 : inv gempty [] roots.
Proof.
  constructor; cbn [map fst snd In].
  - constructor.
  - reflexivity.
  - intros n m [].
  - reflexivity.
  - intros q H. split; [now apply RC|now apply anc_root].
  - intros n [].
  - auto.
Qed.

Lemma prune_loop_top : exists out ren, prune_loop (length roots + length (gnodes g)) g gempty [] roots = Ok (out, ren) /\ inv out ren [] /\
  forall n, In n (map fst ren) <-> ancestor g roots n.
Proof.
  destruct (prune_loop_ok (length roots + length (gnodes g)) gempty [] roots inv0) as (out & ren & E & I & Cl).
  - intros n [].
  - unfold size. cbn [length]. lia.
  - exists out, ren. split; [auto|]. split; [auto|]. intros n. split; [now apply (i_anc _ _ _ I)|].
    intros A. induction A as [n Hn|s t l He A IH].
    + destruct (i_roots _ _ _ I n Hn) as [H|[]]; auto.
    + destruct (Cl t IH) as [[]|H]. eauto.
Qed.

(** The edges. *)
Lemma prune_edges_ok : forall ren es out, (forall s t l, In (s, t, l) es -> exists a b, alookup ren s = Some a /\ alookup ren t = Some b /\ contains out a = true /\ contains out b = true) ->
  foldM (fun out (e : nat * nat * fedge) =>
           match alookup ren (fst (fst e)), alookup ren (snd (fst e)) with
           | Some s, Some t => add_edge out s t (snd e)
           | _, _ => Panic
           end) es out = Ok (extend out [] (rev (map (emap (fren ren)) es))).
Proof.
  intros ren. induction es as [|[[s t] l] es IH]; intros out H.
  - cbn. destruct out. unfold extend. cbn. now rewrite app_nil_r.
  - cbn [foldM fst snd]. destruct (H s t l (or_introl eq_refl)) as (a & b & Ha & Hb & Ca & Cb). rewrite Ha, Hb. unfold add_edge. rewrite Ca, Cb. cbn [andb bind].
    rewrite IH.
    + f_equal. unfold extend. cbn [gnodes gedges rev map]. rewrite !app_nil_r, <- app_assoc. unfold emap at 3. cbn [fst snd app]. unfold fren at 3 4. now rewrite Ha, Hb.
    + intros s' t' l' Hi. apply (H s' t' l'). now right.
Qed.
Lemma prune_all_edges : forall ren ps out, (forall n m, In (n, m) ps -> forall s l, In (s, n, l) (gedges g) -> exists a b, alookup ren s = Some a /\ alookup ren n = Some b /\ contains out a = true /\ contains out b = true) ->
  foldM (prune_edges g ren) ps out = Ok (extend out [] (rev (flat_map (fun p => map (emap (fren ren)) (in_edges g (fst p))) ps))).
Proof.
  intros ren. induction ps as [|[n m] ps IH]; intros out H.
  - cbn. destruct out. unfold extend. cbn. now rewrite app_nil_r.
  - cbn [foldM flat_map fst]. unfold prune_edges at 1. rewrite prune_edges_ok.
    + cbn [bind]. rewrite IH, extend_extend.
      * now rewrite rev_app_distr.
      * intros n' m' Hi s l Hs. destruct (H n' m' (or_intror Hi) s l Hs) as (a & b & H1 & H2 & H3 & H4). exists a, b. split; [auto|]. split; [auto|]. split; now apply extend_contains.
    + cbn [fst]. intros s t l Hi. apply in_edges3 in Hi. destruct Hi as [Hi ->]. apply (H n m (or_introl eq_refl) s l Hi).
Qed.

Lemma filter_flat : forall (ren ps : list (nat * nat)) n, (forall a b, In a (map fst ren) -> In b (map fst ren) -> fren ren a = fren ren b -> a = b) ->
  NoDup (map fst ps) -> (forall k, In k (map fst ps) -> In k (map fst ren)) -> In n (map fst ren) ->
  filter (fun e => snd (fst e) =? fren ren n) (flat_map (fun p => map (emap (fren ren)) (in_edges g (fst p))) ps) =
  if existsb (Nat.eqb n) (map fst ps) then map (emap (fren ren)) (in_edges g n) else [].
Proof.
  intros ren ps n Inj. induction ps as [|[k m] ps IH]; intros ND Sub Hn; [reflexivity|].
  cbn [map fst] in ND. inversion ND as [|? ? N1 N2]; subst. cbn [flat_map map existsb fst]. rewrite filter_app, IH; auto.
  2:{ intros k' Hk. apply Sub. now right. }
  assert (T : forall e, In e (map (emap (fren ren)) (in_edges g k)) -> snd (fst e) = fren ren k).
  { intros e He. apply in_map_iff in He. destruct He as ([[s t] l] & <- & He). apply in_edges3 in He. destruct He as [_ ->]. reflexivity. }
  destruct (n =? k) eqn:E.
  - assert (n = k) by lia. subst k. cbn [orb]. replace (existsb (Nat.eqb n) (map fst ps)) with false.
    + rewrite app_nil_r. revert T. generalize (map (emap (fren ren)) (in_edges g n)). intros es T.
      induction es as [|e es IHe]; [reflexivity|]. cbn [filter]. rewrite (T e (or_introl eq_refl)), Nat.eqb_refl. f_equal. apply IHe. intros. apply T. now right.
    + symmetry. apply not_true_is_false. intros H. apply existsb_exists in H. destruct H as (x & Hx & Hx'). apply N1. replace n with x by lia. auto.
  - cbn [orb]. replace (filter _ (map (emap (fren ren)) (in_edges g k))) with (@nil (nat * nat * fedge)); [reflexivity|].
    symmetry. revert T. generalize (map (emap (fren ren)) (in_edges g k)). intros es T.
    induction es as [|e es IHe]; [reflexivity|]. cbn [filter]. rewrite (T e (or_introl eq_refl)).
    replace (fren ren k =? fren ren n) with false. { apply IHe. intros. apply T. now right. }
    symmetry. apply Nat.eqb_neq. intros H. apply Inj in H; auto; [lia|]. apply Sub. now left.
Qed.

Lemma prune_ok : forall order, (forall l, Permutation l (order l)) ->
  exists out ren, prune order g roots = Ok (out, ren) /\ edges_ok out /\
    (forall n, (exists m, alookup ren n = Some m) <-> ancestor g roots n) /\
    (forall m, contains out m = true <-> exists n, alookup ren n = Some m) /\
    (forall n n' m, alookup ren n = Some m -> alookup ren n' = Some m -> n = n') /\
    (forall n m, alookup ren n = Some m -> node out m = node g n /\ Permutation (in_edges out m) (map (emap (fren ren)) (in_edges g n))).
Proof.
  intros order HO. destruct prune_loop_top as (out & ren & E & I & A). unfold prune. rewrite E. cbn [bind].
  assert (Bnd : forall n m, In (n, m) ren -> contains out m = true).
  { intros n m H. destruct (i_node _ _ _ I n m H) as [H1 H2]. unfold contains in *. now rewrite H1. }
  assert (Lk : forall n, ancestor g roots n -> exists m, alookup ren n = Some m /\ contains out m = true).
  { intros n H. apply A in H. apply alookup_Some in H. destruct H as [m H]. exists m. split; auto. apply alookup_In in H. eauto. }
  assert (ND := i_nodup _ _ _ I).
  assert (NS : NoDup (map snd ren)) by (rewrite (i_snd _ _ _ I); apply NoDup_rev, seq_NoDup).
  assert (Inj : forall n n' m, alookup ren n = Some m -> alookup ren n' = Some m -> n = n').
  { intros n n' m H H'. apply alookup_In in H, H'. clear - NS H H'. induction ren as [|[a b] ren IH]; [destruct H|].
    cbn [map snd] in NS. inversion NS as [|? ? N1 N2]; subst. destruct H as [H|H]; destruct H' as [H'|H'].
    - congruence.
    - injection H as -> ->. exfalso. apply N1. apply in_map_iff. exists (n', m). auto.
    - injection H' as -> ->. exfalso. apply N1. apply in_map_iff. exists (n, m). auto.
    - auto. }
  rewrite prune_all_edges.
  2:{ intros n m Hi s l Hs. apply (Permutation_in (l' := ren)) in Hi; [|apply Permutation_sym, HO].
      assert (An : ancestor g roots n). { apply A. apply in_map_iff. exists (n, m). auto. }
      destruct (Lk n An) as (b & Hb & Cb). destruct (Lk s) as (a & Ha & Ca); [eapply anc_step; eauto|]. exists a, b. auto. }
  cbn [bind]. set (es := rev _). exists (extend out [] es), ren. split; [reflexivity|].
  assert (NO : forall m, node (extend out [] es) m = node out m).
  { intros m. unfold node, extend. cbn [gnodes map]. now rewrite app_nil_r. }
  assert (CO : forall m, contains (extend out [] es) m = contains out m) by (intros m; unfold contains; now rewrite NO).
  assert (Es : forall s t l, In (s, t, l) es -> contains out s = true /\ contains out t = true).
  { intros s t l H. unfold es in H. apply in_rev in H. apply in_flat_map in H. destruct H as ([n m] & Hp & H). apply in_map_iff in H. destruct H as ([[s0 t0] l0] & He & H).
    unfold emap in He. cbn [fst snd] in He, H. injection He as <- <- <-. apply in_edges3 in H. destruct H as [H ->].
    apply (Permutation_in (l' := ren)) in Hp; [|apply Permutation_sym, HO].
    assert (An : ancestor g roots n) by (apply A; apply in_map_iff; exists (n, m); auto).
    destruct (Lk n An) as (b & Hb & Cb). destruct (Lk s0) as (a & Ha & Ca); [eapply anc_step; eauto|]. unfold fren. rewrite Ha, Hb. auto. }
  split; [|split; [|split; [|split]]].
  - intros s t l H. unfold extend in H. cbn [gedges] in H. rewrite (i_edges _ _ _ I), app_nil_r in H. rewrite !CO. eauto.
  - intros n. rewrite <- A. symmetry. apply alookup_Some.
  - intros m. rewrite CO. split.
    + intros C. apply contains_lt in C. assert (H : In m (map snd ren)) by (rewrite (i_snd _ _ _ I), <- in_rev; apply in_seq; lia).
      apply in_map_iff in H. destruct H as ([n m'] & <- & H). exists n. now apply alookup_NoDup.
    + intros [n H]. apply alookup_In in H. eauto.
  - exact Inj.
  - intros n m H. assert (Hi := alookup_In _ _ _ H). rewrite NO. split; [now apply (i_node _ _ _ I)|].
    assert (F : fren ren n = m) by (unfold fren; now rewrite H).
    unfold in_edges at 1, extend. cbn [gedges]. rewrite (i_edges _ _ _ I), app_nil_r, <- F. unfold es.
    apply perm_trans with (filter (fun e => snd (fst e) =? fren ren n) (flat_map (fun p => map (emap (fren ren)) (in_edges g (fst p))) (order ren))).
    { generalize (flat_map (fun p : nat * nat => map (emap (fren ren)) (in_edges g (fst p))) (order ren)). intros es0.
      assert (PR : forall (f : nat * nat * fedge -> bool) (a b : list (nat * nat * fedge)), Permutation a b -> Permutation (filter f a) (filter f b)).
      { intros f a b P. induction P; cbn [filter]; repeat match goal with |- context [if ?x then _ else _] => destruct x end; auto; try constructor; auto. eapply perm_trans; eauto. }
      apply PR. apply Permutation_sym, Permutation_rev. }
    rewrite filter_flat.
    + replace (existsb (Nat.eqb n) (map fst (order ren))) with true; [apply Permutation_refl|]. symmetry. apply existsb_exists. exists n. split; [|lia].
      apply (Permutation_in (l := map fst ren)); [apply Permutation_map, HO|]. apply in_map_iff. exists (n, m). auto.
    + intros a b Ha Hb Hf. apply alookup_Some in Ha, Hb. destruct Ha as [x Ha], Hb as [y Hb]. unfold fren in Hf. rewrite Ha, Hb in Hf. subst y. eapply Inj; eauto.
    + apply (Permutation_NoDup (l := map fst ren)); [apply Permutation_map, HO|auto].
    + intros k Hk. apply (Permutation_in (l := map fst (order ren))); [apply Permutation_map, Permutation_sym, HO|exact Hk].
    + apply in_map_iff. exists (n, m). auto.
Qed.

Lemma prune_values : forall order out ren, (forall l, Permutation l (order l)) -> prune order g roots = Ok (out, ren) ->
  forall n m, alookup ren n = Some m -> forall deg cells o, fvalue deg cells g n o <-> fvalue deg cells out m o.
Proof.
  intros order out ren HO E n m Hm deg cells o. destruct (prune_ok order HO) as (out' & ren' & E' & _ & A & _ & _ & V). rewrite E' in E. injection E as -> ->.
  assert (F : m = fren ren n) by (unfold fren; now rewrite Hm).
  assert (Cl : forall n s t l, (exists m, alookup ren n = Some m) -> In (s, t, l) (in_edges g n) -> exists m, alookup ren s = Some m).
  { intros n0 s t l H He. apply A. apply A in H. apply in_edges3 in He. destruct He as [He ->]. eapply anc_step; eauto. }
  split; intros Hv.
  - rewrite F. apply (iso_value deg cells g out (fun n => exists m, alookup ren n = Some m)); eauto.
    intros n0 op [m0 H0] Hop. destruct (V n0 m0 H0) as [V1 V2]. unfold fren at 1 2. rewrite H0. split; [congruence|auto].
  - apply (iso_value_back deg cells g out (fun n => exists m, alookup ren n = Some m) (fren ren)); [|exact Cl|eauto|congruence].
    intros n0 [m0 H0]. destruct (V n0 m0 H0) as [V1 V2]. unfold fren at 1 2. rewrite H0. auto.
Qed.
End P.
