(** Proofs: insert_mux_circuit. *)
From Coq Require Import ZifyBool ZifyNat Permutation.
From Verif Require Import Base Graph MuxGraph SpecMux FheGraph SpecFhe MuxGraphProofs FheProofs FheProofs2 FheProofs3.
Open Scope nat_scope.

Lemma filter_perm : forall A (f : A -> bool) a b, Permutation a b -> Permutation (filter f a) (filter f b).
Proof. intros A f a b P. induction P; cbn [filter]; repeat match goal with |- context [if ?x then _ else _] => destruct x end; auto; try constructor; auto. eapply perm_trans; eauto. Qed.
Lemma filter_filter : forall A (f g : A -> bool) l, filter f (filter g l) = filter (fun x => g x && f x) l.
Proof. intros A f g. induction l as [|x l IH]; [reflexivity|]. cbn [filter]. destruct (g x); cbn [andb filter]; rewrite IH; reflexivity. Qed.

(** Grouping edges by source. *)
Lemma group_by : forall A (key : A -> nat) ks es, NoDup ks -> (forall e, In e es -> In (key e) ks) ->
  Permutation (flat_map (fun k => filter (fun e => key e =? k) es) ks) es.
Proof.
  intros A key ks es ND. induction es as [|e es IH]; intros H.
  - replace (flat_map _ ks) with (@nil A); [constructor|]. clear. induction ks; auto.
  - apply perm_trans with (e :: flat_map (fun k => filter (fun e => key e =? k) es) ks).
    + assert (Hk : In (key e) ks) by (apply H; now left). clear IH H. induction ks as [|k ks IH]; [destruct Hk|].
      inversion ND as [|? ? N1 N2]; subst. cbn [flat_map filter]. destruct (key e =? k) eqn:E.
      * cbn [app]. constructor. replace (flat_map (fun k => if key e =? k then e :: filter (fun e => key e =? k) es else filter (fun e => key e =? k) es) ks)
          with (flat_map (fun k => filter (fun e => key e =? k) es) ks); [apply Permutation_refl|].
        clear - N1 E. induction ks as [|k' ks IH]; [reflexivity|]. cbn [flat_map]. rewrite IH by (intros H; apply N1; now right).
        replace (key e =? k') with false; [reflexivity|]. symmetry. apply Nat.eqb_neq. intros H. apply N1. left. lia.
      * eapply perm_trans; [apply Permutation_app_head; apply IH; auto; destruct Hk; [lia|auto]|]. apply Permutation_sym, Permutation_middle.
    + constructor. apply IH. intros. apply H. now right.
Qed.

(** Phase 1: the copied nodes. *)
Definition op_of (mode : mux_mode) (w : option muxop) : option fop :=
  match w with Some MMux => Some (mode_mux mode) | Some MOne => Some (FOne (mode_ty mode)) | Some MZero => Some (FZero (mode_ty mode)) | _ => None end.
Definition copied (mc : mgraph) (n : nat) : bool := match node mc n with Some MMux | Some MOne | Some MZero => true | _ => false end.
Definition opz (mode : mux_mode) (mc : mgraph) (n : nat) : fop := match op_of mode (node mc n) with Some o => o | None => FNop end.

Lemma copied_op : forall mode mc n, copied mc n = match op_of mode (node mc n) with Some _ => true | None => false end.
Proof. intros. unfold copied, op_of. destruct (node mc n) as [[]|]; reflexivity. Qed.

Lemma copy_spec : forall mode mc ns ren h,
  fold_left (copy_node mode mc) ns (ren, h) =
  (rev (combine (filter (copied mc) ns) (seq (size h) (length (filter (copied mc) ns)))) ++ ren, extend h (map (opz mode mc) (filter (copied mc) ns)) []).
Proof.
  intros mode mc. induction ns as [|n ns IH]; intros ren h.
  - cbn. f_equal. destruct h. unfold extend. cbn. now rewrite app_nil_r.
  - cbn [fold_left filter]. unfold copy_node at 2. fold (op_of mode (node mc n)). pose proof (copied_op mode mc n) as C.
    destruct (op_of mode (node mc n)) as [o|] eqn:Eo; rewrite C.
    + rewrite add_node_extend, IH, extend_extend, extend_size. cbn [length seq combine rev map app]. rewrite Nat.add_1_r. f_equal.
      * now rewrite <- app_assoc.
      * unfold opz at 2. rewrite Eo. reflexivity.
    + apply IH.
Qed.

Lemma combine_seq_In : forall (l : list nat) a n m, In (n, m) (combine l (seq a (length l))) <-> exists k, nth_error l k = Some n /\ m = a + k.
Proof.
  induction l as [|x l IH]; intros a n m; cbn [length seq combine In].
  - split; [intros []|]. intros ([|k] & H & _); discriminate.
  - rewrite IH. split.
    + intros [H|(k & H1 & H2)]; [injection H as <- <-; exists 0; split; [auto|lia]|exists (S k); split; [auto|lia]].
    + intros ([|k] & H1 & H2); [left; cbn in H1; injection H1 as <-; f_equal; lia|right; exists k; split; [auto|lia]].
Qed.
Lemma map_fst_combine : forall A B (l : list A) (l' : list B), length l = length l' -> map fst (combine l l') = l.
Proof. induction l as [|x l IH]; intros [|y l'] H; try discriminate; [reflexivity|]. cbn. f_equal. auto. Qed.

Lemma node_indices_NoDup : forall N E (g : graph N E), NoDup (node_indices g).
Proof. intros. apply NoDup_filter, seq_NoDup. Qed.

Lemma set_nth_ok : forall A (l : list A) i x, i < length l -> exists l', set_nth l i x = Ok l' /\ length l' = length l /\ forall j, nth_error l' j = if j =? i then Some x else nth_error l j.
Proof.
  induction l as [|y l IH]; intros i x H; cbn [length] in H; [lia|]. destruct i as [|i]; cbn [set_nth].
  - exists (x :: l). split; [auto|]. split; [auto|]. intros [|j]; reflexivity.
  - destruct (IH i x) as (l' & -> & L & N); [lia|]. cbn [bind]. exists (y :: l'). split; [auto|]. split; [cbn; lia|]. intros [|j]; [reflexivity|]. cbn. apply N.
Qed.

Section I.
Context (h : fgraph) (mc : mgraph) (inputs hosts : list nat) (mode : mux_mode) (k : nat).
Context (EN : edges_ok h) (W : mux_wf mc) (D : diagram_shaped mc inputs k).
Context (LH : length hosts = length inputs).
Context (HG : forall x, In x hosts -> exists op, node h x = Some op /\ ggsw_source op = true).

Let cpl := filter (copied mc) (node_indices mc).
Let ren := rev (combine cpl (seq (size h) (length cpl))) ++ [].
Let ops := map (opz mode mc) cpl.

Lemma cpl_In : forall n, In n cpl <-> copied mc n = true.
Proof.
  intros n. unfold cpl. rewrite filter_In, node_indices_spec. split; [tauto|]. intros H. split; auto. unfold copied in H. unfold contains.
  destruct (node mc n); [reflexivity|discriminate].
Qed.
Lemma ren_keys : NoDup (map fst ren).
Proof.
  unfold ren. rewrite app_nil_r, map_rev, map_fst_combine by (now rewrite seq_length). apply NoDup_rev. unfold cpl. apply NoDup_filter, node_indices_NoDup.
Qed.
Lemma ren_spec : forall n m, alookup ren n = Some m <-> exists j, nth_error cpl j = Some n /\ m = size h + j.
Proof.
  intros n m. split.
  - intros H. apply alookup_In in H. unfold ren in H. rewrite app_nil_r in H. apply in_rev in H. now apply combine_seq_In.
  - intros H. apply alookup_NoDup; [apply ren_keys|]. unfold ren. rewrite app_nil_r. apply -> in_rev. now apply combine_seq_In.
Qed.
Lemma ren_some : forall n, copied mc n = true -> exists j, nth_error cpl j = Some n /\ alookup ren n = Some (size h + j) /\ fren ren n = size h + j /\ j < length cpl.
Proof.
  intros n H. apply cpl_In in H. apply In_nth_error in H. destruct H as [j H]. exists j. assert (R : alookup ren n = Some (size h + j)) by (apply ren_spec; eauto).
  split; [auto|]. split; [auto|]. split; [unfold fren; now rewrite R|]. apply nth_error_Some. congruence.
Qed.
Lemma ren_none : forall n, copied mc n = false -> alookup ren n = None.
Proof.
  intros n H. apply alookup_None. intros Hi. apply alookup_Some in Hi. destruct Hi as [v Hv]. apply ren_spec in Hv. destruct Hv as (j & Hj & _).
  apply nth_error_In in Hj. apply cpl_In in Hj. congruence.
Qed.
Lemma fren_inj : forall a b, copied mc a = true -> copied mc b = true -> fren ren a = fren ren b -> a = b.
Proof.
  intros a b Ha Hb Hf. destruct (ren_some a Ha) as (i & H1 & _ & H2 & _). destruct (ren_some b Hb) as (j & H3 & _ & H4 & _).
  assert (i = j) by lia. subst j. congruence.
Qed.
Lemma node_new : forall n es, copied mc n = true -> node (extend h ops es) (fren ren n) = Some (opz mode mc n).
Proof.
  intros n es H. destruct (ren_some n H) as (j & H1 & _ & H2 & _). rewrite H2, extend_node_new. unfold ops. rewrite nth_error_map, H1. reflexivity.
Qed.
Lemma new_contains : forall n es, copied mc n = true -> contains (extend h ops es) (fren ren n) = true.
Proof. intros. unfold contains. now rewrite node_new. Qed.

(** The image of an edge. *)
Definition mlab (l : medge) : fedge := match l with High => EHigh | Low => ELow | Select => ESel | OutEdge => EUnary end.
Definition src_of (s : nat) : nat := match node mc s with Some (MVar x) => nth x hosts 0 | _ => fren ren s end.
Definition phi (e : nat * nat * medge) : nat * nat * fedge := (src_of (fst (fst e)), fren ren (snd (fst e)), mlab (snd e)).
Definition keep (e : nat * nat * medge) : bool := copied mc (snd (fst e)).

Lemma edge_cases : forall s t l, In (s, t, l) (gedges mc) ->
  (copied mc s = true \/ exists x, node mc s = Some (MVar x) /\ nth_error inputs x = Some s) /\
  (copied mc t = true /\ node mc t = Some MMux /\ l <> OutEdge \/ copied mc t = false /\ (exists o, node mc t = Some (MOut o)) /\ l = OutEdge).
Proof.
  intros s t l H. destruct (wf_ends mc W _ _ _ H) as [Cs Ct]. pose proof (ds_edges _ _ _ D _ _ _ H) as De. apply contains_node in Cs, Ct. destruct Cs as [ws Cs], Ct as [wt Ct]. split.
  - unfold copied. rewrite Cs in *. destruct ws; try (now left). right. exists i. split; auto. now apply (ds_inputs _ _ _ D).
  - destruct wt.
    + exfalso. eapply (wf_source mc W t MOne); eauto; discriminate.
    + exfalso. eapply (wf_source mc W t MZero); eauto; discriminate.
    + left. unfold copied. rewrite Ct. split; [auto|]. split; [auto|]. apply (wf_mux mc W t Ct l). eauto.
    + exfalso. eapply (wf_source mc W t (MVar i)); eauto; discriminate.
    + right. unfold copied. rewrite Ct. split; [auto|]. split; [eauto|]. apply (wf_out mc W t i Ct l). eauto.
Qed.
Lemma host_contains : forall x s es, nth_error inputs x = Some s -> exists q, nth_error hosts x = Some q /\ nth x hosts 0 = q /\ contains h q = true /\ contains (extend h ops es) q = true.
Proof.
  intros x s es H. assert (Hx : x < length inputs) by (apply nth_error_Some; congruence). rewrite <- LH in Hx. apply nth_error_Some in Hx.
  destruct (nth_error hosts x) as [q|] eqn:Eq; [|congruence]. exists q. split; [auto|]. split; [now apply nth_error_nth|].
  destruct (HG q (nth_error_In _ _ Eq)) as (op & Hn & _). assert (contains h q = true) by (unfold contains; now rewrite Hn). split; [auto|]. now apply extend_contains.
Qed.
Lemma src_contains : forall s t l es, In (s, t, l) (gedges mc) -> contains (extend h ops es) (src_of s) = true.
Proof.
  intros s t l es H. destruct (edge_cases s t l H) as [[Hs|(x & Hx & Hi)] _]; unfold src_of.
  - unfold copied in Hs. destruct (node mc s) as [[]|] eqn:E; try discriminate; apply new_contains; unfold copied; now rewrite E.
  - rewrite Hx. destruct (host_contains x s es Hi) as (q & _ & -> & _ & C). exact C.
Qed.
Lemma map_edge_ok : forall l, l <> OutEdge -> map_edge l = Ok (mlab l).
Proof. intros [] H; try reflexivity. congruence. Qed.

(** Phase 2. *)
Lemma connect_input_edges : forall q s es, In s inputs -> (exists x, node mc s = Some (MVar x) /\ nth x hosts 0 = q) -> contains h q = true ->
  forall oe, (forall e, In e oe -> In e (gedges mc) /\ fst (fst e) = s) ->
  foldM (fun h (e : nat * nat * medge) =>
                     match alookup ren (snd (fst e)) with
                     | Some t => l <- map_edge (snd e) ;; add_edge h q t l
                     | None => Panic
                     end) oe (extend h ops es) = Ok (extend h ops (rev (map phi (filter keep oe)) ++ es)).
Proof.
  intros q s es Hs (x & Hx & Hq) Cq oe. revert es. induction oe as [|[[s' t] l] oe IH]; intros es H; [reflexivity|].
  cbn [foldM fst snd filter]. destruct (H (s', t, l) (or_introl eq_refl)) as [He Hs']. cbn [fst] in Hs'. subst s'.
  destruct (edge_cases s t l He) as [_ [(Ct & Mt & Nl)|(Ct & (o & Ot) & Nl)]].
  - destruct (ren_some t Ct) as (j & _ & R & F & _). rewrite R, map_edge_ok by auto. cbn [bind]. unfold keep at 1. cbn [fst snd]. rewrite Ct. cbn [map rev].
    unfold add_edge. rewrite (extend_contains h ops es q Cq). rewrite <- F, (new_contains t es Ct). cbn [andb bind].
    change {| gnodes := gnodes (extend h ops es); gedges := (q, fren ren t, mlab l) :: gedges (extend h ops es) |} with (extend h ops ((q, fren ren t, mlab l) :: es)).
    rewrite IH by (intros e He'; apply H; now right). f_equal. f_equal. rewrite <- app_assoc. cbn [app]. f_equal. f_equal. unfold phi, src_of. cbn [fst snd]. now rewrite Hx, Hq.
  - exfalso. pose proof (ds_edges _ _ _ D _ _ _ He) as De. rewrite Hx in De. congruence.
Qed.
Lemma connect_inputs_ok : forall ps es, (forall q s, In (q, s) ps -> exists x, nth_error hosts x = Some q /\ nth_error inputs x = Some s) ->
  foldM (connect_input mc ren) ps (extend h ops es) = Ok (extend h ops (rev (map phi (filter keep (flat_map (out_edges mc) (map snd ps)))) ++ es)).
Proof.
  induction ps as [|[q s] ps IH]; intros es H; [reflexivity|]. cbn [foldM map snd flat_map]. destruct (H q s (or_introl eq_refl)) as (x & Hq & Hi).
  assert (Nv : node mc s = Some (MVar x)) by (now apply (ds_inputs _ _ _ D)). unfold connect_input at 1. rewrite Nv.
  destruct (host_contains x s es Hi) as (q' & Hq' & Hq2 & Cq & Cq'). assert (q' = q) by congruence. rewrite H0 in *. clear H0.
  destruct (HG q (nth_error_In _ _ Hq)) as (op & Hop & Gop). rewrite (extend_node_old h ops es q (contains_lt h q Cq)). rewrite Hop, Gop.
  rewrite (connect_input_edges q s es).
  - cbn [bind]. rewrite IH.
    + rewrite filter_app, map_app, rev_app_distr, app_assoc. reflexivity.
    + intros q1 s1 Hi'. apply H. now right.
  - eapply nth_error_In; eauto.
  - eauto.
  - auto.
  - intros e He. now apply out_edges_spec.
Qed.

(** Phase 4. *)
Lemma connect_rest_edges : forall s es, copied mc s = true ->
  forall oe, (forall e, In e oe -> In e (gedges mc) /\ fst (fst e) = s) ->
  foldM (fun h (e : nat * nat * medge) =>
               match alookup ren (fst (fst e)) with
               | None => Panic
               | Some s => match alookup ren (snd (fst e)) with
                           | Some t => l <- map_edge (snd e) ;; add_edge h s t l
                           | None => Ok h
                           end
               end) oe (extend h ops es) = Ok (extend h ops (rev (map phi (filter keep oe)) ++ es)).
Proof.
  intros s es Cs oe. revert es. induction oe as [|[[s' t] l] oe IH]; intros es H; [reflexivity|].
  cbn [foldM fst snd filter]. destruct (H (s', t, l) (or_introl eq_refl)) as [He Hs']. cbn [fst] in Hs'. subst s'.
  destruct (ren_some s Cs) as (i & _ & Rs & Fs & _). rewrite Rs.
  destruct (edge_cases s t l He) as [_ [(Ct & Mt & Nl)|(Ct & (o & Ot) & Nl)]].
  - destruct (ren_some t Ct) as (j & _ & R & F & _). rewrite R, map_edge_ok by auto. cbn [bind]. unfold keep at 1. cbn [fst snd]. rewrite Ct. cbn [map rev].
    unfold add_edge. rewrite <- F, <- Fs, (new_contains t es Ct), (new_contains s es Cs). cbn [andb bind].
    change {| gnodes := gnodes (extend h ops es); gedges := (fren ren s, fren ren t, mlab l) :: gedges (extend h ops es) |} with (extend h ops ((fren ren s, fren ren t, mlab l) :: es)).
    rewrite IH by (intros e He'; apply H; now right). f_equal. f_equal. rewrite <- app_assoc. cbn [app]. f_equal. f_equal. unfold phi, src_of. cbn [fst snd].
    unfold copied in Cs. destruct (node mc s) as [[]|]; try discriminate; reflexivity.
  - rewrite (ren_none t Ct). cbn [bind]. unfold keep at 1. cbn [fst snd]. rewrite Ct. apply IH. intros e He'. apply H. now right.
Qed.
Lemma connect_rest_ok : forall ns es, (forall n, In n ns -> contains mc n = true) ->
  foldM (connect_rest mc ren) ns (extend h ops es) = Ok (extend h ops (rev (map phi (filter keep (flat_map (out_edges mc) (filter (copied mc) ns)))) ++ es)).
Proof.
  induction ns as [|n ns IH]; intros es H; [reflexivity|]. cbn [foldM filter]. assert (Cn : contains mc n = true) by (apply H; now left).
  assert (S1 : connect_rest mc ren (extend h ops es) n = Ok (extend h ops (if copied mc n then rev (map phi (filter keep (out_edges mc n))) ++ es else es))).
  { unfold connect_rest. destruct (copied mc n) eqn:Cp.
    - unfold copied in Cp. destruct (node mc n) as [w|] eqn:En; [|discriminate]. destruct w; try discriminate;
        (apply (connect_rest_edges n); [unfold copied; now rewrite En|intros e He; now apply out_edges_spec]).
    - unfold copied in Cp. unfold contains in Cn. destruct (node mc n) as [w|] eqn:En; [|discriminate]. destruct w; try discriminate; reflexivity. }
  rewrite S1. cbn [bind]. rewrite IH by (intros; apply H; now right). destruct (copied mc n); [|reflexivity].
  cbn [flat_map]. now rewrite filter_app, map_app, rev_app_distr, app_assoc.
Qed.

(** Phase 3: the outputs. *)
Lemma out_pred : forall n o, node mc n = Some (MOut o) -> exists e es, in_edges mc n = e :: es /\ In e (gedges mc) /\ snd (fst e) = n /\ snd e = OutEdge /\
  copied mc (fst (fst e)) = true.
Proof.
  intros n o H. destruct (proj2 (wf_out mc W n o H OutEdge) eq_refl) as [s Hs]. assert (Hi : In (s, n, OutEdge) (in_edges mc n)) by (apply in_edges_spec; auto).
  destruct (in_edges mc n) as [|e es] eqn:E; [destruct Hi|]. exists e, es. split; [auto|].
  assert (He : In e (in_edges mc n)) by (rewrite E; now left). apply in_edges_spec in He. destruct He as [He Ht]. split; [auto|]. split; [auto|].
  destruct e as [[s' t] l]. cbn [fst snd] in *. subst t. assert (l = OutEdge) by (apply (wf_out mc W n o H l); eauto). subst l. split; [auto|].
  destruct (edge_cases s' n OutEdge He) as [[Hc|(x & Hx & _)] _]; auto. exfalso. pose proof (ds_edges _ _ _ D _ _ _ He) as De. rewrite Hx in De. discriminate.
Qed.
Definition out_target (n : nat) : nat := match in_edges mc n with e :: _ => fren ren (fst (fst e)) | [] => 0 end.
Lemma connect_outputs_ok : forall ns outs, NoDup ns -> length outs = k ->
  exists outs', foldM (connect_output mc ren) ns outs = Ok outs' /\ length outs' = k /\
    (forall n o, In n ns -> node mc n = Some (MOut o) -> nth_error outs' o = Some (out_target n)) /\
    (forall o, (forall n, In n ns -> node mc n <> Some (MOut o)) -> nth_error outs' o = nth_error outs o).
Proof.
  induction ns as [|n ns IH]; intros outs ND L.
  - exists outs. cbn [foldM]. split; [auto|]. split; [auto|]. split; [intros n o []|auto].
  - apply NoDup_cons_iff in ND. destruct ND as [N1 N2]. cbn [foldM]. unfold connect_output at 1.
    assert (Skip : (forall o, node mc n <> Some (MOut o)) -> exists outs', foldM (connect_output mc ren) ns outs = Ok outs' /\ length outs' = length outs /\
      (forall n' o, In n' (n :: ns) -> node mc n' = Some (MOut o) -> nth_error outs' o = Some (out_target n')) /\
      (forall o, (forall n', In n' (n :: ns) -> node mc n' <> Some (MOut o)) -> nth_error outs' o = nth_error outs o)).
    { intros Hn. destruct (IH outs N2 L) as (outs' & E & L' & A & B). exists outs'. split; [auto|]. split; [lia|]. split.
      - intros n' o [<-|Hi] Ho; [now apply Hn in Ho|auto].
      - intros o Ho. apply B. intros n' Hi. apply Ho. now right. }
    rewrite L in Skip.
    destruct (node mc n) as [[]|] eqn:En; cbn [bind]; try (apply Skip; congruence).
    destruct (out_pred n i En) as (e & es & Ee & He & Hn & Hl & Hc). rewrite Ee. destruct (ren_some _ Hc) as (j & _ & R & F & _). rewrite R.
    assert (Hk : i < k) by (apply (ds_outs _ _ _ D); eauto). destruct (set_nth_ok _ outs i (size h + j)) as (outs1 & -> & L1 & S1); [lia|]. cbn [bind].
    destruct (IH outs1 N2) as (outs' & E & L' & A & B); [lia|]. exists outs'. split; [auto|]. split; [lia|]. split.
    + intros n' o [<-|Hi] Ho; [|auto]. assert (o = i) by congruence. subst o. rewrite B.
      * rewrite S1, Nat.eqb_refl. unfold out_target. rewrite Ee. congruence.
      * intros n' Hi Ho'. assert (n = n') by (eapply (ds_out_once _ _ _ D); eauto). subst n'. contradiction.
    + intros o Ho. rewrite B by (intros n' Hi; apply Ho; now right). rewrite S1. replace (o =? i) with false; [auto|]. symmetry. apply Nat.eqb_neq. intros ->. apply (Ho n); [now left|auto].
Qed.
Lemma out_count : length (filter (is_out mc) (node_indices mc)) = k.
Proof.
  set (L := filter (is_out mc) (node_indices mc)). assert (ND : NoDup L) by (apply NoDup_filter, node_indices_NoDup).
  set (num := fun n => match node mc n with Some (MOut o) => o | _ => 0 end).
  assert (P : Permutation (map num L) (seq 0 k)).
  { assert (HL : forall n, In n L <-> exists o, node mc n = Some (MOut o)).
    { intros n. unfold L, is_out. rewrite filter_In, node_indices_spec. unfold contains. destruct (node mc n) as [[]|]; split; intros H; try (destruct H; discriminate); try (destruct H; congruence); eauto. }
    apply NoDup_Permutation.
    - assert (Inj : forall a b, In a L -> In b L -> num a = num b -> a = b).
      { intros a b Ha Hb. apply HL in Ha, Hb. destruct Ha as [oa Ha], Hb as [ob Hb]. unfold num. rewrite Ha, Hb. intros ->. eapply (ds_out_once _ _ _ D); eauto. }
      clear HL. revert ND Inj. induction L as [|a L IH]; intros ND Inj; [constructor|]. inversion ND as [|? ? N1 N2]; subst. cbn [map]. constructor.
      + intros H. apply in_map_iff in H. destruct H as (b & Hb & Hi). apply N1. replace a with b; [auto|]. apply Inj; [now right|now left|auto].
      + apply IH; auto. intros x y Hx Hy. apply Inj; now right.
    - apply seq_NoDup.
    - intros o. rewrite in_map_iff, in_seq. split.
      + intros (n & Hn & Hi). apply HL in Hi. destruct Hi as [o' Ho']. unfold num in Hn. rewrite Ho' in Hn. subst o'. split; [lia|]. apply (ds_outs _ _ _ D). eauto.
      + intros [_ Ho]. apply (ds_outs _ _ _ D) in Ho. destruct Ho as [n Hn]. exists n. split; [unfold num; now rewrite Hn|]. apply HL. eauto. }
  apply Permutation_length in P. rewrite map_length, seq_length in P. exact P.
Qed.

(** The result. *)
Let order := flat_map (out_edges mc) (inputs ++ cpl).
Let es3 := rev (map phi (filter keep order)).
Let h3 := extend h ops es3.

Lemma inputs_NoDup : NoDup inputs.
Proof.
  apply NoDup_nth_error. intros i j Hi E. destruct (nth_error inputs i) as [n|] eqn:Ei; [|apply nth_error_Some in Ei; [destruct Ei|auto]].
  symmetry in E. apply (ds_inputs _ _ _ D) in Ei, E. congruence.
Qed.
Lemma order_perm : Permutation order (gedges mc).
Proof.
  unfold order. apply (group_by _ (fun e : nat * nat * medge => fst (fst e))).
  - assert (Disj : forall x, In x inputs -> ~ In x cpl).
    { intros x Hx Hc. apply In_nth_error in Hx. destruct Hx as [i Hx]. apply (ds_inputs _ _ _ D) in Hx. apply cpl_In in Hc. unfold copied in Hc. now rewrite Hx in Hc. }
    assert (N1 := inputs_NoDup). assert (N2 : NoDup cpl) by (apply NoDup_filter, node_indices_NoDup). revert N1 Disj. generalize inputs. intros l.
    induction l as [|a l IH]; intros N1 Disj; [exact N2|]. inversion N1 as [|? ? M1 M2]; subst. cbn [app]. constructor.
    + intros H. apply in_app_iff in H. destruct H as [H|H]; [auto|]. apply (Disj a); [now left|auto].
    + apply IH; auto. intros x Hx. apply Disj. now right.
  - intros [[s t] l] H. cbn [fst]. apply in_app_iff. destruct (edge_cases s t l H) as [[Hs|(x & _ & Hx)] _].
    + right. now apply cpl_In.
    + left. eapply nth_error_In; eauto.
Qed.
Lemma es3_In : forall s t l, In (s, t, l) es3 -> exists s0 t0 l0, In (s0, t0, l0) (gedges mc) /\ copied mc t0 = true /\ (s, t, l) = phi (s0, t0, l0).
Proof.
  intros s t l H. unfold es3 in H. apply in_rev in H. apply in_map_iff in H. destruct H as ([[s0 t0] l0] & He & H). apply filter_In in H. destruct H as [H K].
  exists s0, t0, l0. split; [eapply Permutation_in; [apply order_perm|exact H]|]. auto.
Qed.
Lemma h3_grows : grows h h3.
Proof.
  apply extend_grows; auto.
  - intros s t l H. apply es3_In in H. destruct H as (s0 & t0 & l0 & H & C & E). unfold phi in E. cbn [fst snd] in E. injection E as -> -> ->.
    destruct (ren_some t0 C) as (j & _ & _ & -> & _). lia.
  - intros s t l H. apply es3_In in H. destruct H as (s0 & t0 & l0 & H & C & E). unfold phi in E. cbn [fst snd] in E. injection E as -> -> ->.
    split; [eapply src_contains; eauto|now apply new_contains].
Qed.
Lemma h3_in : forall n, copied mc n = true -> Permutation (in_edges h3 (fren ren n)) (map phi (in_edges mc n)).
Proof.
  intros n C. assert (Hs : size h <= fren ren n) by (destruct (ren_some n C) as (j & _ & _ & -> & _); lia).
  unfold h3. rewrite extend_in_new by auto. unfold es3.
  apply perm_trans with (filter (fun e => snd (fst e) =? fren ren n) (map phi (filter keep (gedges mc)))).
  { apply filter_perm. eapply perm_trans; [apply Permutation_sym, Permutation_rev|]. apply Permutation_map, filter_perm, order_perm. }
  unfold in_edges. induction (gedges mc) as [|[[s t] l] es IH]; [constructor|]. cbn [filter fst snd]. unfold keep at 1. cbn [fst snd].
  destruct (copied mc t) eqn:Ct.
  - cbn [map filter]. unfold phi at 1. cbn [fst snd]. destruct (t =? n) eqn:E.
    + assert (t = n) by lia. subst t. rewrite Nat.eqb_refl. cbn [map]. constructor. exact IH.
    + replace (fren ren t =? fren ren n) with false; [exact IH|]. symmetry. apply Nat.eqb_neq. intros H. apply fren_inj in H; auto. lia.
  - destruct (t =? n) eqn:E; [|exact IH]. assert (t = n) by lia. subst t. congruence.
Qed.
(** An output that is not constant: its node tests one of the inputs. *)
Lemma out_select : forall n o v v', node mc n = Some (MOut o) -> value mc v n true -> value mc v' n false ->
  exists q, In q hosts /\ In (q, out_target n, ESel) (in_edges h3 (out_target n)).
Proof.
  intros n o v v' H V V'. destruct (out_pred n o H) as (e & es & Ee & He & Ht & Hl & C). unfold out_target. rewrite Ee. destruct e as [[r t] l]. cbn [fst snd] in *. subst t l.
  assert (U : forall r', In (r', n, OutEdge) (gedges mc) -> r' = r).
  { intros r' Hr'. pose proof (wf_once mc W) as ND. apply In_nth_error in He, Hr'. destruct He as [i Hi], Hr' as [j Hj].
    apply (map_nth_error (fun e => (snd (fst e), snd e))) in Hi as Hi'. apply (map_nth_error (fun e => (snd (fst e), snd e))) in Hj as Hj'. cbn [fst snd] in Hi', Hj'.
    assert (i = j); [|congruence]. eapply (proj1 (NoDup_nth_error _) ND); [apply nth_error_Some; congruence|congruence]. }
  assert (VR : forall w b, value mc w n b -> value mc w r b).
  { intros w b Hw. inversion Hw as [? ? ? N|? N|? N|? ? ? ? ? ? ? N|? ? m ? N Em Vm]; subst; try congruence. now rewrite <- (U m Em). }
  apply VR in V, V'. assert (M : node mc r = Some MMux).
  { unfold copied in C. destruct (node mc r) as [[]|] eqn:N; try discriminate; try reflexivity; exfalso; first [solve [inversion V; congruence]|solve [inversion V'; congruence]]. }
  destruct (proj2 (wf_mux mc W r M Select) ltac:(discriminate)) as [s Hs]. pose proof (ds_edges _ _ _ D _ _ _ Hs) as De.
  assert (exists x, node mc s = Some (MVar x)) as [x Hx]. { destruct (node mc s) as [[]|]; try (exfalso; now apply De); try contradiction; eauto. }
  exists (nth x hosts 0). apply (ds_inputs _ _ _ D) in Hx as Hx'. split.
  - apply nth_In. rewrite LH. apply nth_error_Some. congruence.
  - apply (Permutation_in _ (Permutation_sym (h3_in r C))). apply in_map_iff. exists (s, r, Select). split; [|apply in_edges_spec; auto].
    unfold phi, src_of. cbn [fst snd mlab]. now rewrite Hx.
Qed.

Context (deg : nat) (cells : cty -> nat -> ct) (ins : list bool).
Context (HC : forall x b, nth_error ins x = Some b -> exists q, nth_error hosts x = Some q /\ carries deg cells h q (CGgsw1 b)).

Lemma mux_in_edges : forall n s l t, node mc n = Some MMux -> In (s, n, Select) (gedges mc) -> In (l, n, Low) (gedges mc) -> In (t, n, High) (gedges mc) ->
  Permutation (in_edges mc n) [(s, n, Select); (l, n, Low); (t, n, High)].
Proof.
  intros n s l t Hn H1 H2 H3. apply NoDup_Permutation.
  - apply NoDup_filter. eapply NoDup_map_inv. exact (wf_once mc W).
  - repeat constructor; cbn; intuition congruence.
  - assert (U : forall a b x, In (a, n, x) (gedges mc) -> In (b, n, x) (gedges mc) -> a = b).
    { intros a b x Ha Hb. pose proof (wf_once mc W) as O. revert O Ha Hb. generalize (gedges mc). intros l0. induction l0 as [|[[s' t'] x'] es IH]; intros O Ha Hb; [destruct Ha|].
      cbn [map fst snd] in O. inversion O as [|? ? N1 N2]; subst. destruct Ha as [Ha|Ha]; destruct Hb as [Hb|Hb]; auto.
      - congruence.
      - exfalso. apply N1. injection Ha as -> -> ->. apply in_map_iff. exists (b, n, x). auto.
      - exfalso. apply N1. injection Hb as -> -> ->. apply in_map_iff. exists (a, n, x). auto. }
    intros [[a b] x]. rewrite in_edges_spec. cbn [fst snd In]. split.
    + intros [H ->]. assert (x <> OutEdge) by (apply (wf_mux mc W n Hn x); eauto). destruct x; [| | |congruence].
      * right. left. f_equal. f_equal. eapply U; eauto.
      * right. right. left. f_equal. f_equal. eapply U; eauto.
      * left. f_equal. f_equal. eapply U; eauto.
    + intros [H|[H|[H|[]]]]; injection H as <- <- <-; auto.
Qed.
Lemma mux_value : forall n b, value mc ins n b ->
  match node mc n with
  | Some (MVar x) => exists q, nth x hosts 0 = q /\ carries deg cells h3 q (CGgsw1 b)
  | Some (MOut o) => carries deg cells h3 (out_target n) (const_of deg mode b)
  | _ => carries deg cells h3 (fren ren n) (const_of deg mode b)
  end.
Proof.
  intros n b V. induction V as [n x b Hn Hx|n Hn|n Hn|n s l t bs bl bt Hn Hs Hl Ht Vs IHs Vl IHl Vt IHt|n o m b Hn Hm V IH]; rewrite Hn.
  - destruct (HC x b Hx) as (q & Hq & Cq). exists q. split; [now apply nth_error_nth|].
    destruct (HG q (nth_error_In _ _ Hq)) as (op & Hop & _). apply (proj2 h3_grows q); [unfold contains; now rewrite Hop|exact Cq].
  - assert (C : copied mc n = true) by (unfold copied; now rewrite Hn). apply (carries_node deg cells h3 _ (opz mode mc n)).
    + now apply node_new.
    + pose proof (h3_in n C) as P. replace (in_edges mc n) with (@nil (nat * nat * medge)) in P; [now apply Permutation_sym, Permutation_nil in P|].
      symmetry. destruct (in_edges mc n) as [|[[s t] l] es] eqn:E; [auto|]. exfalso. assert (H : In (s, t, l) (in_edges mc n)) by (rewrite E; now left).
      apply in_edges_spec in H. cbn [fst snd] in H. destruct H as [H ->]. eapply (wf_source mc W n MZero); eauto; discriminate.
    + unfold opz. rewrite Hn. destruct mode; reflexivity.
  - assert (C : copied mc n = true) by (unfold copied; now rewrite Hn). apply (carries_node deg cells h3 _ (opz mode mc n)).
    + now apply node_new.
    + pose proof (h3_in n C) as P. replace (in_edges mc n) with (@nil (nat * nat * medge)) in P; [now apply Permutation_sym, Permutation_nil in P|].
      symmetry. destruct (in_edges mc n) as [|[[s t] l] es] eqn:E; [auto|]. exfalso. assert (H : In (s, t, l) (in_edges mc n)) by (rewrite E; now left).
      apply in_edges_spec in H. cbn [fst snd] in H. destruct H as [H ->]. eapply (wf_source mc W n MOne); eauto; discriminate.
    + unfold opz. rewrite Hn. destruct mode; reflexivity.
  - assert (C : copied mc n = true) by (unfold copied; now rewrite Hn).
    assert (P : Permutation [phi (s, n, Select); phi (l, n, Low); phi (t, n, High)] (in_edges h3 (fren ren n))).
    { apply Permutation_sym. eapply perm_trans; [now apply h3_in|]. change [phi (s, n, Select); phi (l, n, Low); phi (t, n, High)] with (map phi [(s, n, Select); (l, n, Low); (t, n, High)]).
      apply Permutation_map. now apply mux_in_edges. }
    assert (Cs : carries deg cells h3 (src_of s) (CGgsw1 bs)).
    { pose proof (ds_edges _ _ _ D _ _ _ Hs) as De. unfold src_of. destruct (node mc s) as [[]|]; try congruence; try contradiction. destruct IHs as (q & -> & Cq). exact Cq. }
    assert (Arm : forall a x ba, In (a, n, x) (gedges mc) -> x <> Select ->
      match node mc a with Some (MVar y) => exists q, nth y hosts 0 = q /\ carries deg cells h3 q (CGgsw1 ba) | Some (MOut _) => carries deg cells h3 (out_target a) (const_of deg mode ba) | _ => carries deg cells h3 (fren ren a) (const_of deg mode ba) end ->
      carries deg cells h3 (src_of a) (const_of deg mode ba)).
    { intros a x ba Ha Nx IH. pose proof (ds_edges _ _ _ D _ _ _ Ha) as De. unfold src_of. destruct (node mc a) as [[]|]; try congruence; try contradiction; auto. }
    assert (Cl := Arm l Low bl Hl ltac:(discriminate) IHl). assert (Ct := Arm t High bt Ht ltac:(discriminate) IHt).
    assert (F : finputs deg cells h3 [phi (s, n, Select); phi (l, n, Low); phi (t, n, High)] [(ESel, Some (CGgsw1 bs)); (ELow, Some (const_of deg mode bl)); (EHigh, Some (const_of deg mode bt))]).
    { unfold phi. cbn [fst snd mlab]. econstructor; [exact Cs|]. econstructor; [exact Cl|]. econstructor; [exact Ct|]. constructor. }
    destruct (finputs_perm _ _ _ _ _ P _ F) as (ins' & P' & F').
    apply (fv_node deg cells h3 (fren ren n) (opz mode mc n) ins'); [now apply node_new|exact F'|].
    eapply exec_perm; [exact P'|]. unfold opz. rewrite Hn. cbn [op_of]. destruct mode, bs; reflexivity.
  - destruct (out_pred n o Hn) as (e & es & Ee & He & Het & Hel & Hc). destruct e as [[m' t] l]. cbn [fst snd] in *. subst t l.
    assert (m' = m).
    { pose proof (wf_once mc W) as O. revert O He Hm. generalize (gedges mc). intros l. induction l as [|[[s' t'] x'] es' IHe]; intros O Ha Hb; [destruct Ha|].
      cbn [map fst snd] in O. inversion O as [|? ? N1 N2]; subst. destruct Ha as [Ha|Ha]; destruct Hb as [Hb|Hb]; auto.
      - congruence.
      - exfalso. apply N1. injection Ha as -> -> ->. apply in_map_iff. exists (m, n, OutEdge). auto.
      - exfalso. apply N1. injection Hb as -> -> ->. apply in_map_iff. exists (m', n, OutEdge). auto. }
    subst m'. unfold out_target. rewrite Ee. cbn [fst snd]. unfold copied in Hc. destruct (node mc m) as [[]|]; try discriminate; exact IH.
Qed.
End I.

(** The operations an inserted circuit is made of. *)
Definition mode_op (mode : mux_mode) (op : fop) : Prop := op = mode_mux mode \/ op = FOne (mode_ty mode) \/ op = FZero (mode_ty mode).
Lemma insert_mux_ok'' : forall h mc inputs hosts mode k, edges_ok h -> mux_wf mc -> diagram_shaped mc inputs k -> length hosts = length inputs ->
  (forall x, In x hosts -> exists op, node h x = Some op /\ ggsw_source op = true) ->
  exists h' outs, insert_mux h mc inputs hosts mode = Ok (h', outs) /\ grows h h' /\ length outs = k /\ (forall m, In m outs -> exists op, node h' m = Some op /\ mode_op mode op) /\
    forall n o, node mc n = Some (MOut o) -> exists m, nth_error outs o = Some m /\
      (forall deg cells ins b, (forall x b, nth_error ins x = Some b -> exists q, nth_error hosts x = Some q /\ carries deg cells h q (CGgsw1 b)) ->
        value mc ins n b -> carries deg cells h' m (const_of deg mode b)) /\
      forall v v', value mc v n true -> value mc v' n false -> exists q, In q hosts /\ In (q, m, ESel) (in_edges h' m).
Proof.
  intros h mc inputs hosts mode k EN W D LH HG. unfold insert_mux. rewrite LH, Nat.eqb_refl. cbn [negb]. rewrite copy_spec.
  rewrite (connect_inputs_ok h mc inputs hosts mode k W D LH HG).
  2:{ intros q s H. apply In_nth_error in H. destruct H as [x H]. exists x. clear - H. revert inputs x H. induction hosts as [|a hosts IH]; intros inputs x H; [destruct x; discriminate|].
      destruct inputs as [|b inputs]; [destruct x; discriminate|]. destruct x as [|x]; [injection H as <- <-; auto|]. cbn. now apply IH. }
  cbn [bind]. rewrite (out_count h mc inputs hosts k D LH HG).
  destruct (connect_outputs_ok h mc inputs hosts k W D LH HG (node_indices mc) (repeat 0 k) (node_indices_NoDup _ _ _) (repeat_length _ _)) as (outs & -> & L & A & _).
  cbn [bind]. rewrite (connect_rest_ok h mc inputs hosts mode k W D).
  2:{ intros n Hn. now apply node_indices_spec. }
  cbn [bind]. rewrite app_nil_r.
  replace (map snd (combine hosts inputs)) with inputs.
  2:{ clear - LH. revert inputs LH. induction hosts as [|a hosts IH]; intros [|b inputs] LH; try discriminate; [reflexivity|]. cbn. f_equal. apply IH. now injection LH. }
  rewrite <- rev_app_distr, <- map_app, <- filter_app, <- flat_map_app.
  eexists _, _. split; [reflexivity|]. split; [exact (h3_grows h mc inputs hosts mode k EN W D LH HG)|]. split; [exact L|]. split.
  { intros m Hm. apply In_nth_error in Hm. destruct Hm as [o Ho]. assert (Hk : o < k) by (rewrite <- L; apply nth_error_Some; congruence).
    apply (ds_outs _ _ _ D) in Hk. destruct Hk as [n Hn]. rewrite (A n o) in Ho; [|apply node_indices_spec; unfold contains; now rewrite Hn|exact Hn].
    injection Ho as <-. destruct (out_pred mc inputs k W D n o Hn) as (e & es' & Ee & _ & _ & _ & Cp). unfold out_target. rewrite Ee. exists (opz mode mc (fst (fst e))). split; [now apply node_new|].
    unfold copied in Cp. unfold opz, op_of, mode_op. destruct (node mc (fst (fst e))) as [[]|]; try discriminate; auto. }
  intros n o Hn. exists (out_target h mc n). split.
  - apply A; auto. apply node_indices_spec. unfold contains. now rewrite Hn.
  - split; [|intros v v' V V'; exact (out_select h mc inputs hosts mode k EN W D LH HG n o v v' Hn V V')]. intros deg cells ins b HC V. pose proof (mux_value h mc inputs hosts mode k EN W D LH HG deg cells ins HC n b V) as M. rewrite Hn in M. exact M.
Qed.
Lemma insert_mux_ok' : forall h mc inputs hosts mode k, edges_ok h -> mux_wf mc -> diagram_shaped mc inputs k -> length hosts = length inputs ->
  (forall x, In x hosts -> exists op, node h x = Some op /\ ggsw_source op = true) ->
  exists h' outs, insert_mux h mc inputs hosts mode = Ok (h', outs) /\ grows h h' /\ length outs = k /\ (forall m, In m outs -> contains h' m = true) /\
    forall n o, node mc n = Some (MOut o) -> exists m, nth_error outs o = Some m /\
      forall deg cells ins b, (forall x b, nth_error ins x = Some b -> exists q, nth_error hosts x = Some q /\ carries deg cells h q (CGgsw1 b)) ->
        value mc ins n b -> carries deg cells h' m (const_of deg mode b).
Proof.
  intros h mc inputs hosts mode k EN W D LH HG. destruct (insert_mux_ok'' h mc inputs hosts mode k EN W D LH HG) as (h' & outs & E & G & L & C & V). exists h', outs. split; [exact E|]. split; [exact G|]. split; [exact L|]. split; [intros m Hm; destruct (C m Hm) as (op & Hop & _); unfold contains; now rewrite Hop|].
  intros n o Hn. destruct (V n o Hn) as (m & Hm & Vm & _). eauto.
Qed.
Lemma insert_mux_ok : forall h mc inputs hosts mode k, edges_ok h -> mux_wf mc -> diagram_shaped mc inputs k -> length hosts = length inputs ->
  (forall x, In x hosts -> exists op, node h x = Some op /\ ggsw_source op = true) ->
  exists h' outs, insert_mux h mc inputs hosts mode = Ok (h', outs) /\ grows h h' /\ length outs = k /\
    forall n o, node mc n = Some (MOut o) -> exists m, nth_error outs o = Some m /\
      forall deg cells ins b, (forall x b, nth_error ins x = Some b -> exists q, nth_error hosts x = Some q /\ carries deg cells h q (CGgsw1 b)) ->
        value mc ins n b -> carries deg cells h' m (const_of deg mode b).
Proof.
  intros h mc inputs hosts mode k EN W D LH HG. destruct (insert_mux_ok' h mc inputs hosts mode k EN W D LH HG) as (h' & outs & E & G & L & _ & V). eauto 10.
Qed.
