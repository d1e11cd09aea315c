(** Proofs about transform lists and forward_traverse_mut. *)
From Coq Require Import Permutation.
From Verif Require Import Base Alu AluProofs Graph MuxGraph SpecMux MuxGraphProofs MuxGraphProofs2 MuxEval MuxEvalProofs Transforms SpecTransforms.
Open Scope nat_scope.

Section P.
Context {N E : Type}.
Implicit Types (g : sgraph N E) (ts : list (gtransform N E)) (h : history N E).

Lemma edge_preds g a b : edge g a b <-> In a (preds (sg g) b).
Proof.
  unfold edge, preds. rewrite in_map_iff. split.
  - intros [l H]. exists (a, b, l). split; [reflexivity|]. apply in_edges_spec. split; [exact H|reflexivity].
  - intros (((s, t), l) & E1 & H). apply in_edges_spec in H as [H H2]. cbn in *. subst. now exists l.
Qed.
Lemma edge_succs g a b : edge g a b <-> In b (succs (sg g) a).
Proof. rewrite edge_preds. symmetry. apply succs_preds. Qed.
Lemma no_preds g b : preds (sg g) b = [] <-> forall m, ~ edge g m b.
Proof.
  split; intros H; [intros m Hm; apply edge_preds in Hm; rewrite H in Hm; destruct Hm|].
  destruct (preds (sg g) b) as [|m l] eqn:P; [reflexivity|]. destruct (H m). apply edge_preds. rewrite P. now left.
Qed.
Lemma has_node g x : has g x <-> exists w, node (sg g) x = Some w.
Proof. unfold has. apply contains_node. Qed.

(** ** the single operations *)
Lemma node_fill (l : list (option N)) es i w x : i < length l -> node {| gnodes := fill l i w; gedges := es |} x =
  if x =? i then Some w else node (E:=E) {| gnodes := l; gedges := es |} x.
Proof.
  intros Hi. unfold node, fill; cbn [gnodes]. destruct (x =? i) eqn:E1.
  - apply Nat.eqb_eq in E1 as ->. rewrite nth_error_app2; rewrite firstn_length, Nat.min_l by lia; [|lia]. now rewrite Nat.sub_diag.
  - apply Nat.eqb_neq in E1. destruct (Nat.lt_ge_cases x i) as [L|L].
    + rewrite nth_error_app1 by (rewrite firstn_length, Nat.min_l; lia). now rewrite nth_error_firstn'.
    + rewrite nth_error_app2; rewrite firstn_length, Nat.min_l by lia; [|lia]. replace (x - i) with (S (x - S i)) by lia. cbn [nth_error]. rewrite nth_error_skipn'.
      replace (S i + (x - S i)) with x by lia. reflexivity.
Qed.
Lemma fill_length (l : list (option N)) i w : i < length l -> length (fill l i w) = length l.
Proof. intros H. unfold fill. rewrite app_length. cbn [length]. rewrite firstn_length, skipn_length. lia. Qed.

Lemma add_node_ok g w : well_formed g -> exists i g', sg_add_node g w = (i, g') /\ well_formed g' /\ ~ has g i /\ gedges (sg g') = gedges (sg g) /\
  (forall x, node (sg g') x = if x =? i then Some w else node (sg g) x) /\ (i = length (gnodes (sg g)) \/ In i (sfree g)) /\ incl (sfree g') (sfree g).
Proof.
  intros [W1 [W2 W3]]. unfold sg_add_node. destruct (sfree g) as [|i f] eqn:F.
  - unfold add_node. set (i := length (gnodes (sg g))). eexists _, _. split; [reflexivity|].
    assert (Nd : forall x, node {| gnodes := gnodes (sg g) ++ [Some w]; gedges := gedges (sg g) |} x = if x =? i then Some w else node (sg g) x).
    { intros x. unfold node; cbn [gnodes]. destruct (x =? i) eqn:E1.
      - apply Nat.eqb_eq in E1 as ->. unfold i. rewrite nth_error_app2 by lia. now rewrite Nat.sub_diag.
      - apply Nat.eqb_neq in E1. destruct (Nat.lt_ge_cases x i) as [L|L]; [now rewrite nth_error_app1|].
        replace (nth_error (gnodes (sg g) ++ [Some w]) x) with (@None (option N)); [replace (nth_error (gnodes (sg g)) x) with (@None (option N)); [reflexivity|]|]; symmetry; apply nth_error_None; [exact L|].
        rewrite app_length; cbn [length]. fold i. lia. }
    assert (Hni : ~ has g i).
    { intros H. apply has_node in H as [v H]. apply node_lt in H. unfold i in H. lia. }
    split; [|split; [exact Hni|split; [reflexivity|split; [exact Nd|split; [now left|intros x []]]]]].
    constructor; cbn [sg sfree].
    + intros a b [l H]. destruct (W1 a b) as [A B]; [now exists l|]. unfold has. split; apply contains_node; cbn [sg]; rewrite Nd.
      * destruct (a =? i); [eauto|]. now apply has_node.
      * destruct (b =? i); [eauto|]. now apply has_node.
    + split; [constructor|]. intros j [].
  - destruct (W3 i ltac:(now left)) as [L Hi]. eexists _, _. split; [reflexivity|].
    assert (Nd : forall x, node {| gnodes := fill (gnodes (sg g)) i w; gedges := gedges (sg g) |} x = if x =? i then Some w else node (sg g) x).
    { intros x. rewrite node_fill by exact L. destruct (x =? i); [reflexivity|]. now destruct (sg g). }
    split; [|split; [exact Hi|split; [reflexivity|split; [exact Nd|split; [right; now left|intros x Hx; now right]]]]].
    inversion W2 as [|? ? W4 W5]; subst. constructor; cbn [sg sfree].
    + intros a b [l H]. destruct (W1 a b) as [A B]; [now exists l|]. unfold has. split; apply contains_node; cbn [sg]; rewrite Nd.
      * destruct (a =? i); [eauto|]. now apply has_node.
      * destruct (b =? i); [eauto|]. now apply has_node.
    + split; [exact W5|]. intros j Hj. destruct (W3 j ltac:(now right)) as [A B]. cbn [gnodes]. rewrite fill_length by exact L. split; [exact A|].
      intros H. apply contains_node in H as [v H]. cbn [sg] in H. rewrite Nd in H. destruct (j =? i) eqn:E1; [apply Nat.eqb_eq in E1; subst; contradiction|]. apply B, has_node. eauto.
Qed.
Lemma add_edge_ok' g a b l : well_formed g -> has g a -> has g b -> exists g', sg_add_edge g a b l = Ok g' /\ well_formed g' /\
  gedges (sg g') = (a, b, l) :: gedges (sg g) /\ (forall x, node (sg g') x = node (sg g) x) /\ sfree g' = sfree g /\ length (gnodes (sg g')) = length (gnodes (sg g)).
Proof.
  intros [W1 W2] Ha Hb. unfold sg_add_edge, add_edge. unfold has in Ha, Hb. rewrite Ha, Hb. cbn [andb bind]. eexists. split; [reflexivity|].
  split; [|split; [reflexivity|split; [reflexivity|split; reflexivity]]]. constructor.
  - intros x y [l' [H|H]]; [injection H as <- <- <-; split; assumption|]. apply (W1 x y). now exists l'.
  - exact W2.
Qed.
Lemma add_edge_inv g a b l g' : sg_add_edge g a b l = Ok g' -> has g a /\ has g b.
Proof. unfold sg_add_edge, add_edge, has. destruct (contains (sg g) a), (contains (sg g) b); cbn [andb bind]; intros; try discriminate. auto. Qed.

Lemma cut_edge_spec : forall (es : list (nat * nat * E)) a b, match cut_edge es a b with
  | Some es' => exists l l1 l2, es = l1 ++ (a, b, l) :: l2 /\ es' = l1 ++ l2 /\ forall l', ~ In (a, b, l') l1
  | None => forall l, ~ In (a, b, l) es end.
Proof.
  induction es as [|[[x y] v] es IH]; intros a b; cbn [cut_edge]; [intros l []|]. cbn [fst snd]. destruct ((x =? a) && (y =? b)) eqn:E1.
  - apply andb_true_iff in E1 as [A B]. apply Nat.eqb_eq in A, B. subst. exists v, [], es. split; [reflexivity|]. split; [reflexivity|]. intros l' [].
  - specialize (IH a b). assert (Ne : forall l, (x, y, v) <> (a, b, l)) by (intros l K; injection K as -> -> _; rewrite !Nat.eqb_refl in E1; discriminate).
    destruct (cut_edge es a b) as [es'|]; cbn [option_map].
    + destruct IH as (l & l1 & l2 & -> & -> & H). exists l, ((x, y, v) :: l1), l2. split; [reflexivity|]. split; [reflexivity|]. intros l' [K|K]; [now apply (Ne l')|now apply (H l')].
    + intros l [K|K]; [now apply (Ne l)|now apply (IH l)].
Qed.
Lemma remove_edge_ok g a b : well_formed g -> (edge g a b -> exists g' l l1 l2, sg_remove_edge g a b = Ok g' /\ well_formed g' /\ gnodes (sg g') = gnodes (sg g) /\ sfree g' = sfree g /\
    gedges (sg g) = l1 ++ (a, b, l) :: l2 /\ gedges (sg g') = l1 ++ l2 /\ forall l', ~ In (a, b, l') l1) /\ (~ edge g a b -> sg_remove_edge g a b = Panic).
Proof.
  intros [W1 W2]. unfold sg_remove_edge. pose proof (cut_edge_spec (gedges (sg g)) a b) as C. destruct (cut_edge (gedges (sg g)) a b) as [es|].
  - destruct C as (l & l1 & l2 & E1 & -> & H). split; [|intros K; exfalso; apply K; exists l; rewrite E1; apply in_or_app; right; now left].
    intros _. eexists _, l, l1, l2. split; [reflexivity|]. split; [|repeat (split; [first [reflexivity|exact E1]|]); exact H].
    constructor; [|exact W2]. intros x y [v K]. apply (W1 x y). exists v. rewrite E1. cbn [gedges sg] in K. apply in_app_or in K. apply in_or_app. cbn [In]. tauto.
  - split; [intros [l K]; exfalso; now apply (C l)|reflexivity].
Qed.

Lemma remove_node_ok g n : well_formed g -> has g n -> well_formed (sg_remove_node g n) /\
  (forall x, node (sg (sg_remove_node g n)) x = if x =? n then None else node (sg g) x) /\
  gedges (sg (sg_remove_node g n)) = filter (fun e => negb (fst (fst e) =? n) && negb (snd (fst e) =? n)) (gedges (sg g)).
Proof.
  intros [W1 [W2 W3]] Hn. unfold sg_remove_node. unfold has in Hn. rewrite Hn. cbn [sg].
  assert (Nd : forall x, node (remove_node (sg g) n) x = if x =? n then None else node (sg g) x).
  { intros x. apply node_remove. }
  split; [|split; [exact Nd|reflexivity]]. constructor; cbn [sg sfree].
  - intros a b [l H]. cbn [sg] in H. unfold remove_node in H; cbn [gedges] in H. apply filter_In in H as [H K]. cbn in K. apply andb_true_iff in K as [A B].
    apply negb_true_iff in A, B. destruct (W1 a b) as [Ha Hb]; [now exists l|]. unfold has; cbn [sg]. split; apply contains_node; rewrite Nd; [rewrite A|rewrite B]; now apply has_node.
  - assert (Ln : length (gnodes (remove_node (sg g) n)) = length (gnodes (sg g))).
    { unfold remove_node; cbn [gnodes]. rewrite map_length, combine_length, seq_length. lia. }
    split; [constructor; [|exact W2]; intros H; now apply W3 in H|].
    intros i [<- |Hi].
    + split; [rewrite Ln; apply contains_node in Hn as [w Hw]; eapply node_lt, Hw|]. intros H. apply contains_node in H as [w H]. cbn [sg] in H. rewrite Nd, Nat.eqb_refl in H. discriminate.
    + destruct (W3 i Hi) as [A B]. split; [now rewrite Ln|]. intros H. apply contains_node in H as [w H]. cbn [sg] in H. rewrite Nd in H. destruct (i =? n); [discriminate|]. apply B, has_node. eauto.
Qed.

(** ** transform lists *)
Lemma apply_one_wf g ids t g' i : well_formed g -> apply_one g ids t = Ok (g', i) -> well_formed g'.
Proof.
  intros W. destruct t as [a b l|w|n|a b]; cbn [apply_one].
  - destruct (materialize ids a) as [x| |], (materialize ids b) as [y| |]; cbn [bind]; try discriminate. destruct (sg_add_edge g x y l) as [g2| |] eqn:A; cbn [bind]; try discriminate.
    intros K; injection K as <- _. destruct (add_edge_inv _ _ _ _ _ A) as [Hx Hy]. destruct (add_edge_ok' g x y l W Hx Hy) as (g3 & E3 & W3 & _). congruence.
  - destruct (add_node_ok g w W) as (j & g2 & -> & W2 & _). intros K; injection K as <- _. exact W2.
  - destruct (materialize ids n) as [x| |]; cbn [bind]; try discriminate. intros K; injection K as <- _. destruct (contains (sg g) x) eqn:C.
    + now apply remove_node_ok.
    + unfold sg_remove_node. now rewrite C.
  - destruct (materialize ids a) as [x| |], (materialize ids b) as [y| |]; cbn [bind]; try discriminate. destruct (sg_remove_edge g x y) as [g2| |] eqn:A; cbn [bind]; try discriminate.
    intros K; injection K as <- _. pose proof (cut_edge_spec (gedges (sg g)) x y) as C. unfold sg_remove_edge in A. destruct (cut_edge (gedges (sg g)) x y) as [es|] eqn:CE; [|discriminate].
    destruct C as (l & l1 & l2 & E1 & E2 & _). destruct (remove_edge_ok g x y W) as [R _]. destruct R as (g3 & _ & _ & _ & E3 & W3 & _); [exists l; rewrite E1; apply in_or_app; right; now left|].
    unfold sg_remove_edge in E3. rewrite CE in E3. congruence.
Qed.
Lemma apply_loop_wf : forall ts g ids added g' ids' added', well_formed g -> apply_loop ts g ids added = Ok (g', ids', added') -> well_formed g'.
Proof.
  induction ts as [|t ts IH]; intros g ids added g' ids' added' W H; cbn [apply_loop] in H; [injection H as <- _ _; exact W|].
  destruct (apply_one g ids t) as [[g2 i]| |] eqn:A; cbn [bind] in H; try discriminate. eapply IH; [|exact H]. eapply apply_one_wf; eassumption.
Qed.
Lemma apply_wf ts g g' added : well_formed g -> apply ts g = Ok (g', added) -> well_formed g'.
Proof.
  intros W H. unfold apply in H. destruct (apply_loop ts g [] []) as [[[g2 ids] ad]| |] eqn:A; cbn [bind] in H; try discriminate. injection H as <- _. eapply apply_loop_wf; eassumption.
Qed.

(** inserted_node_ids after the transforms [pre]: the added nodes at the positions of the [GAddNode]s. *)
Fixpoint ids_of ts (added : list nat) : list (option nat) :=
  match ts with
  | [] => []
  | t :: ts => if adds t then match added with x :: added => Some x :: ids_of ts added | [] => None :: ids_of ts [] end else None :: ids_of ts added
  end.
Lemma ids_of_length ts : forall added, length (ids_of ts added) = length ts.
Proof. induction ts as [|t ts IH]; intros added; cbn [ids_of length]; [reflexivity|]. destruct (adds t); [destruct added|]; cbn [length]; now rewrite IH. Qed.
Lemma ids_of_snoc : forall ts added t, length added = length (filter adds ts) ->
  (adds t = false -> ids_of (ts ++ [t]) added = ids_of ts added ++ [None]) /\ (adds t = true -> forall x, ids_of (ts ++ [t]) (added ++ [x]) = ids_of ts added ++ [Some x]).
Proof.
  induction ts as [|u ts IH]; intros added t L; cbn [app ids_of filter] in *.
  - cbn [length] in L. apply length_zero_iff_nil in L as ->. split; intros ->; [reflexivity|]. intros x. reflexivity.
  - destruct (adds u) eqn:A; cbn [length] in L.
    + destruct added as [|y added]; [discriminate|]. cbn [length] in L. destruct (IH added t ltac:(lia)) as [P Q]. cbn [app]. split; intros Ht; [now rewrite P|]. intros x. now rewrite Q.
    + destruct (IH added t L) as [P Q]. split; intros Ht; [now rewrite P|]. intros x. now rewrite Q.
Qed.
Lemma ids_of_nth : forall ts added d, length added = length (filter adds ts) -> forall w, nth_error ts d = Some (GAddNode w) ->
  exists x, nth_error added (length (filter adds (firstn d ts))) = Some x /\ nth_error (ids_of ts added) d = Some (Some x).
Proof.
  induction ts as [|u ts IH]; intros added d L w H; [destruct d; discriminate|]. cbn [filter ids_of] in *. destruct d as [|d]; cbn [nth_error firstn filter] in *.
  - injection H as ->. cbn [adds] in *. cbn [length] in L. destruct added as [|y added]; [discriminate|]. exists y. split; reflexivity.
  - destruct (adds u); cbn [length] in *.
    + destruct added as [|y added]; [discriminate|]. cbn [length] in L. destruct (IH added d ltac:(lia) w H) as (x & A & B). exists x. split; [exact A|exact B].
    + destruct (IH added d L w H) as (x & A & B). exists x. split; [exact A|exact B].
Qed.
Lemma ids_of_none : forall ts added d, (forall w, nth_error ts d <> Some (GAddNode w)) -> forall x, nth_error (ids_of ts added) d <> Some (Some x).
Proof.
  induction ts as [|u ts IH]; intros added d H x; cbn [ids_of]; [destruct d; discriminate|]. destruct d as [|d]; cbn [nth_error] in *.
  - destruct u; cbn [adds]; cbn [nth_error]; try discriminate. now destruct (H w).
  - destruct (adds u); [destruct added|]; cbn [nth_error]; now apply IH.
Qed.
Lemma filter_app' {A} (p : A -> bool) a b : filter p (a ++ b) = filter p a ++ filter p b.
Proof. apply filter_app. Qed.

(** What apply's loop keeps true, whatever the transforms: [pre] have been applied. *)
Lemma apply_step ids pre g added t g' i : ids_of pre added = ids -> length added = length (filter adds pre) -> apply_one g ids t = Ok (g', i) ->
  ids_of (pre ++ [t]) (match i with Some n => added ++ [n] | None => added end) = ids ++ [i] /\
  length (match i with Some n => added ++ [n] | None => added end) = length (filter adds (pre ++ [t])).
Proof.
  intros <- L H. destruct (ids_of_snoc pre added t L) as [P Q]. rewrite filter_app, app_length. cbn [filter].
  assert (K : match i with Some _ => adds t = true | None => adds t = false end).
  { destruct t; cbn [apply_one adds] in *.
    - destruct (materialize _ a), (materialize _ b); cbn [bind] in H; try discriminate. destruct (sg_add_edge _ _ _ _); cbn [bind] in H; try discriminate. injection H as _ <-. reflexivity.
    - destruct (sg_add_node g w). injection H as _ <-. reflexivity.
    - destruct (materialize _ n); cbn [bind] in H; try discriminate. injection H as _ <-. reflexivity.
    - destruct (materialize _ a), (materialize _ b); cbn [bind] in H; try discriminate. destruct (sg_remove_edge _ _ _); cbn [bind] in H; try discriminate. injection H as _ <-. reflexivity. }
  destruct i as [n|]; rewrite K; cbn [length]; (split; [auto|]); rewrite ?app_length; cbn [length]; lia.
Qed.
Lemma materialize_none ids i : (forall d, i = TDeferred d -> forall x, nth_error ids d <> Some (Some x)) -> (exists d, i = TDeferred d) -> materialize ids i = Panic.
Proof. intros H [d ->]. cbn [materialize]. specialize (H d eq_refl). destruct (nth_error ids d) as [[x|]|]; try reflexivity. now destruct (H x). Qed.
Lemma materialize_err ids i e : materialize ids i <> Err e.
Proof. destruct i as [n|d]; cbn [materialize]; [discriminate|]. destruct (nth_error ids d) as [[x|]|]; discriminate. Qed.
Lemma apply_one_err g ids t e : apply_one g ids t <> Err e.
Proof.
  destruct t as [a b l|w|n|a b]; cbn [apply_one].
  - destruct (materialize ids a) as [x|e1|] eqn:A; cbn [bind]; [|now apply materialize_err in A|discriminate]. destruct (materialize ids b) as [y|e1|] eqn:B; cbn [bind]; [|now apply materialize_err in B|discriminate].
    unfold sg_add_edge, add_edge. destruct (contains (sg g) x && contains (sg g) y); discriminate.
  - destruct (sg_add_node g w). discriminate.
  - destruct (materialize ids n) as [x|e1|] eqn:A; cbn [bind]; [discriminate|now apply materialize_err in A|discriminate].
  - destruct (materialize ids a) as [x|e1|] eqn:A; cbn [bind]; [|now apply materialize_err in A|discriminate]. destruct (materialize ids b) as [y|e1|] eqn:B; cbn [bind]; [|now apply materialize_err in B|discriminate].
    unfold sg_remove_edge. destruct (cut_edge _ _ _); discriminate.
Qed.
Lemma apply_bad_one g ids t d : uses t (TDeferred d) -> (forall x, nth_error ids d <> Some (Some x)) -> apply_one g ids t = Panic.
Proof.
  intros U H. assert (M : materialize ids (TDeferred d) = Panic) by (apply materialize_none; [intros d' K; injection K as ->; exact H|eauto]).
  destruct t as [a b l|w|n|a b]; cbn [uses apply_one] in *; [|contradiction| |].
  - destruct U as [<- | <-]; rewrite M; [reflexivity|]. destruct (materialize ids a) as [x|e|] eqn:A; [reflexivity|now apply materialize_err in A|reflexivity].
  - rewrite <- U, M. reflexivity.
  - destruct U as [<- | <-]; rewrite M; [reflexivity|]. destruct (materialize ids a) as [x|e|] eqn:A; [reflexivity|now apply materialize_err in A|reflexivity].
Qed.
Lemma apply_loop_bad : forall ts pre g ids added p t d, ids_of pre added = ids -> length added = length (filter adds pre) ->
  nth_error ts p = Some t -> uses t (TDeferred d) -> ~ (d < length pre + p /\ exists w, nth_error (pre ++ ts) d = Some (GAddNode w)) -> apply_loop ts g ids added = Panic.
Proof.
  induction ts as [|u ts IH]; intros pre g ids added p t d Hi L Hp U H; [destruct p; discriminate|]. cbn [apply_loop]. destruct p as [|p]; cbn [nth_error] in Hp.
  - injection Hp as ->. rewrite (apply_bad_one g ids t d U); [reflexivity|]. intros x Hx. destruct (Nat.lt_ge_cases d (length pre)) as [D|D].
    + rewrite <- Hi in Hx. revert Hx. apply ids_of_none. intros w Hw. apply H. split; [lia|]. exists w. now rewrite nth_error_app1.
    + assert (nth_error ids d = None) by (apply nth_error_None; rewrite <- Hi, ids_of_length; exact D). congruence.
  - destruct (apply_one g ids u) as [[g2 i]|e|] eqn:A; cbn [bind]; [|now apply apply_one_err in A|reflexivity].
    destruct (apply_step ids pre g added u g2 i Hi L A) as [Hi' L']. eapply (IH (pre ++ [u])); [exact Hi'|exact L'|exact Hp|exact U|].
    intros [D [w Hw]]. apply H. rewrite app_length in D. cbn [length] in D. split; [lia|]. exists w. rewrite <- app_assoc in Hw. exact Hw.
Qed.


(** ** Lists that only add *)
Lemma denotes_snoc pre added t more i x : refers (N:=N) (E:=E) {| sg := gempty; sfree := [] |} pre (length pre) i \/ (exists n, i = TNode n) -> length added = length (filter adds pre) ->
  denotes pre added i x <-> denotes (pre ++ [t]) (added ++ more) i x.
Proof.
  intros R L. destruct i as [n|d]; cbn [denotes]; [reflexivity|]. destruct R as [[D [w Hw]]|[n R]]; [|discriminate].
  assert (F : firstn d (pre ++ [t]) = firstn d pre).
  { rewrite firstn_app. replace (d - length pre) with 0 by lia. cbn [firstn]. apply app_nil_r. }
  rewrite F, nth_error_app1 by exact D. destruct (ids_of_nth pre added d L w Hw) as (y & Hy & _). rewrite nth_error_app1 by (apply nth_error_Some; congruence). reflexivity.
Qed.
Definition build_ok (g0 : sgraph N E) (pre : list (gtransform N E)) g (added : list nat) : Prop :=
  well_formed g /\ length added = length (filter adds pre) /\ NoDup added /\
  (forall x, In x added -> ~ has g0 x) /\ (forall x, ~ In x added -> node (sg g) x = node (sg g0) x) /\
  (forall d w, nth_error pre d = Some (GAddNode w) -> exists x, nth_error added (length (filter adds (firstn d pre))) = Some x /\ node (sg g) x = Some w) /\
  (forall a b l, In (a, b, l) (gedges (sg g)) <-> In (a, b, l) (gedges (sg g0)) \/ exists p ta tb, nth_error pre p = Some (GAddEdge ta tb l) /\ denotes pre added ta a /\ denotes pre added tb b).
Lemma refers_any (g1 g2 : sgraph N E) pre p i : (forall n, i <> TNode n) -> refers g1 pre p i -> refers g2 pre p i.
Proof. destruct i; cbn [refers]; [intros H; now destruct (H n)|auto]. Qed.
Lemma refers_weak g0 pre t p q i : refers g0 (pre ++ [t]) p i -> p <= length pre -> p <= q -> refers g0 pre q i.
Proof. destruct i as [n|d]; cbn [refers]; [auto|]. intros [D [w Hw]] L Q. split; [lia|]. exists w. rewrite nth_error_app1 in Hw by lia. exact Hw. Qed.
Lemma ref_or (g0 : sgraph N E) pre i : refers g0 pre (length pre) i -> refers (N:=N) (E:=E) {| sg := gempty; sfree := [] |} pre (length pre) i \/ (exists n, i = TNode n).
Proof. destruct i as [n|d]; [right; eauto|]. intros H. left. exact H. Qed.
Lemma build_has g0 pre g added x : build_ok g0 pre g added -> has g0 x -> has g x.
Proof. intros (_ & _ & _ & F & K & _) H. apply has_node in H as [w Hw]. apply has_node. exists w. rewrite K; [exact Hw|]. intros Hx. apply (F x Hx). apply has_node. eauto. Qed.
Lemma build_ref g0 pre g added i : build_ok g0 pre g added -> refers g0 pre (length pre) i -> exists x, materialize (ids_of pre added) i = Ok x /\ has g x /\ denotes pre added i x.
Proof.
  intros B R. destruct i as [n|d]; cbn [refers materialize denotes] in *.
  - exists n. split; [reflexivity|]. split; [eapply build_has; eassumption|reflexivity].
  - destruct R as [D [w Hw]]. destruct B as (_ & L & _ & _ & _ & A & _). destruct (ids_of_nth pre added d L w Hw) as (x & H1 & H2). exists x. rewrite H2. split; [reflexivity|].
    destruct (A d w Hw) as (y & H3 & H4). assert (y = x) by congruence. subst y. split; [apply has_node; eauto|]. split; [eauto|exact H1].
Qed.
Lemma denotes_fun pre added i x y : denotes (N:=N) (E:=E) pre added i x -> denotes pre added i y -> x = y.
Proof. destruct i as [n|d]; cbn [denotes]; [congruence|]. intros [_ A] [_ B]. congruence. Qed.

Lemma apply_loop_build g0 : forall ts pre g added, build_ok g0 pre g added ->
  (forall t, In t ts -> match t with GAddNode _ | GAddEdge _ _ _ => True | _ => False end) ->
  (forall p a b l, nth_error (pre ++ ts) p = Some (GAddEdge a b l) -> refers g0 (pre ++ ts) p a /\ refers g0 (pre ++ ts) p b) ->
  exists g' ids' added', apply_loop ts g (ids_of pre added) added = Ok (g', ids', added') /\ build_ok g0 (pre ++ ts) g' added'.
Proof.
  induction ts as [|t ts IH]; intros pre g added B Hk Hr.
  - cbn [apply_loop]. rewrite app_nil_r. eauto.
  - assert (B2 : exists g' i, apply_one g (ids_of pre added) t = Ok (g', i) /\ build_ok g0 (pre ++ [t]) g' (match i with Some n => added ++ [n] | None => added end)).
    { pose proof B as (W & L & ND & F & K & A & Ed).
      assert (Old : forall p ta tb l, nth_error pre p = Some (GAddEdge ta tb l) -> refers g0 pre (length pre) ta /\ refers g0 pre (length pre) tb).
      { intros p ta tb l Hp. assert (P : p < length pre) by (apply nth_error_Some; congruence). destruct (Hr p ta tb l) as [R1 R2]; [now rewrite nth_error_app1|].
        assert (X : forall i, refers g0 (pre ++ t :: ts) p i -> refers g0 pre (length pre) i).
        { intros i. destruct i as [n|d]; cbn [refers]; [auto|]. intros [D [w Hw]]. split; [lia|]. exists w. rewrite nth_error_app1 in Hw by lia. exact Hw. }
        split; apply X; assumption. }
      destruct t as [a b l|w|n|a b]; try (specialize (Hk _ (or_introl eq_refl)); contradiction).
      - destruct (Hr (length pre) a b l) as [R1 R2]; [rewrite nth_error_app2, Nat.sub_diag by lia; reflexivity|].
        assert (X : forall i, refers g0 (pre ++ GAddEdge a b l :: ts) (length pre) i -> refers g0 pre (length pre) i).
        { intros i. destruct i as [n|d]; cbn [refers]; [auto|]. intros [D [w Hw]]. split; [lia|]. exists w. rewrite nth_error_app1 in Hw by lia. exact Hw. }
        apply X in R1, R2. destruct (build_ref _ _ _ _ _ B R1) as (x & M1 & H1 & D1). destruct (build_ref _ _ _ _ _ B R2) as (y & M2 & H2 & D2).
        destruct (add_edge_ok' g x y l W H1 H2) as (g' & E1 & W' & Ge & Nd & _). exists g', None. cbn [apply_one]. rewrite M1, M2. cbn [bind]. rewrite E1. cbn [bind]. split; [reflexivity|].
        split; [exact W'|]. split; [rewrite filter_app, app_nil_r; exact L|]. split; [exact ND|]. split; [exact F|]. split; [intros z Hz; rewrite Nd; now apply K|]. split.
        + intros d w Hd. assert (D : d < length pre).
          { destruct (Nat.lt_ge_cases d (length pre)) as [?|Dg]; [assumption|]. rewrite nth_error_app2 in Hd by lia. destruct (d - length pre) as [|k]; cbn in Hd; [discriminate|destruct k; discriminate]. }
          rewrite nth_error_app1 in Hd by exact D. destruct (A d w Hd) as (z & Z1 & Z2). exists z. rewrite firstn_app. replace (d - length pre) with 0 by lia. cbn [firstn]. rewrite app_nil_r, Nd. split; assumption.
        + intros s t v. rewrite Ge. cbn [In]. rewrite Ed. split.
          * intros [Q|[Q|(p & ta & tb & Hp & Da & Db)]]; [|now left|].
            { injection Q as <- <- <-. right. exists (length pre), a, b. rewrite nth_error_app2, Nat.sub_diag by lia. split; [reflexivity|].
              rewrite <- (app_nil_r added). split; apply (denotes_snoc pre added _ []); try assumption; apply ref_or with g0; assumption. }
            { right. exists p, ta, tb. assert (P : p < length pre) by (apply nth_error_Some; congruence). rewrite nth_error_app1 by exact P. split; [exact Hp|]. destruct (Old p ta tb v Hp) as [Q1 Q2].
              rewrite <- (app_nil_r added). split; apply (denotes_snoc pre added _ []); try assumption; apply ref_or with g0; assumption. }
          * intros [Q|(p & ta & tb & Hp & Da & Db)]; [right; now left|]. rewrite <- (app_nil_r added) in Da, Db. destruct (Nat.lt_ge_cases p (length pre)) as [P|P].
            { rewrite nth_error_app1 in Hp by exact P. destruct (Old p ta tb v Hp) as [Q1 Q2]. right. right. exists p, ta, tb. split; [exact Hp|].
              split; [apply (denotes_snoc pre added (GAddEdge a b l) [] ta)|apply (denotes_snoc pre added (GAddEdge a b l) [] tb)]; try assumption; apply ref_or with g0; assumption. }
            { rewrite nth_error_app2 in Hp by exact P. destruct (p - length pre) as [|k]; cbn [nth_error] in Hp; [|destruct k; discriminate]. injection Hp as <- <- <-. left.
              apply (denotes_snoc pre added (GAddEdge a b l) [] a) in Da; [|apply ref_or with g0; assumption|assumption].
              apply (denotes_snoc pre added (GAddEdge a b l) [] b) in Db; [|apply ref_or with g0; assumption|assumption].
              rewrite (denotes_fun _ _ _ _ _ Da D1), (denotes_fun _ _ _ _ _ Db D2). reflexivity. }
      - destruct (add_node_ok g w W) as (i & g' & E1 & W' & Hi & Ge & Nd & _). exists g', (Some i). cbn [apply_one]. rewrite E1. split; [reflexivity|].
        assert (Hni : ~ In i added).
        { intros Hx. apply In_nth_error in Hx as [k Hx]. apply Hi.
          (* every added node is in the graph *)
          assert (G : forall k x, nth_error added k = Some x -> has g x).
          { clear - A L. intros k x Hk. assert (exists d w, nth_error pre d = Some (GAddNode w) /\ length (filter adds (firstn d pre)) = k) as (d & w & Hd & Ek).
            { assert (Hl : k < length (filter adds pre)) by (rewrite <- L; apply nth_error_Some; congruence). clear - Hl. revert k Hl.
              induction pre as [|u pre IH]; intros k Hl; cbn [filter length] in Hl; [lia|]. destruct (adds u) eqn:Au.
              - destruct k as [|k]; [destruct u; try discriminate; exists 0, w; split; reflexivity|]. cbn [length] in Hl. destruct (IH k ltac:(lia)) as (d & w & H1 & H2). exists (S d), w. split; [exact H1|].
                cbn [firstn filter]. rewrite Au. cbn [length]. now rewrite H2.
              - destruct (IH k Hl) as (d & w & H1 & H2). exists (S d), w. split; [exact H1|]. cbn [firstn filter]. now rewrite Au. }
            destruct (A d w Hd) as (y & Y1 & Y2). rewrite Ek in Y1. assert (y = x) by congruence. subst. apply has_node. eauto. }
          eapply G, Hx. }
        split; [exact W'|]. split; [rewrite filter_app, !app_length; cbn [filter adds length]; lia|]. split; [apply (Permutation_NoDup (Permutation_cons_append added i)); constructor; assumption|]. split; [|split; [|split]].
        + intros x Hx. apply in_app_or in Hx as [Hx|[<- |[]]]; [now apply F|]. intros H0. apply Hi. eapply build_has; eassumption.
        + intros x Hx. rewrite Nd. destruct (x =? i) eqn:Xi; [apply Nat.eqb_eq in Xi as ->; exfalso; apply Hx, in_or_app; right; now left|]. apply K. intros H. apply Hx, in_or_app. now left.
        + intros d v Hd. destruct (Nat.lt_ge_cases d (length pre)) as [D|D].
          * rewrite nth_error_app1 in Hd by exact D. destruct (A d v Hd) as (z & Z1 & Z2). exists z. rewrite firstn_app. replace (d - length pre) with 0 by lia. cbn [firstn]. rewrite app_nil_r.
            rewrite nth_error_app1 by (apply nth_error_Some; congruence). split; [exact Z1|]. rewrite Nd. destruct (z =? i) eqn:Zi; [|exact Z2]. apply Nat.eqb_eq in Zi as ->. exfalso. apply Hni. eapply nth_error_In, Z1.
          * rewrite nth_error_app2 in Hd by exact D. destruct (d - length pre) as [|k] eqn:Dk; cbn [nth_error] in Hd; [|destruct k; discriminate]. injection Hd as <-. exists i.
            rewrite firstn_app, Dk. cbn [firstn]. rewrite app_nil_r, firstn_all2 by lia. rewrite <- L, nth_error_app2, Nat.sub_diag by lia. split; [reflexivity|]. rewrite Nd, Nat.eqb_refl. reflexivity.
        + intros s t v. rewrite Ge, Ed. split; (intros [Q|(p & ta & tb & Hp & Da & Db)]; [now left|right]).
          * exists p, ta, tb. assert (P : p < length pre) by (apply nth_error_Some; congruence). rewrite nth_error_app1 by exact P. split; [exact Hp|]. destruct (Old p ta tb v Hp) as [Q1 Q2].
            split; apply (denotes_snoc pre added _ [i]); try assumption; apply ref_or with g0; assumption.
          * destruct (Nat.lt_ge_cases p (length pre)) as [P|P]; [|rewrite nth_error_app2 in Hp by exact P; destruct (p - length pre) as [|k]; [discriminate|destruct k; discriminate]].
            rewrite nth_error_app1 in Hp by exact P. destruct (Old p ta tb v Hp) as [Q1 Q2]. exists p, ta, tb. split; [exact Hp|].
            split; [apply (denotes_snoc pre added (GAddNode w) [i] ta)|apply (denotes_snoc pre added (GAddNode w) [i] tb)]; try assumption; apply ref_or with g0; assumption. }
    destruct B2 as (g' & i & E1 & B2). cbn [apply_loop]. rewrite E1. cbn [bind].
    destruct (apply_step _ pre g added t g' i eq_refl (proj1 (proj2 B)) E1) as [Ei _]. rewrite <- Ei.
    destruct (IH (pre ++ [t]) g' _ B2) as (g2 & ids2 & added2 & E2 & B3).
    { intros u Hu. apply Hk. now right. }
    { intros p a b l. rewrite <- app_assoc. apply Hr. }
    rewrite <- app_assoc in B3. exists g2, ids2, added2. split; [exact E2|exact B3].
Qed.
Lemma apply_build g0 ts : well_formed g0 ->
  (forall t, In t ts -> match t with GAddNode _ | GAddEdge _ _ _ => True | _ => False end) ->
  (forall p a b l, nth_error ts p = Some (GAddEdge a b l) -> refers g0 ts p a /\ refers g0 ts p b) ->
  exists g' added, apply ts g0 = Ok (g', added) /\ build_ok g0 ts g' added.
Proof.
  intros W Hk Hr. destruct (apply_loop_build g0 ts [] g0 []) as (g' & ids & added & E1 & B); [|exact Hk|exact Hr|].
  - split; [exact W|]. split; [reflexivity|]. split; [constructor|]. split; [intros x []|]. split; [reflexivity|]. split; [intros d w H; destruct d; discriminate|].
    intros a b l. split; [now left|]. intros [H|(p & ta & tb & H & _)]; [exact H|destruct p; discriminate].
  - unfold apply. cbn [ids_of] in E1. rewrite E1. cbn [bind]. eauto.
Qed.
End P.
