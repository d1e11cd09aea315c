(** Proofs about the traversal and about evaluating mux circuits. *)
From Coq Require Import Permutation.
From Verif Require Import Base Alu AluProofs Graph MuxGraph SpecMux MuxGraphProofs MuxGraphProofs2 MuxEval.
Open Scope nat_scope.

Lemma NoDup_app_intro {A} (a b : list A) : NoDup a -> NoDup b -> (forall x, In x a -> In x b -> False) -> NoDup (a ++ b).
Proof.
  induction a as [|x a IH]; intros Ha Hb H; [exact Hb|]. inversion Ha; subst. cbn [app]. constructor.
  - rewrite in_app_iff. intros [K|K]; [contradiction|]. apply (H x); [now left|exact K].
  - apply IH; auto. intros y H1 H2'. apply (H y); [now right|exact H2'].
Qed.

Section Order.
Context {N E : Type}.
Implicit Types g : graph N E.

Lemma mem_In i l : mem i l = true <-> In i l.
Proof. unfold mem. rewrite existsb_exists. split; [intros (x & H & E1); apply Nat.eqb_eq in E1; now subst|]. intros H. exists i. split; [exact H|apply Nat.eqb_refl]. Qed.
Lemma mem_not i l : mem i l = false <-> ~ In i l.
Proof. rewrite <- mem_In. destruct (mem i l); split; congruence. Qed.
Lemma succs_preds g a b : In b (succs g a) <-> In a (preds g b).
Proof.
  unfold succs, preds. rewrite !in_map_iff. split; intros (e & E1 & H).
  - apply out_edges_spec in H as [H H2]. exists e. split; [exact H2|]. apply in_edges_spec. split; assumption.
  - apply in_edges_spec in H as [H H2]. exists e. split; [exact H2|]. apply out_edges_spec. split; assumption.
Qed.

(** The order of visits. *)
Fixpoint visits (fuel : nat) g (ready visited stack : list nat) : option (list nat) :=
  match stack with
  | [] => Some []
  | n :: stack =>
      match fuel with
      | O => None
      | S fuel =>
          let '(ready, stack) := fold_left (push_next g (n :: visited)) (succs g n) (fold_left (push_next g (n :: visited)) (succs g n) (ready, stack)) in
          option_map (cons n) (visits fuel g ready (n :: visited) stack)
      end
  end.
Fixpoint topo g (v : list nat) : Prop := match v with [] => True | n :: v => (forall m, In m (preds g n) -> In m v) /\ topo g v end.
Record tinv g (ready visited stack : list nat) : Prop := {
  ti_nodup : NoDup (stack ++ visited);
  ti_ready : forall i, In i ready <-> In i (stack ++ visited);
  ti_nodes : forall i, In i (stack ++ visited) -> contains g i = true;
  ti_preds : forall i m, In i stack -> In m (preds g i) -> In m visited;
  ti_rest : forall i, contains g i = true -> ~ In i ready -> exists m, In m (preds g i) /\ ~ In m visited;
  ti_topo : topo g visited
}.

Lemma push_fold g v : forall l ready stack, exists new, fold_left (push_next g v) l (ready, stack) = (new ++ ready, new ++ stack) /\ NoDup new /\
  (forall i, In i new -> In i l /\ ~ In i ready /\ forall m, In m (preds g i) -> In m v) /\
  (forall i, In i l -> (forall m, In m (preds g i) -> In m v) -> In i (new ++ ready)).
Proof.
  induction l as [|x l IH]; intros ready stack; cbn [fold_left].
  - exists []. split; [reflexivity|]. split; [constructor|]. split; intros i H; destruct H.
  - unfold push_next at 2. destruct (mem x ready) eqn:M; cbn [negb andb].
    + destruct (IH ready stack) as (new & E1 & ND & H1 & H2). exists new. split; [exact E1|]. split; [exact ND|]. split.
      * intros i Hi. destruct (H1 i Hi) as (A & B & C). split; [now right|]. split; assumption.
      * intros i [-> |Hi] Hp; [apply in_or_app; right; now apply mem_In|now apply H2].
    + apply mem_not in M. destruct (forallb (fun m => mem m v) (preds g x)) eqn:F.
      * destruct (IH (x :: ready) (x :: stack)) as (new & E1 & ND & H1 & H2). exists (new ++ [x]). rewrite <- !app_assoc. cbn [app]. split; [exact E1|].
        assert (Nx : ~ In x new) by (intros Hx; destruct (H1 x Hx) as (_ & B & _); apply B; now left). split; [|split].
        { apply (Permutation_NoDup (Permutation_cons_append new x)). constructor; assumption. }
        { intros i Hi. apply in_app_or in Hi as [Hi|[<- |[]]].
          - destruct (H1 i Hi) as (A & B & C). split; [now right|]. split; [|exact C]. intros Hr. apply B. now right.
          - split; [now left|]. split; [exact M|]. intros m Hm. rewrite forallb_forall in F. apply mem_In, F, Hm. }
        { intros i Hi Hp. destruct Hi as [<- |Hi]; [apply in_or_app; right; now left|]. apply H2; assumption. }
      * destruct (IH ready stack) as (new & E1 & ND & H1 & H2). exists new. split; [exact E1|]. split; [exact ND|]. split.
        { intros i Hi. destruct (H1 i Hi) as (A & B & C). split; [now right|]. split; assumption. }
        { intros i [<- |Hi] Hp; [exfalso|now apply H2]. apply not_true_iff_false in F. apply F, forallb_forall. intros m Hm. apply mem_In, Hp, Hm. }
Qed.

Lemma NoDup_bound g l : NoDup l -> (forall i, In i l -> contains g i = true) -> length l <= length (gnodes g).
Proof.
  intros ND H. rewrite <- (seq_length (length (gnodes g)) 0). apply NoDup_incl_length; [exact ND|]. intros i Hi. apply in_seq. split; [lia|].
  apply H, contains_node in Hi as [w Hw]. cbn. eapply node_lt, Hw.
Qed.
Section Ends.
Context (g : graph N E) (Hends : forall s t l, In (s, t, l) (gedges g) -> contains g s = true /\ contains g t = true).
Lemma succs_contains n i : In i (succs g n) -> contains g i = true.
Proof. unfold succs. intros H. apply in_map_iff in H as (((s, t), l) & <- & H). apply out_edges_spec in H as [H _]. exact (proj2 (Hends _ _ _ H)). Qed.
Lemma preds_contains n i : In i (preds g n) -> contains g i = true.
Proof. unfold preds. intros H. apply in_map_iff in H as (((s, t), l) & <- & H). apply in_edges_spec in H as [H _]. exact (proj1 (Hends _ _ _ H)). Qed.

Lemma visits_ok : forall fuel ready visited stack, tinv g ready visited stack -> length (gnodes g) <= fuel + length visited ->
  exists l ready', visits fuel g ready visited stack = Some l /\ tinv g ready' (rev l ++ visited) [].
Proof.
  induction fuel as [|fuel IH]; intros ready visited stack I Hf; destruct stack as [|n stack]; cbn [visits].
  - exists [], ready. split; [reflexivity|exact I].
  - exfalso. pose proof (NoDup_bound g _ (ti_nodup _ _ _ _ I) (ti_nodes _ _ _ _ I)) as B. rewrite app_length in B. cbn [length] in B. lia.
  - exists [], ready. split; [reflexivity|exact I].
  - destruct I as [I1 I2 I3 I4 I5 I6].
    destruct (push_fold g (n :: visited) (succs g n) ready stack) as (new1 & E1 & ND1 & A1 & C1). rewrite E1.
    destruct (push_fold g (n :: visited) (succs g n) (new1 ++ ready) (new1 ++ stack)) as (new2 & E2 & ND2 & A2 & C2). rewrite E2.
    assert (new2 = []) as ->.
    { destruct new2 as [|x new2]; [reflexivity|exfalso]. destruct (A2 x ltac:(now left)) as (X1 & X2 & X3). apply X2, C1; assumption. }
    cbn [app]. clear E2 ND2 A2 C2 E1.
    assert (J : tinv g (new1 ++ ready) (n :: visited) (new1 ++ stack)).
    { constructor.
      - rewrite <- app_assoc. apply NoDup_app_intro; [exact ND1| |].
        + apply (Permutation_NoDup (Permutation_middle stack visited n)). exact I1.
        + intros i Hi Hs. destruct (A1 i Hi) as (_ & X & _). apply X, I2. change ((n :: stack) ++ visited) with (n :: stack ++ visited).
          apply (Permutation_in i (Permutation_sym (Permutation_middle stack visited n))). exact Hs.
      - intros i. rewrite <- app_assoc, !in_app_iff, I2. change (In i (n :: stack ++ visited)) with (n = i \/ In i (stack ++ visited)). cbn [In app]. rewrite !in_app_iff. cbn [In]. tauto.
      - intros i. rewrite <- app_assoc, !in_app_iff. intros [H|[H|H]].
        + destruct (A1 i H) as (X & _). eapply succs_contains, X.
        + apply I3. cbn [app In]. rewrite in_app_iff. tauto.
        + apply I3. cbn [app In] in *. rewrite in_app_iff. destruct H; tauto.
      - intros i m. rewrite in_app_iff. intros [H|H] Hm; [destruct (A1 i H) as (_ & _ & X); now apply X|]. right. apply (I4 i m); [now right|exact Hm].
      - intros i Hi Hr. rewrite in_app_iff in Hr. destruct (I5 i Hi ltac:(tauto)) as (m & Hm & Hv).
        destruct (Nat.eq_dec m n) as [-> |Hmn]; [|exists m; split; [exact Hm|intros [X|X]; congruence || tauto]].
        destruct (forallb (fun m => mem m (n :: visited)) (preds g i)) eqn:F.
        + exfalso. apply Hr. rewrite <- in_app_iff. apply C1; [now apply succs_preds|]. rewrite forallb_forall in F. intros k Hk. apply mem_In, F, Hk.
        + destruct (existsb (fun m => negb (mem m (n :: visited))) (preds g i)) eqn:X.
          * apply existsb_exists in X as (k & Hk & X). apply negb_true_iff, mem_not in X. exists k. split; assumption.
          * exfalso. apply not_true_iff_false in F. apply F, forallb_forall. intros k Hk. destruct (mem k (n :: visited)) eqn:Y; [reflexivity|exfalso].
            apply not_true_iff_false in X. apply X, existsb_exists. exists k. split; [exact Hk|now rewrite Y].
      - split; [|exact I6]. intros m Hm. apply (I4 n m); [now left|exact Hm]. }
    destruct (IH _ _ _ J) as (l & ready' & V & I'). { cbn [length]. lia. }
    rewrite V. cbn [option_map]. exists (n :: l), ready'. split; [reflexivity|]. cbn [rev]. rewrite <- app_assoc. exact I'.
Qed.

Lemma topo_app : forall a b, topo g (a ++ b) -> topo g b.
Proof. induction a as [|x a IH]; intros b H; [exact H|]. apply IH. exact (proj2 H). Qed.

Lemma loop_visits {St} (cb : St -> nat -> res St) : forall fuel s ready visited stack l, (forall i, In i stack -> contains g i = true) ->
  visits fuel g ready visited stack = Some l -> traverse_loop fuel g cb s ready visited stack = foldM cb l s.
Proof.
  induction fuel as [|fuel IH]; intros s ready visited stack l Hc V; destruct stack as [|n stack]; cbn [visits traverse_loop] in *; try discriminate; [injection V as <-; reflexivity..|].
  rewrite (Hc n ltac:(now left)). cbn [negb]. destruct (push_fold g (n :: visited) (succs g n) ready stack) as (new1 & E1 & _ & A1 & _).
  destruct (push_fold g (n :: visited) (succs g n) (new1 ++ ready) (new1 ++ stack)) as (new2 & E2 & _ & A2 & _).
  rewrite E1, E2 in V |- *. destruct (visits fuel g _ _ _) as [l'|] eqn:V'; [|discriminate]. cbn [option_map] in V. injection V as <-. cbn [foldM].
  destruct (cb s n) as [s'|e|]; cbn [bind]; [|reflexivity..]. apply IH; [|exact V'].
  intros i Hi. rewrite !in_app_iff in Hi. destruct Hi as [Hi|[Hi|Hi]]; [destruct (A2 i Hi) as (X & _); eapply succs_contains, X|destruct (A1 i Hi) as (X & _); eapply succs_contains, X|apply Hc; now right].
Qed.

Context (Hacyc : exists rank : nat -> nat, forall s t l, In (s, t, l) (gedges g) -> rank s < rank t).
Lemma traverse_order : exists order, NoDup order /\ (forall i, In i order <-> contains g i = true) /\
  (forall pre n post, order = pre ++ n :: post -> forall m, In m (preds g n) -> In m pre) /\
  forall St (cb : St -> nat -> res St) s, forward_traverse g cb s = foldM cb order s.
Proof.
  set (start := filter (fun n => match preds g n with [] => true | _ => false end) (node_indices g)).
  assert (S1 : forall i, In i start <-> contains g i = true /\ preds g i = []).
  { intros i. unfold start. rewrite filter_In, node_indices_spec. destruct (preds g i); split; intros [A B]; split; auto; discriminate. }
  assert (I : tinv g start [] (rev start)).
  { constructor.
    - rewrite app_nil_r. apply NoDup_rev. unfold start. apply NoDup_filter. unfold node_indices. apply NoDup_filter, seq_NoDup.
    - intros i. rewrite app_nil_r, <- in_rev. reflexivity.
    - intros i. rewrite app_nil_r, <- in_rev. intros H. now apply S1.
    - intros i m Hi Hm. rewrite <- in_rev in Hi. apply S1 in Hi as [_ Hi]. rewrite Hi in Hm. destruct Hm.
    - intros i Hi Hs. destruct (preds g i) as [|m l] eqn:P; [exfalso; apply Hs, S1; auto|]. exists m. split; [now left|auto].
    - exact Logic.I. }
  destruct (visits_ok (S (length (gnodes g))) _ _ _ I ltac:(cbn; lia)) as (l & ready' & V & [J1 J2 J3 J4 J5 J6]). rewrite app_nil_r in *. cbn [app] in *. exists l.
  assert (ND : NoDup l) by (apply NoDup_rev in J1; now rewrite rev_involutive in J1).
  split; [exact ND|]. split; [|split].
  - intros i. split; [intros H; apply J3; now rewrite <- in_rev|]. intros Hi. destruct Hacyc as [rank Hr].
    revert i Hi. refine (well_founded_ind (well_founded_ltof nat rank) _ _). intros i IH Hi. unfold ltof in IH.
    destruct (in_dec Nat.eq_dec i l) as [H|H]; [exact H|exfalso]. destruct (J5 i Hi) as (m & Hm & Hv); [rewrite J2, <- in_rev; exact H|]. apply Hv. rewrite <- in_rev. apply IH; [|eapply preds_contains, Hm].
    unfold preds in Hm. apply in_map_iff in Hm as (((s, t), lb) & <- & Hm). apply in_edges_spec in Hm as [Hm Ht]. cbn in *. subst t. eapply Hr, Hm.
  - intros pre n post -> m Hm. rewrite rev_app_distr in J6. cbn [rev] in J6. rewrite <- app_assoc in J6. apply topo_app in J6. cbn [app topo] in J6. destruct J6 as [J6 _]. rewrite in_rev. now apply J6.
  - intros St cb s. unfold forward_traverse. fold start. apply loop_visits; [|exact V]. intros i Hi. rewrite <- in_rev in Hi. now apply S1.
Qed.
End Ends.
End Order.

(** ** Evaluation *)

Lemma nth_error_firstn' {A} : forall (l : list A) n j, j < n -> nth_error (firstn n l) j = nth_error l j.
Proof. induction l as [|x l IH]; intros n j H; [rewrite firstn_nil; reflexivity|]. destruct n; [lia|]. destruct j; [reflexivity|]. cbn. apply IH. lia. Qed.
Lemma nth_error_skipn' {A} : forall (l : list A) n j, nth_error (skipn n l) j = nth_error l (n + j).
Proof. induction l as [|x l IH]; intros n j; [rewrite skipn_nil; destruct (n + j), j; reflexivity|]. destruct n; [reflexivity|]. cbn. apply IH. Qed.
Lemma set_at_ok {A} (l : list A) i x : i < length l -> exists l', set_at l i x = Ok l' /\ length l' = length l /\ forall j, nth_error l' j = if j =? i then Some x else nth_error l j.
Proof.
  intros H. unfold set_at. rewrite (proj2 (Nat.ltb_lt _ _) H). eexists. split; [reflexivity|]. split.
  - rewrite app_length, firstn_length. cbn [length]. rewrite skipn_length. lia.
  - intros j. destruct (Nat.eqb_spec j i) as [-> |Hj].
    + rewrite nth_error_app2; rewrite firstn_length; [|lia]. replace (i - Nat.min i (length l)) with 0 by lia. reflexivity.
    + destruct (Nat.lt_ge_cases j i).
      * rewrite nth_error_app1 by (rewrite firstn_length; lia). rewrite nth_error_firstn'; auto.
      * rewrite nth_error_app2; rewrite firstn_length; [|lia]. replace (j - Nat.min i (length l)) with (S (j - S i)) by lia. cbn [nth_error]. rewrite nth_error_skipn'. f_equal. lia.
Qed.

Lemma NoDup_map_filter {A B} (f : A -> B) (p : A -> bool) l : NoDup (map f l) -> NoDup (map f (filter p l)).
Proof.
  induction l as [|x l IH]; intros H; [constructor|]. cbn [map filter] in *. inversion H; subst. destruct (p x); [|now apply IH]. cbn [map]. constructor; [|now apply IH].
  intros K. apply H2. apply in_map_iff in K as (y & Ey & K). apply filter_In in K as [K _]. apply in_map_iff. exists y. auto.
Qed.
Lemma labels_nodup (g : mgraph) n : NoDup (map (fun e => (snd (fst e), snd e)) (gedges g)) -> NoDup (map snd (in_edges g n)).
Proof.
  intros H. apply (NoDup_map_filter _ (fun e => (snd (fst e) =? n)%nat)) in H. fold (in_edges g n) in H.
  apply (NoDup_map_inv (fun l => (n, l))). rewrite map_map. erewrite map_ext_in; [exact H|]. intros e He. apply in_edges_spec in He as [_ <-]. reflexivity.
Qed.
Lemma in_labels (g : mgraph) n l : In l (map snd (in_edges g n)) <-> exists s, In (s, n, l) (gedges g).
Proof.
  rewrite in_map_iff. split.
  - intros (((s, t), l') & <- & H). apply in_edges_spec in H as [H E]. cbn in *. subst. now exists s.
  - intros (s & H). exists (s, n, l). split; [reflexivity|]. apply in_edges_spec. split; [exact H|reflexivity].
Qed.
Lemma operands_total (g : mgraph) n : NoDup (map (fun e => (snd (fst e), snd e)) (gedges g)) -> (forall l, (exists s, In (s, n, l) (gedges g)) <-> l <> OutEdge) ->
  exists s l h, get_mux_operands g n = Ok (s, l, h) /\ In (s, n, Select) (gedges g) /\ In (l, n, Low) (gedges g) /\ In (h, n, High) (gedges g).
Proof.
  intros ND H. apply (labels_nodup g n) in ND. assert (P : Permutation (map snd (in_edges g n)) [Select; Low; High]).
  { apply NoDup_Permutation; [exact ND|repeat constructor; cbn; intuition congruence|]. intros l. rewrite in_labels, H. cbn. destruct l; intuition congruence. }
  assert (F : forall l, l <> OutEdge -> exists e, find (fun e => medge_eqb (snd e) l) (in_edges g n) = Some e /\ In (fst (fst e), n, l) (gedges g)).
  { intros l Hl. apply H in Hl. apply in_labels in Hl. apply in_map_iff in Hl as (e & <- & He).
    destruct (find (fun e0 => medge_eqb (snd e0) (snd e)) (in_edges g n)) as [e'|] eqn:Fe; [|exfalso; apply (find_none _ _ Fe) in He; destruct (snd e); discriminate].
    exists e'. split; [reflexivity|]. apply find_some in Fe as [Fe1 Fe2]. assert (snd e' = snd e) as <- by (destruct (snd e'), (snd e); (reflexivity || discriminate)).
    apply in_edges_spec in Fe1 as [Fe1 <-]. destruct e' as [[? ?] ?]. exact Fe1. }
  destruct (F Select ltac:(discriminate)) as (es & E1 & H1), (F Low ltac:(discriminate)) as (el & E2 & H2), (F High ltac:(discriminate)) as (eh & E3 & H3).
  exists (fst (fst es)), (fst (fst el)), (fst (fst eh)). split; [|auto]. unfold get_mux_operands. apply Permutation_length in P. rewrite map_length in P. rewrite P. cbn [length Nat.eqb negb]. now rewrite E1, E2, E3.
Qed.

Lemma filter_all {A} (p : A -> bool) l : (forall x, In x l -> p x = true) -> filter p l = l.
Proof. induction l as [|x l IH]; intros H; [reflexivity|]. cbn [filter]. rewrite (H x ltac:(now left)). f_equal. apply IH. intros y Hy. apply H. now right. Qed.
Section Eval.
Context (g : mgraph) (ins : list bool) (W : mux_wf g) (Hv : forall n x, node g n = Some (MVar x) -> x < length ins).
Context (Hfull : forall n, n < length (gnodes g) -> contains g n = true).

Definition known (data : list bool) (done : list nat) : Prop := length data = length (gnodes g) /\ forall i, In i done -> exists b, nth_error data i = Some b /\ value g ins i b.
Lemma in_preds s n l : In (s, n, l) (gedges g) -> In s (preds g n).
Proof. intros H. unfold preds. apply in_map_iff. exists (s, n, l). split; [reflexivity|]. apply in_edges_spec. split; [exact H|reflexivity]. Qed.
Lemma set_known data done n b : known data done -> contains g n = true -> ~ In n done -> value g ins n b -> exists data', set_at data n b = Ok data' /\ known data' (done ++ [n]).
Proof.
  intros [L K] C Hn V. apply contains_node in C as [w Hw]. pose proof (node_lt _ _ _ Hw) as Hlt. destruct (set_at_ok data n b) as (data' & Ed & L' & Nt); [lia|].
  exists data'. split; [exact Ed|]. split; [lia|]. intros i Hi. rewrite Nt. destruct (Nat.eqb_spec i n) as [-> |Hi']; [now exists b|].
  apply in_app_or in Hi as [Hi|[Hi|[]]]; [now apply K|congruence].
Qed.
Lemma eval_node_ok data done n : known data done -> contains g n = true -> ~ In n done -> (forall m, In m (preds g n) -> In m done) ->
  exists data', eval_node g ins data n = Ok data' /\ known data' (done ++ [n]).
Proof.
  intros K C Hn Hp. unfold eval_node. pose proof C as C'. apply contains_node in C' as [w Hw]. rewrite Hw. destruct w as [| | |x|i].
  - apply set_known; auto. now apply value_one.
  - apply set_known; auto. now apply value_zero.
  - destruct (operands_total g n (wf_once g W) (wf_mux g W n Hw)) as (s & l & h & E & Hs & Hl & Hh). rewrite E. cbn [bind].
    destruct (proj2 K s (Hp s (in_preds _ _ _ Hs))) as (bs & Ns & Vs), (proj2 K l (Hp l (in_preds _ _ _ Hl))) as (bl & Nl & Vl), (proj2 K h (Hp h (in_preds _ _ _ Hh))) as (bh & Nh & Vh).
    unfold get. rewrite Ns, Nl, Nh. cbn [bind]. apply set_known; auto. eapply value_mux; eauto.
  - pose proof (Hv n x Hw) as Hx. destruct (nth_error ins x) as [b|] eqn:Nx; [|apply nth_error_None in Nx; lia]. unfold get. rewrite Nx. cbn [bind]. apply set_known; auto. eapply value_var; eauto.
  - destruct (in_edges g n) as [|((s, t), l) es] eqn:Ei.
    + exfalso. destruct (proj2 (wf_out g W n i Hw OutEdge) eq_refl) as (s & Hs). assert (X : In (s, n, OutEdge) (in_edges g n)) by (apply in_edges_spec; split; [exact Hs|reflexivity]). rewrite Ei in X. destruct X.
    + assert (X : In (s, t, l) (in_edges g n)) by (rewrite Ei; now left). apply in_edges_spec in X as [X Et]. cbn in Et. subst t.
      assert (l = OutEdge) as -> by (apply (wf_out g W n i Hw l); now exists s). cbn [fst].
      destruct (proj2 K s (Hp s (in_preds _ _ _ X))) as (b & Nb & Vb). unfold get. rewrite Nb. cbn [bind]. apply set_known; auto. eapply value_out; eauto.
Qed.
Lemma eval_fold : forall rest done data, NoDup (done ++ rest) -> (forall i, In i rest -> contains g i = true) ->
  (forall pre n post, rest = pre ++ n :: post -> forall m, In m (preds g n) -> In m (done ++ pre)) -> known data done ->
  exists data', foldM (eval_node g ins) rest data = Ok data' /\ known data' (done ++ rest).
Proof.
  induction rest as [|n rest IH]; intros done data ND Hc Hp K; cbn [foldM].
  - exists data. rewrite app_nil_r. split; [reflexivity|exact K].
  - destruct (eval_node_ok data done n K) as (data1 & E1 & K1).
    + apply Hc. now left.
    + intros H. apply NoDup_remove_2 in ND. apply ND, in_or_app. now left.
    + intros m Hm. rewrite <- (app_nil_r done). apply (Hp [] n rest eq_refl m Hm).
    + rewrite E1. cbn [bind]. replace (done ++ n :: rest) with ((done ++ [n]) ++ rest) in ND |- * by (rewrite <- app_assoc; reflexivity). apply IH; auto.
      * intros i Hi. apply Hc. now right.
      * intros pre x post -> m Hm. rewrite <- app_assoc. cbn [app]. apply (Hp (n :: pre) x post eq_refl m Hm).
Qed.
Lemma full_indices : node_indices g = seq 0 (length (gnodes g)).
Proof.
  unfold node_indices. apply filter_all. intros n Hn. apply in_seq in Hn. apply Hfull. lia.
Qed.
Lemma eval_all : exists data, forward_traverse g (eval_node g ins) (repeat false (length (node_indices g))) = Ok data /\ forall n, contains g n = true -> exists b, nth_error data n = Some b /\ value g ins n b.
Proof.
  destruct (traverse_order g (wf_ends g W) (wf_acyclic g W)) as (order & ND & Hi & Ht & Hf). rewrite Hf.
  destruct (eval_fold order [] (repeat false (length (node_indices g)))) as (data & E & [_ K]).
  - exact ND.
  - intros i H. now apply Hi.
  - intros pre n post E m Hm. cbn [app]. eapply Ht; eauto.
  - split; [rewrite repeat_length, full_indices, seq_length; reflexivity|]. intros i [].
  - exists data. split; [exact E|]. intros n Hn. apply K. now apply Hi.
Qed.
End Eval.

Lemma sort_sorted : forall l, (forall a x b y c, l = a ++ x :: b ++ y :: c -> fst x < fst y) -> sort_by l = l.
Proof.
  intros l H. unfold sort_by. assert (G : forall l2 l1, (forall a x b y c, l1 ++ l2 = a ++ x :: b ++ y :: c -> fst x < fst y) -> fold_left (fun acc x => insert_by x acc) l2 l1 = l1 ++ l2).
  { induction l2 as [|x l2 IH]; intros l1 Hs; cbn [fold_left]; [now rewrite app_nil_r|].
    assert (Ei : insert_by x l1 = l1 ++ [x]).
    { assert (Hx : forall y, In y l1 -> fst y < fst x). { intros y Hy. apply in_split in Hy as (a & b & ->). apply (Hs a y b x l2). rewrite <- app_assoc. reflexivity. }
      clear - Hx. induction l1 as [|y l1 IH]; [reflexivity|]. cbn [insert_by app]. rewrite (proj2 (Nat.ltb_ge _ _)) by (apply Nat.lt_le_incl, Hx; now left). f_equal. apply IH. intros z Hz. apply Hx. now right. }
    rewrite Ei, IH; [rewrite <- app_assoc; reflexivity|]. intros a y b z c. rewrite <- app_assoc. apply Hs. }
  apply (G l []). exact H.
Qed.
Lemma outputs_sorted (g : mgraph) : outputs_of g = flat_map (fun n => match node g n with Some (MOut i) => [(n, i)] | _ => [] end) (node_indices g).
Proof.
  unfold outputs_of. apply sort_sorted. unfold node_indices. generalize 0 as k. generalize (length (gnodes g)) as len. induction len as [|len IH]; intros k a x b y c H; cbn [seq filter] in H.
  - destruct a; discriminate.
  - assert (B : forall z, In z (flat_map (fun n => match node g n with Some (MOut i) => [(n, i)] | _ => [] end) (filter (contains g) (seq (S k) len))) -> k < fst z).
    { intros z Hz. apply in_flat_map in Hz as (n & Hn & Hz). apply filter_In in Hn as [Hn _]. apply in_seq in Hn. destruct (node g n) as [[| | | |i]|]; try destruct Hz as [<- |[]]; try destruct Hz. cbn. lia. }
    destruct (contains g k); [|now apply (IH (S k) a x b y c)]. cbn [flat_map] in H. destruct (node g k) as [[| | | |i]|]; cbn [app] in H; try (now apply (IH (S k) a x b y c)).
    destruct a as [|z a]; cbn [app] in H; injection H as H1 H; [|now apply (IH (S k) a x b y c)]. subst x. cbn [fst]. apply B. rewrite H. apply in_or_app. right. now left.
Qed.
