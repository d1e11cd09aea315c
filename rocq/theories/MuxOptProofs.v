(** Proofs: common-subexpression elimination finishes on levelled circuits and leaves no two muxes with the same operands. *)
From Coq Require Import Permutation ZifyBool ZifyNat.
From Verif Require Import Base Alu AluProofs Graph MuxGraph SpecMux MuxGraphProofs MuxGraphProofs2 MuxGraphProofs3 MuxEval MuxEvalProofs.
Open Scope nat_scope.

Definition ekeys (es : list (nat * nat * medge)) : list (nat * medge) := map (fun e => (snd (fst e), snd e)) es.

Lemma NoDup_app_inv {A} : forall a b : list A, NoDup (a ++ b) -> NoDup a /\ NoDup b /\ forall x, In x a -> In x b -> False.
Proof.
  induction a as [|x a IH]; intros b H; [split; [constructor|split; [exact H|intros x []]]|]. cbn [app] in H. inversion H as [|? ? H1 H2]; subst.
  destruct (IH b H2) as (A1 & A2 & A3). split; [constructor; [|exact A1]; intros K; apply H1, in_or_app; now left|]. split; [exact A2|].
  intros y [<- |Hy] Hb; [apply H1, in_or_app; now right|eapply A3; eauto].
Qed.

(** ** Applying a batch of merges *)
Lemma apply_adds_ok : forall (es : list (nat * nat * medge)) f g, contains g f = true -> (forall e, In e es -> contains g (snd (fst e)) = true) ->
  apply_transforms (map (fun e => TAddEdge f (snd (fst e)) (snd e)) es) g =
  Ok {| gnodes := gnodes g; gedges := rev (map (fun e => (f, snd (fst e), snd e)) es) ++ gedges g |}.
Proof.
  induction es as [|e es IH]; intros f g Hf He; [destruct g; reflexivity|]. unfold apply_transforms. cbn [map foldM apply_transform]. unfold add_edge.
  rewrite Hf, (He e ltac:(now left)). cbn [andb bind]. specialize (IH f {| gnodes := gnodes g; gedges := (f, snd (fst e), snd e) :: gedges g |}).
  unfold apply_transforms in IH. rewrite IH; [|exact Hf|intros e' H; apply He; now right]. cbn [gnodes gedges rev]. now rewrite <- app_assoc.
Qed.
Lemma filter_split_perm {A} (p : A -> bool) l : Permutation l (filter p l ++ filter (fun x => negb (p x)) l).
Proof.
  induction l as [|x l IH]; [constructor|]. cbn [filter]. destruct (p x); cbn [negb app]; [now constructor|].
  etransitivity; [constructor; exact IH|]. apply Permutation_middle.
Qed.
Lemma remove_length (g : mgraph) n : length (gnodes (remove_node g n)) = length (gnodes g).
Proof. unfold remove_node. cbn [gnodes]. rewrite map_length, combine_length, seq_length. lia. Qed.
Lemma apply_length ts : forall g g', apply_transforms ts g = Ok g' -> length (gnodes g') = length (gnodes g).
Proof.
  induction ts as [|t ts IH]; intros g g' H; [injection H as <-; reflexivity|]. unfold apply_transforms in H. cbn [foldM] in H.
  destruct (apply_transform g t) as [g1| |] eqn:E; [|discriminate|discriminate]. cbn [bind] in H. rewrite (IH g1 g' H). destruct t; cbn [apply_transform] in E.
  - apply add_edge_inv in E as (_ & _ & ->). reflexivity.
  - injection E as <-. apply remove_length.
Qed.

Lemma merges_ok (g : mgraph) : forall ps g0,
  (forall f e, In (f, e) ps -> contains g0 f = true /\ forall t l, In (e, t, l) (gedges g) -> contains g0 t = true) ->
  (forall f e f' e', In (f, e) ps -> In (f', e') ps -> f <> e' /\ forall t l, In (e, t, l) (gedges g) -> t <> e') ->
  NoDup (map snd ps) -> (forall f e, In (f, e) ps -> out_edges g0 e = out_edges g e) -> NoDup (ekeys (gedges g0)) ->
  exists g', apply_transforms (flat_map (mv g) ps) g0 = Ok g' /\ NoDup (ekeys (gedges g')).
Proof.
  induction ps as [|(f, e) ps IH]; intros g0 Hc Hd ND Ho U.
  - exists g0. split; [reflexivity|exact U].
  - cbn [flat_map]. unfold mv at 1, move_edges. cbn [fst snd]. cbn [map snd] in ND. inversion ND as [|? ? Ne ND']; subst.
    destruct (Hc f e ltac:(now left)) as [Cf Ct]. destruct (Hd f e f e ltac:(now left) ltac:(now left)) as [Dfe Dt].
    set (g1 := {| gnodes := gnodes g0; gedges := rev (map (fun e0 => (f, snd (fst e0), snd e0)) (out_edges g e)) ++ gedges g0 |}).
    assert (E1 : apply_transforms (map (fun e0 => TAddEdge f (snd (fst e0)) (snd e0)) (out_edges g e)) g0 = Ok g1).
    { apply apply_adds_ok; [exact Cf|]. intros ((s, t), l) H. apply out_edges_spec in H as [H Es]. cbn in *. subst s. eapply Ct, H. }
    assert (E2 : apply_transforms ((map (fun e0 => TAddEdge f (snd (fst e0)) (snd e0)) (out_edges g e) ++ [TRemoveNode e]) ++ flat_map (mv g) ps) g0 =
                 apply_transforms (flat_map (mv g) ps) (remove_node g1 e)).
    { unfold apply_transforms in *. rewrite !foldM_app, E1. reflexivity. }
    rewrite E2. apply IH.
    + intros f' e' Hp. destruct (Hc f' e' ltac:(now right)) as [C1 C2]. destruct (Hd f' e' f e ltac:(now right) ltac:(now left)) as [D1 D2]. unfold contains. split.
      * rewrite node_remove. destruct (Nat.eqb_spec f' e); [congruence|]. exact C1.
      * intros t l H. rewrite node_remove. destruct (Nat.eqb_spec t e) as [-> |_]; [exfalso; eapply D2; eauto|]. eapply C2, H.
    + intros f1 e1 f2 e2 H1 H2. apply (Hd f1 e1 f2 e2); now right.
    + exact ND'.
    + intros f' e' Hp. rewrite <- (Ho f' e' ltac:(now right)). destruct (Hd f e f' e' ltac:(now left) ltac:(now right)) as [D1 _]. destruct (Hd f' e' f e ltac:(now right) ltac:(now left)) as [_ D2].
      assert (e' <> e) by (intros ->; apply Ne; apply in_map_iff; now exists (f', e)).
      unfold out_edges, remove_node. cbn [gedges g1]. rewrite filter_app. rewrite filter_app.
      replace (filter (fun e0 => fst (fst e0) =? e') (filter (fun e0 => negb (fst (fst e0) =? e) && negb (snd (fst e0) =? e)) (rev (map (fun e0 => (f, snd (fst e0), snd e0)) (out_edges g e))))) with (@nil (nat * nat * medge)).
      2:{ symmetry. destruct (filter _ _) as [|x xs] eqn:F; [reflexivity|exfalso]. assert (H3 : In x (x :: xs)) by now left. rewrite <- F in H3. apply filter_In in H3 as [H3 H4].
          apply filter_In in H3 as [H3 _]. rewrite <- in_rev in H3. apply in_map_iff in H3 as (y & <- & _). cbn in H4. apply Nat.eqb_eq in H4. congruence. }
      cbn [app]. assert (K : forall x, In x (gedges g0) -> fst (fst x) = e' -> snd (fst x) <> e).
      { intros ((s, t), l) Hx Es. cbn in *. subst s. assert (Hx' : In (e', t, l) (out_edges g0 e')) by (apply out_edges_spec; auto). rewrite (Ho f' e' ltac:(now right)) in Hx'.
        apply out_edges_spec in Hx' as [Hx' _]. eapply D2, Hx'. }
      clear - K H. revert K. generalize (gedges g0). induction l as [|x l IH]; intros K; [reflexivity|]. cbn [filter].
      assert (K' : forall y, In y l -> fst (fst y) = e' -> snd (fst y) <> e) by (intros y Hy; apply K; now right). specialize (IH K').
      destruct (Nat.eqb_spec (fst (fst x)) e') as [Ex|Ex].
      * destruct (Nat.eqb_spec (fst (fst x)) e); [congruence|]. destruct (Nat.eqb_spec (snd (fst x)) e) as [Ey|_]; [exfalso; apply (K x); [now left|exact Ex|exact Ey]|].
        cbn [negb andb filter]. rewrite (proj2 (Nat.eqb_eq _ _) Ex). now f_equal.
      * destruct (negb _ && negb _); [|exact IH]. cbn [filter]. rewrite (proj2 (Nat.eqb_neq _ _) Ex). exact IH.
    + unfold remove_node. cbn [gedges g1]. rewrite filter_app. unfold ekeys in *. rewrite map_app.
      pose proof (filter_split_perm (fun e0 : nat * nat * medge => fst (fst e0) =? e) (gedges g0)) as P. fold (out_edges g0 e) in P. rewrite (Ho f e ltac:(now left)) in P.
      apply (Permutation_map (fun e0 : nat * nat * medge => (snd (fst e0), snd e0))) in P. rewrite map_app in P. apply (Permutation_NoDup P) in U. clear P.
      apply NoDup_app_inv in U as (U1 & U2 & X).
      apply NoDup_app_intro.
      * apply NoDup_map_filter. rewrite map_rev, map_map. cbn [fst snd]. now apply NoDup_rev.
      * clear - U2. apply (NoDup_map_filter _ (fun e0 => negb (snd (fst e0) =? e))) in U2. replace (filter (fun e0 => negb (fst (fst e0) =? e) && negb (snd (fst e0) =? e)) (gedges g0)) with (filter (fun e0 => negb (snd (fst e0) =? e)) (filter (fun x => negb (fst (fst x) =? e)) (gedges g0))); [exact U2|].
        generalize (gedges g0). induction l as [|x l IH]; [reflexivity|]. cbn [filter]. destruct (negb (fst (fst x) =? e)); cbn [andb filter]; [destruct (negb (snd (fst x) =? e)); [f_equal|]; exact IH|exact IH].
      * intros x H1 H2. apply in_map_iff in H1 as (y & <- & H1). apply filter_In in H1 as [H1 _]. rewrite <- in_rev in H1. apply in_map_iff in H1 as (z & <- & H1). cbn [fst snd] in H2.
        apply in_map_iff in H2 as (w & Ew & H2). apply filter_In in H2 as [H2 H3].
        apply (X (snd (fst z), snd z)); [apply in_map_iff; now exists z|]. apply in_map_iff. exists w. split; [exact Ew|]. apply filter_In. split; [exact H2|]. destruct (negb (fst (fst w) =? e)); [reflexivity|discriminate].
Qed.
