(** Proofs: extending a circuit, ciphertext conversion, prune. *)
From Coq Require Import ZifyBool ZifyNat Permutation.
From Verif Require Import Base Graph MuxGraph FheGraph SpecFhe MuxGraphProofs FheProofs.
Open Scope nat_scope.

(** ** Adding nodes and edges into them *)
Definition extend (g : fgraph) (ops : list fop) (es : list (nat * nat * fedge)) : fgraph :=
  {| gnodes := gnodes g ++ map Some ops; gedges := es ++ gedges g |}.
Definition size (g : fgraph) := length (gnodes g).

Lemma extend_node_old : forall g ops es n, n < size g -> node (extend g ops es) n = node g n.
Proof. intros. unfold node, extend. cbn [gnodes]. now rewrite nth_error_app1. Qed.
Lemma extend_node_new : forall g ops es k, node (extend g ops es) (size g + k) = nth_error ops k.
Proof.
  intros. unfold node, extend, size. cbn [gnodes]. rewrite nth_error_app2 by lia. replace (length (gnodes g) + k - length (gnodes g)) with k by lia.
  rewrite nth_error_map. destruct (nth_error ops k); reflexivity.
Qed.
Lemma extend_size : forall g ops es, size (extend g ops es) = size g + length ops.
Proof. intros. unfold size, extend. cbn [gnodes]. now rewrite app_length, map_length. Qed.
Lemma contains_lt : forall (g : fgraph) n, contains g n = true -> n < size g.
Proof. intros g n H. apply contains_node in H. destruct H as [w H]. now apply node_lt in H. Qed.
Lemma extend_in_old : forall g ops es n, n < size g -> (forall s t l, In (s, t, l) es -> size g <= t) -> in_edges (extend g ops es) n = in_edges g n.
Proof.
  intros g ops es n Hn H. unfold in_edges, extend. cbn [gedges]. rewrite filter_app.
  replace (filter (fun e : nat * nat * fedge => snd (fst e) =? n) es) with (@nil (nat * nat * fedge)); [reflexivity|].
  symmetry. induction es as [|[[s t] l] es IH]; [reflexivity|]. cbn [filter fst snd]. assert (size g <= t) by (apply (H s t l); now left).
  replace (t =? n) with false by lia. apply IH. intros. eapply H. right. eauto.
Qed.
Lemma extend_in_new : forall g ops es n, edges_ok g -> size g <= n -> in_edges (extend g ops es) n = filter (fun e => snd (fst e) =? n) es.
Proof.
  intros g ops es n EN Hn. unfold in_edges, extend. cbn [gedges]. rewrite filter_app.
  replace (filter (fun e : nat * nat * fedge => snd (fst e) =? n) (gedges g)) with (@nil (nat * nat * fedge)); [now rewrite app_nil_r|].
  assert (H : forall s t l, In (s, t, l) (gedges g) -> t < size g) by (intros s t l HI; apply contains_lt; eapply EN; eauto).
  symmetry. revert H. generalize (gedges g). induction l as [|[[s t] l] es' IH]; intros H; [reflexivity|]. cbn [filter fst snd].
  assert (t < size g) by (apply (H s t l); now left). replace (t =? n) with false by lia. apply IH. intros. eapply H. right. eauto.
Qed.
Lemma extend_contains : forall g ops es n, contains g n = true -> contains (extend g ops es) n = true.
Proof. intros g ops es n H. unfold contains. rewrite extend_node_old by (now apply contains_lt). exact H. Qed.
Lemma extend_contains_new : forall g ops es k, k < length ops -> contains (extend g ops es) (size g + k) = true.
Proof. intros. unfold contains. rewrite extend_node_new. destruct (nth_error ops k) eqn:E; auto. apply nth_error_None in E. lia. Qed.
Lemma extend_edges_ok : forall g ops es, edges_ok g ->
  (forall s t l, In (s, t, l) es -> contains (extend g ops es) s = true /\ contains (extend g ops es) t = true) -> edges_ok (extend g ops es).
Proof.
  intros g ops es EN H s t l Hi. cbn [extend gedges] in Hi. apply in_app_iff in Hi. destruct Hi as [Hi|Hi]; [eauto|].
  destruct (EN _ _ _ Hi). split; now apply extend_contains.
Qed.
Lemma extend_values : forall deg cells g ops es, edges_ok g -> (forall s t l, In (s, t, l) es -> size g <= t) ->
  forall n o, contains g n = true -> (fvalue deg cells g n o <-> fvalue deg cells (extend g ops es) n o).
Proof.
  intros deg cells g ops es EN H n o C. apply (extend_value deg cells g (extend g ops es) (size g)); auto.
  - intros. now apply contains_lt.
  - intros. now apply extend_node_old.
  - intros. now apply extend_in_old.
  - now apply contains_lt.
Qed.

Lemma add_node_extend : forall g op, add_node g op = (size g, extend g [op] []).
Proof. reflexivity. Qed.
Lemma extend_extend : forall g o1 e1 o2 e2, extend (extend g o1 e1) o2 e2 = extend g (o1 ++ o2) (e2 ++ e1).
Proof. intros. unfold extend. cbn [gnodes gedges]. now rewrite map_app, !app_assoc. Qed.
Lemma add_edges_extend : forall es g, (forall s t l, In (s, t, l) es -> contains g s = true /\ contains g t = true) ->
  add_edges g es = Ok (extend g [] (rev es)).
Proof.
  unfold add_edges. induction es as [|[[s t] l] es IH]; intros g H.
  - cbn. destruct g. unfold extend. cbn. now rewrite app_nil_r.
  - cbn [foldM fst snd]. destruct (H s t l (or_introl eq_refl)) as [C1 C2]. unfold add_edge. rewrite C1, C2. cbn [andb bind].
    rewrite IH.
    + f_equal. unfold extend. cbn [gnodes gedges rev map]. now rewrite !app_nil_r, <- app_assoc.
    + intros s' t' l' Hi. apply (H s' t' l'). now right.
Qed.

Lemma grows_refl : forall g, edges_ok g -> grows g g.
Proof. intros g H. split; auto. intros n C. repeat split; auto. Qed.
Lemma grows_trans : forall a b c, grows a b -> grows b c -> grows a c.
Proof.
  intros a b c [A1 A2] [B1 B2]. split; auto. intros n C. destruct (A2 n C) as (C1 & C2 & C3 & C4). destruct (B2 n C1) as (D1 & D2 & D3 & D4).
  split; [auto|]. split; [congruence|]. split; [congruence|]. intros. now rewrite C4, D4.
Qed.
Lemma extend_grows : forall g ops es, edges_ok g -> (forall s t l, In (s, t, l) es -> size g <= t) ->
  (forall s t l, In (s, t, l) es -> contains (extend g ops es) s = true /\ contains (extend g ops es) t = true) -> grows g (extend g ops es).
Proof.
  intros g ops es EN H1 H2. split; [now apply extend_edges_ok|]. intros n C. split; [now apply extend_contains|].
  split; [apply extend_node_old; now apply contains_lt|]. split; [apply extend_in_old; auto; now apply contains_lt|].
  intros. now apply extend_values.
Qed.

(** ** insert_ciphertext_conversion *)
Definition nxt (t out : cty) : cty :=
  match t with TLwe0 => TGgsw1 | TGgsw1 => if cty_eqb out TGlev1 then TGlev1 else TGlwe1 | TGlwe1 => TLwe1 | TLwe1 => TLwe0 | TGlev1 => TGgsw1 end.

Lemma size_contains0 : forall g ops es, 0 < length ops -> contains (extend g ops es) (size g) = true.
Proof. intros. rewrite <- (Nat.add_0_r (size g)). now apply extend_contains_new. Qed.

Lemma unary_step : forall g cur op, edges_ok g -> contains g cur = true ->
  let g' := extend g [op] [(cur, size g, EUnary)] in
  add_edges (extend g [op] []) [(cur, size g, EUnary)] = Ok g' /\ grows g g' /\ contains g' (size g) = true /\
  forall deg cells c o, carries deg cells g cur c -> exec_op deg cells op [(EUnary, Some c)] = Ok o -> fvalue deg cells g' (size g) o.
Proof.
  intros g cur op EN C g'. assert (G : grows g g').
  { apply extend_grows; auto.
    - intros s t l [H|[]]. injection H as <- <- <-. lia.
    - intros s t l [H|[]]. injection H as <- <- <-. split; [now apply extend_contains|apply size_contains0; cbn; lia]. }
  split; [|split; [exact G|split]].
  - rewrite add_edges_extend, extend_extend; [reflexivity|]. intros s t l [H|[]]. injection H as <- <- <-.
    split; [now apply extend_contains|apply size_contains0; cbn; lia].
  - apply size_contains0. cbn. lia.
  - intros deg cells c o V E. apply (fv_node deg cells g' (size g) op [(EUnary, Some c)]); auto.
    + unfold g'. rewrite <- (Nat.add_0_r (size g)) at 2. now rewrite extend_node_new.
    + unfold g' at 2. rewrite extend_in_new by (auto; lia). cbn [filter fst snd]. rewrite Nat.eqb_refl.
      econstructor; [|constructor]. apply (proj2 G cur C). exact V.
Qed.

Lemma carries_node : forall deg cells g n op o, node g n = Some op -> in_edges g n = [] -> exec_op deg cells op [] = Ok o -> fvalue deg cells g n o.
Proof. intros. econstructor; eauto. rewrite H0. constructor. Qed.

Lemma convert_step_ok : forall g cur t out, edges_ok g -> contains g cur = true -> t <> out ->
  exists g' n, convert_step g cur t out = Ok (g', n, nxt t out) /\ grows g g' /\ contains g' n = true /\
    forall deg cells, 0 < deg -> forall c, ty_of c = t -> carries deg cells g cur c ->
      exists c', ty_of c' = nxt t out /\ bit_of c' = bit_of c /\ carries deg cells g' n c' /\ (nxt t out = TGlwe1 -> c' = CGlwe1 (pconst deg (bit_of c))).
Proof.
  intros g cur t out EN C NE.
  assert (U : forall op next, next <> TGlwe1 -> (forall deg cells c, 0 < deg -> ty_of c = t -> exists c', ty_of c' = next /\ bit_of c' = bit_of c /\ exec_op deg cells op [(EUnary, Some c)] = Ok (Some c', None)) ->
    exists g' n, (let '(i, g1) := add_node g op in g2 <- add_edges g1 [(cur, i, EUnary)] ;; Ok (g2, i, next)) = Ok (g', n, next) /\ grows g g' /\ contains g' n = true /\
    forall deg cells, 0 < deg -> forall c, ty_of c = t -> carries deg cells g cur c -> exists c', ty_of c' = next /\ bit_of c' = bit_of c /\ carries deg cells g' n c' /\ (next = TGlwe1 -> c' = CGlwe1 (pconst deg (bit_of c)))).
  { intros op next HN H. destruct (unary_step g cur op EN C) as (E1 & E2 & E3 & E4). rewrite add_node_extend, E1. cbn [bind].
    eexists _, _. split; [reflexivity|]. split; [auto|]. split; [auto|]. intros deg cells D c T V.
    destruct (H deg cells c D T) as (c' & H1 & H2 & H3). exists c'. split; [auto|]. split; [auto|]. split; [now apply (E4 deg cells c)|contradiction]. }
  destruct t; cbn [convert_step nxt].
  - apply U; [discriminate|]. intros deg cells c D T. destruct c; try discriminate. exists (CGgsw1 b). auto.
  - apply U; [discriminate|]. intros deg cells c D T. destruct c; try discriminate. exists (CLwe0 b). auto.
  - apply U; [discriminate|]. intros deg cells c D T. destruct c; try discriminate. exists (CLwe1 (nth 0 p false)). split; [auto|]. split; [auto|].
    unfold exec_op, validate. cbn [validate_inputs validate_op_input ty_of cty_eqb bind]. replace (deg <=? 0) with false by lia. reflexivity.
  - destruct (cty_eqb out TGlev1) eqn:Eo.
    + assert (out = TGlev1) by (destruct out; auto; discriminate). subst out.
      rewrite !add_node_extend, !extend_extend, !extend_size. cbn [app length].
      set (i := size g). set (z := size g + 1). replace (size g + (1 + 1)) with (size g + 2) by lia. set (o := size g + 2).
      set (ops := [FGlevCMux; FZero TGlev1; FOne TGlev1]). set (es := [(z, i, ELow); (o, i, EHigh); (cur, i, ESel)]).
      assert (CE : forall es' s t l, In (s, t, l) es -> contains (extend g ops es') s = true /\ contains (extend g ops es') t = true).
      { intros es' s t l H. assert (Ci : contains (extend g ops es') i = true) by (apply size_contains0; cbn; lia).
        assert (Cz : contains (extend g ops es') z = true) by (apply extend_contains_new; cbn; lia).
        assert (Co : contains (extend g ops es') o = true) by (apply extend_contains_new; cbn; lia).
        assert (Cc : contains (extend g ops es') cur = true) by (now apply extend_contains).
        destruct H as [H|[H|[H|[]]]]; injection H as <- <- <-; auto. }
      rewrite add_edges_extend by (intros s t l H; exact (CE _ s t l H)). cbn [bind]. rewrite extend_extend. cbn [app]. rewrite !app_nil_r.
      fold es. set (g' := extend g ops (rev es)). change ([FGlevCMux] ++ [FZero TGlev1]) with [FGlevCMux; FZero TGlev1].
      assert (G : grows g g').
      { apply extend_grows; auto.
        - intros s t l H. apply in_rev in H. destruct H as [H|[H|[H|[]]]]; injection H as <- <- <-; unfold i; lia.
        - intros s t l H. apply in_rev in H. exact (CE _ s t l H). }
      exists g', i. split; [reflexivity|]. split; [exact G|]. split; [apply size_contains0; cbn; lia|].
      intros deg cells D c T V. destruct c; try discriminate. exists (CGlev1 b). split; [auto|]. split; [auto|]. split; [|discriminate].
      assert (Vz : fvalue deg cells g' z (Some (CGlev1 false), None)).
      { apply (carries_node deg cells g' z (FZero TGlev1)); [unfold g', z; now rewrite extend_node_new| |reflexivity].
        unfold g'. rewrite extend_in_new by (auto; unfold z; lia). cbn [rev es app filter fst snd]. unfold i, z. replace (size g =? size g + 1) with false by lia. reflexivity. }
      assert (Vo : fvalue deg cells g' o (Some (CGlev1 true), None)).
      { apply (carries_node deg cells g' o (FOne TGlev1)); [unfold g', o; now rewrite extend_node_new| |reflexivity].
        unfold g'. rewrite extend_in_new by (auto; unfold o; lia). cbn [rev es app filter fst snd]. unfold i, o. replace (size g =? size g + 2) with false by lia. reflexivity. }
      apply (fv_node deg cells g' i FGlevCMux [(ESel, Some (CGgsw1 b)); (EHigh, Some (CGlev1 true)); (ELow, Some (CGlev1 false))]).
      * unfold g', i. rewrite <- (Nat.add_0_r (size g)). now rewrite extend_node_new.
      * unfold g' at 2. rewrite extend_in_new by (auto; unfold i; lia). cbn [rev es app filter fst snd]. rewrite !Nat.eqb_refl.
        econstructor; [apply (proj2 G cur C); exact V|]. econstructor; [exact Vo|]. econstructor; [exact Vz|]. constructor.
      * destruct b; reflexivity.
    + rewrite !add_node_extend, !extend_extend, !extend_size. cbn [app length].
      set (i := size g). set (o := size g + 1).
      set (ops := [FMultiply; FOne TGlwe1]). set (es := [(o, i, EGlwe); (cur, i, EGgsw)]).
      assert (CE : forall es' s t l, In (s, t, l) es -> contains (extend g ops es') s = true /\ contains (extend g ops es') t = true).
      { intros es' s t l H. assert (Ci : contains (extend g ops es') i = true) by (apply size_contains0; cbn; lia).
        assert (Co : contains (extend g ops es') o = true) by (apply extend_contains_new; cbn; lia).
        assert (Cc : contains (extend g ops es') cur = true) by (now apply extend_contains).
        destruct H as [H|[H|[]]]; injection H as <- <- <-; auto. }
      rewrite add_edges_extend by (intros s t l H; exact (CE _ s t l H)). cbn [bind]. rewrite extend_extend. cbn [app]. rewrite !app_nil_r.
      set (g' := extend g ops (rev es)).
      assert (G : grows g g').
      { apply extend_grows; auto.
        - intros s t l H. apply in_rev in H. destruct H as [H|[H|[]]]; injection H as <- <- <-; unfold i; lia.
        - intros s t l H. apply in_rev in H. exact (CE _ s t l H). }
      exists g', i. split; [reflexivity|]. split; [exact G|]. split; [apply size_contains0; cbn; lia|].
      intros deg cells D c T V. destruct c; try discriminate. exists (CGlwe1 (if b then pconst deg true else pzero deg)). split; [auto|].
      split; [destruct deg; [lia|]; destruct b; reflexivity|]. split; [|intros _; destruct deg; [lia|]; destruct b; reflexivity].
      assert (Vo : fvalue deg cells g' o (Some (CGlwe1 (pconst deg true)), None)).
      { apply (carries_node deg cells g' o (FOne TGlwe1)); [unfold g', o; now rewrite extend_node_new| |reflexivity].
        unfold g'. rewrite extend_in_new by (auto; unfold o; lia). cbn [rev es app filter fst snd]. unfold i, o. replace (size g =? size g + 1) with false by lia. reflexivity. }
      apply (fv_node deg cells g' i FMultiply [(EGgsw, Some (CGgsw1 b)); (EGlwe, Some (CGlwe1 (pconst deg true)))]).
      * unfold g', i. rewrite <- (Nat.add_0_r (size g)). now rewrite extend_node_new.
      * unfold g' at 2. rewrite extend_in_new by (auto; unfold i; lia). cbn [rev es app filter fst snd]. rewrite !Nat.eqb_refl.
        econstructor; [apply (proj2 G cur C); exact V|]. econstructor; [exact Vo|]. constructor.
      * reflexivity.
  - apply U; [discriminate|]. intros deg cells c D T. destruct c; try discriminate. exists (CGgsw1 b). auto.
Qed.

Fixpoint enough (fuel : nat) (t out : cty) : bool :=
  if cty_eqb t out then true else match fuel with O => false | S fuel => enough fuel (nxt t out) out end.
Lemma cty_eqb_eq : forall a b, cty_eqb a b = true <-> a = b.
Proof. intros [] []; cbn; split; intros; congruence. Qed.
Lemma convert_rec_ok : forall fuel g cur t out, edges_ok g -> contains g cur = true -> enough fuel t out = true ->
  exists g' n, convert_rec fuel g cur t out = Ok (g', n) /\ grows g g' /\ contains g' n = true /\
    forall deg cells, 0 < deg -> forall c, ty_of c = t -> carries deg cells g cur c ->
      exists c', ty_of c' = out /\ bit_of c' = bit_of c /\ carries deg cells g' n c' /\ (if cty_eqb t out then g' = g /\ n = cur /\ c' = c else out = TGlwe1 -> c' = CGlwe1 (pconst deg (bit_of c))).
Proof.
  induction fuel as [|fuel IH]; intros g cur t out EN C E; cbn [enough convert_rec] in *.
  - destruct (cty_eqb t out) eqn:Et; [|discriminate]. apply cty_eqb_eq in Et. subst out. exists g, cur. split; [auto|]. split; [now apply grows_refl|]. split; [auto|]. intros deg cells D c T V. exists c. repeat split; auto.
  - destruct (cty_eqb t out) eqn:Et.
    + apply cty_eqb_eq in Et. subst out. exists g, cur. split; [auto|]. split; [now apply grows_refl|]. split; [auto|]. intros deg cells D c T V. exists c. repeat split; auto.
    + assert (NE : t <> out) by (intros ->; rewrite (proj2 (cty_eqb_eq out out) eq_refl) in Et; discriminate).
      destruct (convert_step_ok g cur t out EN C NE) as (g1 & n1 & E1 & G1 & C1 & V1). rewrite E1. cbn [bind].
      destruct (IH g1 n1 (nxt t out) out (proj1 G1) C1 E) as (g2 & n2 & E2 & G2 & C2 & V2). exists g2, n2. split; [exact E2|].
      split; [eapply grows_trans; eauto|]. split; [auto|]. intros deg cells D c T V. destruct (V1 deg cells D c T V) as (c1 & T1 & B1 & W1 & K1).
      destruct (V2 deg cells D c1 T1 W1) as (c2 & T2 & B2 & W2 & K2). exists c2. split; [auto|]. split; [congruence|]. split; [auto|].
      intros O. destruct (cty_eqb (nxt t out) out) eqn:Ex.
      * destruct K2 as (_ & _ & ->). apply cty_eqb_eq in Ex. apply K1. congruence.
      * rewrite (K2 O). congruence.
Qed.
Lemma convert_ok : forall g cur t out, edges_ok g -> contains g cur = true ->
  exists g' n, convert g cur t out = Ok (g', n) /\ grows g g' /\ contains g' n = true /\
    forall deg cells, 0 < deg -> forall c, ty_of c = t -> carries deg cells g cur c ->
      exists c', ty_of c' = out /\ bit_of c' = bit_of c /\ carries deg cells g' n c'.
Proof.
  intros g cur t out EN C. destruct (convert_rec_ok 4 g cur t out EN C) as (g' & n & E & G & C' & V); [destruct t, out; reflexivity|].
  exists g', n. split; [exact E|]. split; [exact G|]. split; [exact C'|]. intros deg cells D c T W. destruct (V deg cells D c T W) as (c' & H1 & H2 & H3 & _). eauto.
Qed.
