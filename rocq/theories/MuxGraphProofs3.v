(** Proofs: common-subexpression elimination preserves the value of every remaining node. *)
From Coq Require Import ZifyBool ZifyNat.
From Verif Require Import Base Graph MuxGraph SpecMux MuxGraphProofs MuxGraphProofs2.
Open Scope nat_scope.

Lemma medge_eqb_eq : forall a b, medge_eqb a b = true <-> a = b.
Proof. intros [] []; cbn; split; intros; congruence. Qed.

(** A mux with operands k: exactly these three inputs. *)
Lemma get_mux_operands_inv : forall g n s l h, get_mux_operands g n = Ok (s, l, h) ->
  forall a x, In (a, n, x) (gedges g) <-> (a, x) = (s, Select) \/ (a, x) = (l, Low) \/ (a, x) = (h, High).
Proof.
  intros g n s l h H. unfold get_mux_operands in H.
  destruct (negb (length (in_edges g n) =? 3)) eqn:El; [discriminate|].
  destruct (find _ _) as [[[s' n1] x1]|] eqn:E1 in H; [|discriminate].
  destruct (find _ _) as [[[l' n2] x2]|] eqn:E2 in H; [|discriminate].
  destruct (find _ _) as [[[h' n3] x3]|] eqn:E3 in H; [|discriminate].
  cbn [fst snd] in H. injection H as -> -> ->.
  apply find_some in E1. apply find_some in E2. apply find_some in E3. cbn [snd] in *.
  destruct E1 as [I1 X1]. destruct E2 as [I2 X2]. destruct E3 as [I3 X3].
  apply medge_eqb_eq in X1, X2, X3. subst.
  pose proof (proj1 (in_edges_spec g n _) I1) as [A1 B1]. pose proof (proj1 (in_edges_spec g n _) I2) as [A2 B2]. pose proof (proj1 (in_edges_spec g n _) I3) as [A3 B3].
  cbn [fst snd] in B1, B2, B3. subst n1 n2 n3.
  assert (L : length (in_edges g n) = 3) by lia.
  assert (ND : NoDup [(s, n, Select); (l, n, Low); (h, n, High)]).
  { repeat constructor; cbn; intuition congruence. }
  assert (IC : incl (in_edges g n) [(s, n, Select); (l, n, Low); (h, n, High)]).
  { apply (NoDup_length_incl ND); [rewrite L; cbn; lia|]. intros e [<-|[<-|[<-|[]]]]; auto. }
  intros a x. split.
  - intros Ha. assert (I : In (a, n, x) (in_edges g n)) by (apply in_edges_spec; auto).
    apply IC in I. cbn in I. destruct I as [I|[I|[I|[]]]]; injection I as <- <-; auto.
  - intros [E|[E|E]]; injection E as -> ->; auto.
Qed.

Definition mv (g : mgraph) (p : nat * nat) : list transform := move_edges g (fst p) (snd p).

(** State of the loop over the children. *)
Definition child_inv (g : mgraph) (ts : list transform) (seen : list (key * nat)) (ps : list (nat * nat)) : Prop :=
  ts = flat_map (mv g) ps /\
  (forall k f, In (k, f) seen -> node g f = Some MMux /\ get_mux_operands g f = Ok k) /\
  (forall k f f', In (k, f) seen -> In (k, f') seen -> f = f') /\
  (forall f e, In (f, e) ps -> f <> e /\ node g e = Some MMux /\ exists k, get_mux_operands g e = Ok k /\ In (k, f) seen).

Lemma key_eqb_eq : forall a b, key_eqb a b = true <-> a = b.
Proof.
  intros [[a1 a2] a3] [[b1 b2] b3]. unfold key_eqb. cbn [fst snd]. rewrite !andb_true_iff, !Nat.eqb_eq. split.
  - intros [[-> ->] ->]. auto.
  - intros H. injection H. auto.
Qed.

Lemma cse_children_inv : forall g es ts seen ps ts' seen', child_inv g ts seen ps ->
  foldM (cse_child g) es (ts, seen) = Ok (ts', seen') -> exists ps', child_inv g ts' seen' ps'.
Proof.
  intros g. induction es as [|e es IH]; intros ts seen ps ts' seen' I H.
  - cbn in H. injection H as <- <-. eauto.
  - cbn [foldM] in H. destruct (cse_child g (ts, seen) e) as [[ts1 seen1]| |] eqn:E; [|discriminate|discriminate]. cbn [bind] in H.
    assert (I1 : exists ps1, child_inv g ts1 seen1 ps1); [|destruct I1 as [ps1 I1]; eapply IH; eauto].
    unfold cse_child in E. destruct (node g e) as [w|] eqn:En; [|discriminate].
    destruct w; try (injection E as <- <-; exists ps; exact I).
    destruct (get_mux_operands g e) as [k| |] eqn:Ek; [|discriminate|discriminate]. cbn [bind] in E.
    destruct I as (I1 & I2 & I3 & I4).
    destruct (find _ seen) as [[k' f]|] eqn:Ef.
    + apply find_some in Ef. cbn [fst] in Ef. destruct Ef as [Ef1 Ef2]. apply key_eqb_eq in Ef2. subst k'.
      destruct (f =? e) eqn:Efe; injection E as <- <-.
      * exists ps. split; [|split; [|split]]; auto.
      * exists (ps ++ [(f, e)]). split; [|split; [|split]]; auto.
        -- rewrite flat_map_app, I1. cbn [flat_map]. now rewrite app_nil_r.
        -- intros f' e' Hp. apply in_app_iff in Hp. destruct Hp as [Hp|[Hp|[]]]; [auto|]. injection Hp as <- <-.
           apply Nat.eqb_neq in Efe. eauto 6.
    + injection E as <- <-. exists ps. split; [|split; [|split]]; auto.
      * intros k' f' [Hk|Hk]; [injection Hk as <- <-; auto|auto].
      * intros k' f1 f2 [H1|H1] [H2|H2].
        -- congruence.
        -- injection H1 as <- <-. eapply find_none in Ef; [|exact H2]. cbn in Ef. rewrite (proj2 (key_eqb_eq k k) eq_refl) in Ef. discriminate.
        -- injection H2 as <- <-. eapply find_none in Ef; [|exact H1]. cbn in Ef. rewrite (proj2 (key_eqb_eq k k) eq_refl) in Ef. discriminate.
        -- eauto.
      * intros f' e' Hp. destruct (I4 f' e' Hp) as (A & B & k' & C & D). split; [auto|]. split; auto. exists k'. split; auto. now right.
Qed.

(** ** Applying the transforms *)

Lemma apply_nodes : forall ts g g', apply_transforms ts g = Ok g' ->
  forall n, node g' n = if existsb (fun t => match t with TRemoveNode m => m =? n | _ => false end) ts then None else node g n.
Proof.
  induction ts as [|t ts IH]; intros g g' H n; [cbn in H; injection H as <-; reflexivity|].
  unfold apply_transforms in H. cbn [foldM] in H. destruct (apply_transform g t) as [g1| |] eqn:E; [|discriminate|discriminate]. cbn [bind] in H.
  fold (apply_transforms ts g1) in H. rewrite (IH g1 g' H n). cbn [existsb]. destruct t as [a b l|m]; cbn [apply_transform] in E.
  - apply add_edge_inv in E. destruct E as (_ & _ & ->). reflexivity.
  - injection E as <-. rewrite node_remove. rewrite (Nat.eqb_sym m n). destruct (n =? m); cbn [orb]; [|reflexivity].
    destruct (existsb _ ts); reflexivity.
Qed.
Lemma apply_nodes_mono : forall ts g g' n, apply_transforms ts g = Ok g' -> contains g' n = true -> contains g n = true.
Proof.
  intros ts g g' n H C. unfold contains in *. rewrite (apply_nodes ts g g' H n) in C. destruct (existsb _ ts); [discriminate|exact C].
Qed.
Lemma apply_add_contains : forall ts g g', apply_transforms ts g = Ok g' -> forall a b l, In (TAddEdge a b l) ts -> contains g b = true.
Proof.
  induction ts as [|t ts IH]; intros g g' H a b l HI; [destruct HI|].
  unfold apply_transforms in H. cbn [foldM] in H. destruct (apply_transform g t) as [g1| |] eqn:E; [|discriminate|discriminate]. cbn [bind] in H.
  fold (apply_transforms ts g1) in H. destruct HI as [->|HI].
  - cbn [apply_transform] in E. apply add_edge_inv in E. tauto.
  - specialize (IH g1 g' H a b l HI). destruct t as [a' b' l'|m]; cbn [apply_transform] in E.
    + apply add_edge_inv in E. destruct E as (_ & _ & ->). exact IH.
    + injection E as <-. unfold contains in *. rewrite node_remove in IH. destruct (b =? m); [discriminate|exact IH].
Qed.

(** The edges added by one [move_edges]. *)
Lemma apply_adds : forall (es : list (nat * nat * medge)) f g g',
  apply_transforms (map (fun e => TAddEdge f (snd (fst e)) (snd e)) es) g = Ok g' ->
  (forall n, node g' n = node g n) /\
  forall s t l, In (s, t, l) (gedges g') <-> In (s, t, l) (gedges g) \/ (s = f /\ exists e, In (e, t, l) es).
Proof.
  induction es as [|[[e t0] l0] es IH]; intros f g g' H.
  - cbn in H. injection H as <-. split; auto. intros. split; [auto|]. intros [?|(_ & e & [])]; auto.
  - unfold apply_transforms in H. cbn [map foldM apply_transform fst snd] in H. destruct (add_edge g f t0 l0) as [g1| |] eqn:E; [|discriminate|discriminate].
    cbn [bind] in H. fold (apply_transforms (map (fun e => TAddEdge f (snd (fst e)) (snd e)) es) g1) in H.
    apply add_edge_inv in E. destruct E as (_ & _ & ->). destruct (IH _ _ _ H) as [A B]. split; [intros n; rewrite A; reflexivity|].
    intros s t l. rewrite B. cbn [gedges In]. split.
    + intros [[X|X]|(X & e' & Y)].
      * right. injection X as <- <- <-. split; auto. exists e. now left.
      * auto.
      * right. split; auto. exists e'. now right.
    + intros [X|(X & e' & [Y|Y])].
      * auto.
      * injection Y as <- <- <-. subst s. auto.
      * right. eauto.
Qed.

Lemma apply_app : forall ts1 ts2 g g', apply_transforms (ts1 ++ ts2) g = Ok g' ->
  exists g1, apply_transforms ts1 g = Ok g1 /\ apply_transforms ts2 g1 = Ok g'.
Proof.
  unfold apply_transforms. intros ts1 ts2 g g' H. rewrite foldM_app in H. destruct (foldM _ ts1 g) as [g1| |]; [|discriminate|discriminate]. eauto.
Qed.

Lemma apply_merges : forall g ps, (forall f e e', In (f, e) ps -> In (e', f) ps -> False) ->
  forall g0 g', apply_transforms (flat_map (mv g) ps) g0 = Ok g' ->
  (forall n, node g' n = if mem n (map snd ps) then None else node g0 n) /\
  forall s t l, In (s, t, l) (gedges g') <->
    (In (s, t, l) (gedges g0) \/ exists f e, In (f, e) ps /\ s = f /\ In (e, t, l) (gedges g)) /\ ~ In s (map snd ps) /\ ~ In t (map snd ps).
Proof.
  intros g. induction ps as [|[f e] ps IH]; intros HN g0 g' H.
  - cbn in H. injection H as <-. split; auto. intros. cbn. split; [tauto|]. intros [[?|(f & e & [] & _)] _]; auto.
  - cbn [flat_map] in H. apply apply_app in H. destruct H as (g2 & H1 & H2). unfold mv, move_edges in H1. cbn [fst snd] in H1.
    apply apply_app in H1. destruct H1 as (g1 & H1 & H3). apply apply_adds in H1. destruct H1 as [A1 B1].
    cbn in H3. injection H3 as <-.
    assert (HN' : forall f e e', In (f, e) ps -> In (e', f) ps -> False) by (intros f1 e1 e1' X Y; apply (HN f1 e1 e1'); now right).
    destruct (IH HN' _ _ H2) as [A2 B2]. clear IH. split.
    + intros n. rewrite A2, node_remove, A1. cbn [map snd mem existsb]. unfold mem. destruct (n =? e); cbn [orb]; [|reflexivity].
      destruct (existsb _ _); reflexivity.
    + intros s t l. rewrite B2, edges_remove, B1. cbn [map snd In]. split.
      * intros [[[[X|(-> & e' & X)] [Y1 Y2]]|(f' & e' & X1 & X2 & X3)] [Z1 Z2]].
        -- split; [auto|]. split; intros [C|C]; auto.
        -- apply out_edges_spec in X. cbn [fst] in X. destruct X as [X ->]. split; [right; exists f, e; auto|]. split; intros [C|C]; auto.
        -- assert (Nt : t <> e).
           { intros ->. assert (C : contains (remove_node g1 e) e = true).
             { eapply (apply_add_contains _ _ _ H2 f' e l). apply in_flat_map. exists (f', e'). split; auto. unfold mv, move_edges.
               apply in_app_iff. left. apply in_map_iff. exists (e', e, l). split; auto. apply out_edges_spec. auto. }
             unfold contains in C. rewrite node_remove, Nat.eqb_refl in C. discriminate. }
           split; [right; exists f', e'; auto|]. split; intros [C|C]; auto. subst. eapply (HN f' e' f); [now right|now left].
      * intros [[X|(f' & e' & [X1|X1] & X2 & X3)] [Z1 Z2]].
        -- split; [left; split; auto|]; auto.
        -- injection X1 as <- <-. subst s. split; [left|split; auto]. split; [right; split; auto; exists e; apply out_edges_spec; auto|]. auto.
        -- split; [right; eauto|auto].
Qed.

(** Edges join existing nodes. *)
Definition ends (g : mgraph) : Prop := forall s t l, In (s, t, l) (gedges g) -> contains g s = true /\ contains g t = true.

(** ** One visit *)
Lemma visit_values : forall g i ts g', cse_visit g i = Ok ts -> apply_transforms ts g = Ok g' ->
  (forall n w, node g n = Some w -> w <> MMux -> node g' n = Some w) /\
  (forall n w, node g' n = Some w -> node g n = Some w) /\
  (ends g -> ends g') /\
  (forall ins n b, contains g' n = true -> (value g ins n b <-> value g' ins n b)).
Proof.
  intros g i ts g' H HA. unfold cse_visit in H. destruct (foldM _ _ _) as [[ts' seen]| |] eqn:E; [|discriminate|discriminate]. cbn [bind] in H. injection H as ->.
  apply cse_children_inv with (ps := []) in E.
  2:{ split; [reflexivity|]. split; [intros k f []|]. split; [intros k f f' []|intros f e []]. }
  destruct E as (ps & Ets & Iseen & Iuniq & Ips). subst ts.
  assert (HN : forall f e e', In (f, e) ps -> In (e', f) ps -> False).
  { intros f e e' H1 H2. destruct (Ips _ _ H1) as (_ & _ & k1 & _ & S1). destruct (Ips _ _ H2) as (D2 & _ & k2 & G2 & S2).
    destruct (Iseen _ _ S1) as [_ K1]. assert (k1 = k2) by congruence. subst k2. apply D2. eapply Iuniq; eauto. }
  destruct (apply_merges g ps HN g g' HA) as [NG EG].
  assert (RM : forall n, mem n (map snd ps) = true <-> In n (map snd ps)).
  { intros n. unfold mem. rewrite existsb_exists. split; [intros (x & X & Y); apply Nat.eqb_eq in Y; congruence|].
    intros X. exists n. split; auto. apply Nat.eqb_refl. }
  assert (RP : forall n, In n (map snd ps) -> exists f k, In (f, n) ps /\ node g n = Some MMux /\ get_mux_operands g n = Ok k /\
     node g f = Some MMux /\ get_mux_operands g f = Ok k /\ ~ In f (map snd ps)).
  { intros n Hn. apply in_map_iff in Hn. destruct Hn as ([f e] & Hx & Hp). cbn in Hx. subst e.
    destruct (Ips _ _ Hp) as (_ & Hm & k & K1 & K2). destruct (Iseen _ _ K2) as [F1 F2]. exists f, k.
    repeat (split; [assumption|]). intros C. apply in_map_iff in C. destruct C as ([f' e'] & Cx & Cp). cbn in Cx. subst e'. exact (HN f n f' Hp Cp). }
  (* every edge of g into a surviving node survives with its source replaced by a node of equal operands *)
  set (eqv := fun s s' => s' = s \/ exists k, node g s = Some MMux /\ node g s' = Some MMux /\ get_mux_operands g s = Ok k /\ get_mux_operands g s' = Ok k).
  assert (F : forall s t l, In (s, t, l) (gedges g) -> ~ In t (map snd ps) -> exists s', eqv s s' /\ ~ In s' (map snd ps) /\ In (s', t, l) (gedges g')).
  { intros s t l Hs Ht. destruct (in_dec Nat.eq_dec s (map snd ps)) as [D|D].
    - destruct (RP s D) as (f & k & P1 & P2 & P3 & P4 & P5 & P6). exists f. split; [right; eauto 8|]. split; auto. apply EG. split; auto. right. eauto.
    - exists s. split; [now left|]. split; auto. apply EG. auto. }
  assert (Bk : forall s' t l, In (s', t, l) (gedges g') -> exists s, eqv s s' /\ In (s, t, l) (gedges g)).
  { intros s' t l Hs. apply EG in Hs. destruct Hs as [[Hs|(f & e & Hp & -> & He)] [Z1 Z2]]; [exists s'; split; [now left|auto]|].
    exists e. split; auto. destruct (Ips _ _ Hp) as (_ & Hm & k & K1 & K2). destruct (Iseen _ _ K2) as [F1 F2]. right. exists k. auto. }
  assert (EV : forall ins s s' b, eqv s s' -> value g ins s b -> value g ins s' b).
  { intros ins s s' b [-> | (k & A1 & A2 & A3 & A4)] V; [auto|]. destruct k as [[ks kl] kh].
    pose proof (get_mux_operands_inv _ _ _ _ _ A3) as O. pose proof (get_mux_operands_inv _ _ _ _ _ A4) as O'.
    inversion V as [? ? ? Hn|? Hn|? Hn|n' s1 l1 h1 bs bl bh Hn Hs Hl Hh Vs Vl Vh|? ? ? ? Hn]; subst; try congruence.
    apply O in Hs, Hl, Hh. eapply (value_mux g ins s' s1 l1 h1); auto; apply O'; auto. }
  assert (SY : forall s s', eqv s s' -> eqv s' s).
  { intros s s' [-> | (k & A1 & A2 & A3 & A4)]; [now left|right; eauto 6]. }
  split; [|split; [|split]].
  - intros n w Hn Hw. rewrite NG. destruct (mem n _) eqn:Em; [|auto]. apply RM, RP in Em. destruct Em as (f & k & _ & X & _). congruence.
  - intros n w Hn. rewrite NG in Hn. destruct (mem n _); [discriminate|auto].
  - intros EN s t l Hs. apply EG in Hs. destruct Hs as [Hs [Z1 Z2]].
    assert (C : forall n, ~ In n (map snd ps) -> contains g n = true -> contains g' n = true).
    { intros n X Y. unfold contains in *. rewrite NG. destruct (mem n _) eqn:Em; [apply RM in Em; tauto|auto]. }
    destruct Hs as [Hs|(f & e & Hp & -> & He)].
    + destruct (EN _ _ _ Hs). auto.
    + destruct (EN _ _ _ He). split; auto. apply C; auto. destruct (Ips _ _ Hp) as (_ & _ & k & _ & K). apply Iseen in K.
      apply contains_node. exists MMux. tauto.
  - intros ins.
    assert (Fw : forall n b, value g ins n b -> forall n', eqv n n' -> ~ In n' (map snd ps) -> value g' ins n' b).
    { intros n b V. induction V as [n x b Hn Hx|n Hn|n Hn|n s l h bs bl bh Hn Hs Hl Hh Vs IHs Vl IHl Vh IHh|n i0 m b Hn Hm V IH]; intros n' Q Hn'.
      1-3: (destruct Q as [-> | (k & A1 & _)]; [|congruence];
            assert (N' : node g' n = node g n) by (rewrite NG; destruct (mem n _) eqn:Em; [apply RM in Em; tauto|auto])).
      - eapply value_var; eauto. congruence.
      - apply value_zero. congruence.
      - apply value_one. congruence.
      - assert (Op : node g n' = Some MMux /\ In (s, n', Select) (gedges g) /\ In (l, n', Low) (gedges g) /\ In (h, n', High) (gedges g)).
        { destruct Q as [-> | ([[ks kl] kh] & A1 & A2 & A3 & A4)]; [auto|].
          pose proof (get_mux_operands_inv _ _ _ _ _ A3) as O. pose proof (get_mux_operands_inv _ _ _ _ _ A4) as O'.
          apply O in Hs, Hl, Hh. split; [auto|]. split; [|split]; apply O'; auto. }
        destruct Op as (N' & Os & Ol & Oh).
        destruct (F _ _ _ Os Hn') as (s' & Q1 & Q2 & Q3). destruct (F _ _ _ Ol Hn') as (l' & Q4 & Q5 & Q6). destruct (F _ _ _ Oh Hn') as (h' & Q7 & Q8 & Q9).
        eapply (value_mux g' ins n' s' l' h'); eauto. rewrite NG. destruct (mem n' _) eqn:Em; [apply RM in Em; tauto|auto].
      - destruct Q as [-> | (k & A1 & _)]; [|congruence]. destruct (F _ _ _ Hm Hn') as (m' & Q1 & Q2 & Q3).
        eapply value_out; eauto. rewrite NG. destruct (mem n _) eqn:Em; [apply RM in Em; tauto|eauto]. }
    assert (Bw : forall n b, value g' ins n b -> value g ins n b).
    { intros n b V. induction V as [n x b Hn Hx|n Hn|n Hn|n s l h bs bl bh Hn Hs Hl Hh Vs IHs Vl IHl Vh IHh|n i0 m b Hn Hm V IH];
        assert (Hn' : node g n = node g' n) by (rewrite NG in Hn |- *; destruct (mem n _); [discriminate|auto]); rewrite Hn in Hn'.
      - eapply value_var; eauto.
      - now apply value_zero.
      - now apply value_one.
      - destruct (Bk _ _ _ Hs) as (s' & Q1 & Q2). destruct (Bk _ _ _ Hl) as (l' & Q3 & Q4). destruct (Bk _ _ _ Hh) as (h' & Q5 & Q6).
        eapply (value_mux g ins n s' l' h'); eauto.
      - destruct (Bk _ _ _ Hm) as (m' & Q1 & Q2). eapply value_out; eauto. }
    intros n b C. split; [|apply Bw]. intros V. apply (Fw n b V); [now left|]. intros X. apply RM in X. unfold contains in C. rewrite NG, X in C. discriminate.
Qed.

Definition cse_rel (g g' : mgraph) : Prop :=
  (forall n w, node g n = Some w -> w <> MMux -> node g' n = Some w) /\
  (forall n w, node g' n = Some w -> node g n = Some w) /\
  (ends g -> ends g') /\
  (forall ins n b, contains g' n = true -> (value g ins n b <-> value g' ins n b)).
Lemma cse_rel_trans : forall a b c, cse_rel a b -> cse_rel b c -> cse_rel a c.
Proof.
  intros a b c (A1 & A2 & A0 & A3) (B1 & B2 & B0 & B3). split; [|split; [|split]]; auto.
  intros ins n v C. rewrite A3; [now apply B3|]. apply contains_node in C. destruct C as [w C]. apply contains_node. eauto.
Qed.

Lemma cse_loop_rel : forall fuel g ready visited stack g', cse_loop fuel g ready visited stack = Ok g' -> cse_rel g g'.
Proof.
  induction fuel as [|fuel IH]; intros g ready visited stack g' H.
  - destruct stack; cbn in H; [injection H as <-|discriminate]. split; [auto|]. split; [auto|]. split; [auto|]. tauto.
  - destruct stack as [|n stack]; cbn [cse_loop] in H.
    { injection H as <-. split; [auto|]. split; [auto|]. split; [auto|]. tauto. }
    destruct (negb (contains g n)); [eapply IH; eauto|].
    destruct (cse_visit g n) as [ts| |] eqn:Ev; [|discriminate|discriminate]. cbn [bind] in H.
    destruct (apply_transforms ts g) as [g1| |] eqn:Ea; [|discriminate|discriminate]. cbn [bind] in H.
    destruct (fold_left _ _ _) as [r s] eqn:Ef in H.
    eapply cse_rel_trans; [eapply (visit_values g n ts g1); eauto|eapply IH; eauto].
Qed.
Lemma cse_correct : forall g g', cse g = Ok g' -> cse_rel g g'.
Proof. intros g g' H. unfold cse in H. eapply cse_loop_rel; eauto. Qed.
