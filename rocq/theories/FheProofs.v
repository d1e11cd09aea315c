(** Proofs: executing operations, values of circuits, isomorphic circuits. *)
From Coq Require Import ZifyBool ZifyNat Permutation.
From Verif Require Import Base Graph MuxGraph FheGraph SpecFhe MuxGraphProofs.
Open Scope nat_scope.

Lemma fedge_eqb_eq : forall a b, fedge_eqb a b = true <-> a = b.
Proof. intros [] []; cbn; split; intros; congruence. Qed.

(** ** Order of the inputs does not matter *)
Lemma find_in_In : forall l ins c, find_in l ins = Some c -> In (l, c) ins.
Proof.
  intros l ins c H. unfold find_in in H. destruct (find _ ins) as [[l' c']|] eqn:E; [|discriminate]. cbn in H. injection H as ->.
  apply find_some in E. cbn in E. destruct E as [E1 E2]. apply fedge_eqb_eq in E2. now subst.
Qed.
Lemma find_in_NoDup : forall l ins c, NoDup (map fst ins) -> In (l, c) ins -> find_in l ins = Some c.
Proof.
  intros l ins c ND H. unfold find_in. destruct (find _ ins) as [[l' c']|] eqn:E.
  - apply find_some in E. cbn in E. destruct E as [E1 E2]. apply fedge_eqb_eq in E2. subst l'. cbn. f_equal.
    induction ins as [|[k v] ins IH]; [destruct H|]. cbn [map fst] in ND. inversion ND as [|? ? N1 N2]; subst.
    destruct H as [H|H]; destruct E1 as [E1|E1].
    + congruence.
    + injection H as -> ->. exfalso. apply N1. apply in_map_iff. exists (l, c'). auto.
    + injection E1 as -> ->. exfalso. apply N1. apply in_map_iff. exists (l, c). auto.
    + auto.
  - eapply find_none in E; [|exact H]. cbn in E. rewrite (proj2 (fedge_eqb_eq l l) eq_refl) in E. discriminate.
Qed.
Lemma find_in_perm : forall l ins ins', NoDup (map fst ins) -> Permutation ins ins' -> find_in l ins' = find_in l ins.
Proof.
  intros l ins ins' ND P. destruct (find_in l ins) as [c|] eqn:E.
  - apply find_in_In in E. apply find_in_NoDup.
    + eapply Permutation_NoDup; [apply Permutation_map; exact P|exact ND].
    + eapply Permutation_in; eauto.
  - destruct (find_in l ins') as [c|] eqn:E'; [|reflexivity]. apply find_in_In in E'. eapply Permutation_in in E'; [|apply Permutation_sym; exact P].
    apply (find_in_NoDup l ins c ND) in E'. congruence.
Qed.

Lemma labels_nodup : forall (ls : list fedge) (ins : tinputs), NoDup ls -> length ins = length ls -> (forall l, In l ls -> exists c, In (l, c) ins) -> NoDup (map fst ins).
Proof.
  intros ls ins ND L H. apply NoDup_incl_NoDup with (l := ls).
  - exact ND.
  - rewrite map_length. lia.
  - intros l Hl. destruct (H l Hl) as [c Hc]. apply in_map_iff. exists (l, c). auto.
Qed.

Lemma pxor_comm : forall a b, pxor a b = pxor b a.
Proof. induction a as [|x a IH]; intros [|y b]; cbn; auto. rewrite IH. now rewrite xorb_comm. Qed.

Lemma inp01 : forall (ins : tinputs) l r, length ins = 2 -> find_in ELeft ins = Some l -> find_in ERight ins = Some r ->
  ins = [(ELeft, l); (ERight, r)] \/ ins = [(ERight, r); (ELeft, l)].
Proof.
  intros ins l r L H1 H2. apply find_in_In in H1, H2. destruct ins as [|x [|y [|]]]; try discriminate. cbn in H1, H2.
  destruct H1 as [->|[->|[]]]; destruct H2 as [H2|[H2|[]]]; try discriminate; subst; auto.
Qed.

Lemma exec_perm : forall deg cells op ins ins' o, Permutation ins ins' -> exec_op deg cells op ins = Ok o -> exec_op deg cells op ins' = Ok o.
Proof.
  intros deg cells op ins ins' o P H.
  assert (V : exists u, validate deg op ins = Ok u). { unfold exec_op in H. destruct (validate deg op ins); [eauto|discriminate|discriminate]. }
  destruct V as [u V]. unfold validate in V. destruct (validate_inputs op ins) as [[]| |] eqn:VI; [|discriminate|discriminate]. clear V u.
  assert (Nil : ins = [] -> exec_op deg cells op ins' = Ok o). { intros ->. apply Permutation_nil in P. now subst. }
  assert (One : (exists x, ins = [x]) -> exec_op deg cells op ins' = Ok o). { intros [x ->]. apply Permutation_length_1_inv in P. now subst. }
  assert (L : length ins' = length ins) by (symmetry; now apply Permutation_length).
  assert (Lab : NoDup (map fst ins) -> (forall l, find_in l ins' = find_in l ins)) by (intros; now apply find_in_perm).
  destruct op; cbn [validate_inputs] in VI;
    try (destruct ins as [|? ?]; [now apply Nil|discriminate]);
    try (destruct ins as [|x [|y ins]]; [discriminate|apply One; eauto|destruct x as [[]]; discriminate]).
  - (* GlweAdd *)
    destruct (length ins =? 2) eqn:E2; [|discriminate]. destruct (find_in ELeft ins) as [l|] eqn:EL; [|discriminate]. destruct (find_in ERight ins) as [r|] eqn:ER; [|discriminate].
    assert (ND : NoDup (map fst ins)).
    { apply (labels_nodup [ELeft; ERight]); [repeat constructor; cbn; intuition congruence|cbn; lia|].
      intros x [<-|[<-|[]]]; eexists; eapply find_in_In; eassumption. }
    specialize (Lab ND). assert (EL' : find_in ELeft ins' = Some l) by (now rewrite Lab). assert (ER' : find_in ERight ins' = Some r) by (now rewrite Lab).
    assert (I : ins = [(ELeft, l); (ERight, r)] \/ ins = [(ERight, r); (ELeft, l)]) by (apply inp01; auto; lia).
    assert (I' : ins' = [(ELeft, l); (ERight, r)] \/ ins' = [(ERight, r); (ELeft, l)]) by (apply inp01; auto; lia).
    assert (Sw : forall l r, exec_op deg cells FGlweAdd [(ELeft, l); (ERight, r)] = Ok o <-> exec_op deg cells FGlweAdd [(ERight, r); (ELeft, l)] = Ok o).
    { clear. intros l r. unfold exec_op, validate, validate_inputs, find_in. cbn [length Nat.eqb find fst fedge_eqb option_map snd].
      destruct l as [[]|]; destruct r as [[]|]; cbn; try tauto. now rewrite pxor_comm. }
    destruct I as [-> | ->]; destruct I' as [-> | ->]; auto; now apply Sw.
  - (* CMux *)
    destruct (length ins =? 3) eqn:E2; [|discriminate]. destruct (find_in ESel ins) as [s|] eqn:ES; [|discriminate]. destruct (find_in ELow ins) as [l|] eqn:EL; [|discriminate]. destruct (find_in EHigh ins) as [h|] eqn:EH; [|discriminate].
    assert (ND : NoDup (map fst ins)).
    { apply (labels_nodup [ESel; ELow; EHigh]); [repeat constructor; cbn; intuition congruence|cbn; lia|].
      intros x [<-|[<-|[<-|[]]]]; eexists; eapply find_in_In; eassumption. }
    specialize (Lab ND). rewrite <- H. unfold exec_op, validate, validate_inputs, run_op, inpl. now rewrite L, !Lab.
  - (* GlevCMux *)
    destruct (length ins =? 3) eqn:E2; [|discriminate]. destruct (find_in ESel ins) as [s|] eqn:ES; [|discriminate]. destruct (find_in ELow ins) as [l|] eqn:EL; [|discriminate]. destruct (find_in EHigh ins) as [h|] eqn:EH; [|discriminate].
    assert (ND : NoDup (map fst ins)).
    { apply (labels_nodup [ESel; ELow; EHigh]); [repeat constructor; cbn; intuition congruence|cbn; lia|].
      intros x [<-|[<-|[<-|[]]]]; eexists; eapply find_in_In; eassumption. }
    specialize (Lab ND). rewrite <- H. unfold exec_op, validate, validate_inputs, run_op, inpl. now rewrite L, !Lab.
  - (* Multiply *)
    destruct (length ins =? 2) eqn:E2; [|discriminate]. destruct (find_in EGlwe ins) as [s|] eqn:ES; [|discriminate]. destruct (find_in EGgsw ins) as [l|] eqn:EL; [|discriminate].
    assert (ND : NoDup (map fst ins)).
    { apply (labels_nodup [EGlwe; EGgsw]); [repeat constructor; cbn; intuition congruence|cbn; lia|].
      intros x [<-|[<-|[]]]; eexists; eapply find_in_In; eassumption. }
    specialize (Lab ND). rewrite <- H. unfold exec_op, validate, validate_inputs, run_op, inpl. now rewrite L, !Lab.
Qed.

(** ** No panic: a malformed operation is rejected with an error *)
Definition real_op (op : fop) : Prop := op <> FZero TLwe1 /\ op <> FOne TLwe1.

Lemma exec_no_panic : forall deg cells op ins, real_op op -> exec_op deg cells op ins <> Panic.
Proof.
  intros deg cells op ins [R1 R2]. unfold exec_op, validate.
  assert (Un : forall t ins, (exists r, op = FOutput t r) -> exec_op deg cells op ins <> Panic).
  { intros t ins0 [r ->]. unfold exec_op, validate. destruct ins0 as [|[[] c] [|]]; try (cbn; discriminate). cbn [validate_inputs].
    destruct c as [[]|]; destruct t; cbn; discriminate. }
  destruct op as [t r|t r|i| | | | | | | | |t|t| | |n].
  - destruct ins; cbn; discriminate.
  - apply (Un t ins). eauto.
  - destruct ins as [|[[] c] [|]]; try (cbn; discriminate). destruct c as [[]|]; try (cbn; discriminate). cbn [validate_inputs validate_op_input ty_of cty_eqb bind].
    destruct (deg <=? i); cbn; discriminate.
  - destruct ins as [|[[] c] [|]]; try (cbn; discriminate). destruct c as [[]|]; cbn; discriminate.
  - destruct ins as [|[[] c] [|]]; try (cbn; discriminate). destruct c as [[]|]; cbn; discriminate.
  - cbn [validate_inputs]. destruct (length ins =? 2) eqn:E2; [|cbn; discriminate].
    destruct (find_in ELeft ins) as [l|] eqn:EL; [|cbn; discriminate]. destruct (find_in ERight ins) as [r|] eqn:ER; [|cbn; discriminate].
    destruct (inp01 ins l r) as [-> | ->]; auto; [lia| |]; destruct l as [[]|]; destruct r as [[]|]; cbn; discriminate.
  - cbn [validate_inputs]. destruct (length ins =? 3) eqn:E2; [|cbn; discriminate].
    destruct (find_in ESel ins) as [s|] eqn:ES; [|cbn; discriminate]. destruct (find_in ELow ins) as [l|] eqn:EL; [|cbn; discriminate]. destruct (find_in EHigh ins) as [h|] eqn:EH; [|cbn; discriminate].
    unfold run_op, inpl. rewrite ES, EL, EH. destruct s as [[]|]; try (cbn; discriminate); destruct l as [[]|]; try (cbn; discriminate); destruct h as [[]|]; cbn; discriminate.
  - cbn [validate_inputs]. destruct (length ins =? 3) eqn:E2; [|cbn; discriminate].
    destruct (find_in ESel ins) as [s|] eqn:ES; [|cbn; discriminate]. destruct (find_in ELow ins) as [l|] eqn:EL; [|cbn; discriminate]. destruct (find_in EHigh ins) as [h|] eqn:EH; [|cbn; discriminate].
    unfold run_op, inpl. rewrite ES, EL, EH. destruct s as [[]|]; try (cbn; discriminate); destruct l as [[]|]; try (cbn; discriminate); destruct h as [[]|]; cbn; discriminate.
  - cbn [validate_inputs]. destruct (length ins =? 2) eqn:E2; [|cbn; discriminate].
    destruct (find_in EGlwe ins) as [s|] eqn:ES; [|cbn; discriminate]. destruct (find_in EGgsw ins) as [l|] eqn:EL; [|cbn; discriminate].
    unfold run_op, inpl. rewrite ES, EL. destruct s as [[]|]; try (cbn; discriminate); destruct l as [[]|]; cbn; discriminate.
  - destruct ins as [|[[] c] [|]]; try (cbn; discriminate). destruct c as [[]|]; cbn; discriminate.
  - destruct ins as [|[[] c] [|]]; try (cbn; discriminate). destruct c as [[]|]; cbn; discriminate.
  - destruct ins; destruct t; try (cbn; discriminate). congruence.
  - destruct ins; destruct t; try (cbn; discriminate). congruence.
  - destruct ins; cbn; discriminate.
  - destruct ins; cbn; discriminate.
  - destruct ins as [|[[] c] [|]]; try (cbn; discriminate). destruct c as [[]|]; cbn; discriminate.
Qed.

(** ** Values *)
Scheme fvalue_min := Minimality for fvalue Sort Prop
with finputs_min := Minimality for finputs Sort Prop.
Combined Scheme fvalue_finputs_min from fvalue_min, finputs_min.

Section V.
Context (deg : nat) (cells : cty -> nat -> ct).

Lemma fvalue_fun : forall g,
  (forall n o, fvalue deg cells g n o -> forall o', fvalue deg cells g n o' -> o' = o) /\
  (forall es ins, finputs deg cells g es ins -> forall ins', finputs deg cells g es ins' -> ins' = ins).
Proof.
  intros g. apply fvalue_finputs_min.
  - intros n op ins o Hn Hi IH He o' V. inversion V as [n' op' ins' o'' Hn' Hi' He']; subst.
    assert (op' = op) by congruence. subst op'. apply IH in Hi'. subst ins'. congruence.
  - intros ins' H. inversion H. reflexivity.
  - intros s t l es c w ins V IHV F IHF ins' H. inversion H as [|s' t' l' es' c' w' ins'' V' F']; subst.
    apply IHV in V'. apply IHF in F'. congruence.
Qed.

Lemma finputs_perm : forall g es es', Permutation es es' -> forall ins, finputs deg cells g es ins -> exists ins', Permutation ins ins' /\ finputs deg cells g es' ins'.
Proof.
  intros g es es' P. induction P; intros ins F.
  - inversion F. exists []. split; auto. constructor.
  - inversion F as [|s t0 l0 es0 c w ins0 V0 F0]; subst. destruct (IHP _ F0) as (ins' & P' & F'). exists ((l0, c) :: ins'). split; auto. econstructor; eauto.
  - inversion F as [|s t0 l0 es0 c w ins0 V0 F0]; subst. inversion F0 as [|s1 t1 l1 es1 c1 w1 ins1 V1 F1]; subst.
    exists ((l1, c1) :: (l0, c) :: ins1). split; [constructor|]. econstructor; eauto. econstructor; eauto.
  - destruct (IHP1 _ F) as (ins1 & P1' & F1). destruct (IHP2 _ F1) as (ins2 & P2' & F2). exists ins2. split; auto. eapply perm_trans; eauto.
Qed.

(** A renaming that preserves operations and labelled in-edges preserves values. *)
Lemma iso_value : forall (g g' : fgraph) (S : nat -> Prop) (f : nat -> nat),
  (forall n op, S n -> node g n = Some op -> node g' (f n) = Some op /\ Permutation (in_edges g' (f n)) (map (emap f) (in_edges g n))) ->
  (forall n s t l, S n -> In (s, t, l) (in_edges g n) -> S s) ->
  forall n o, S n -> fvalue deg cells g n o -> fvalue deg cells g' (f n) o.
Proof.
  intros g g' S f H1 H2.
  assert (G : (forall n o, fvalue deg cells g n o -> S n -> fvalue deg cells g' (f n) o) /\
              (forall es ins, finputs deg cells g es ins -> (forall s t l, In (s, t, l) es -> S s) -> finputs deg cells g' (map (emap f) es) ins)).
  { apply fvalue_finputs_min.
    - intros n op ins o Hn Hi IH He Hs. destruct (H1 n op Hs Hn) as [A B].
      assert (F : finputs deg cells g' (map (emap f) (in_edges g n)) ins) by (apply IH; intros; eapply H2; eauto).
      destruct (finputs_perm _ _ _ (Permutation_sym B) _ F) as (ins' & P & F'). econstructor; eauto. eapply exec_perm; eauto.
    - intros _. constructor.
    - intros s t l es c w ins V IHV F IHF H. cbn [map]. unfold emap at 1. cbn [fst snd]. econstructor.
      + apply IHV. apply (H s t l). now left.
      + apply IHF. intros. eapply H. right. eauto. }
  intros n o Hs V. now apply G.
Qed.
Lemma iso_value_back : forall (g g' : fgraph) (S : nat -> Prop) (f : nat -> nat),
  (forall n, S n -> node g' (f n) = node g n /\ Permutation (in_edges g' (f n)) (map (emap f) (in_edges g n))) ->
  (forall n s t l, S n -> In (s, t, l) (in_edges g n) -> S s) ->
  forall n o, S n -> fvalue deg cells g' (f n) o -> fvalue deg cells g n o.
Proof.
  intros g g' S f H1 H2.
  assert (G : (forall m o, fvalue deg cells g' m o -> forall n, m = f n -> S n -> fvalue deg cells g n o) /\
              (forall es' ins, finputs deg cells g' es' ins -> forall es, es' = map (emap f) es -> (forall s t l, In (s, t, l) es -> S s) -> finputs deg cells g es ins)).
  { apply fvalue_finputs_min.
    - intros m op ins o Hn Hi IH He n -> Hs. destruct (H1 n Hs) as [A B].
      destruct (Permutation_map_inv _ _ B) as (es & E1 & E2).
      assert (F : finputs deg cells g es ins). { apply IH; auto. intros s t l Hi'. eapply (H2 n); eauto. eapply Permutation_in; [apply Permutation_sym; exact E2|exact Hi']. }
      destruct (finputs_perm _ _ _ (Permutation_sym E2) _ F) as (ins' & P & F'). apply (fv_node deg cells g n op ins'); [congruence|exact F'|eapply exec_perm; eauto].
    - intros [|e es] He _; [constructor|discriminate].
    - intros s t l es' c w ins V IHV F IHF [|[[s0 t0] l0] es] He H; [discriminate|]. cbn [map] in He. unfold emap at 1 in He. cbn [fst snd] in He. injection He as -> -> -> He.
      econstructor.
      + apply IHV; auto. apply (H s0 t0 l0). now left.
      + apply IHF; auto. intros. eapply H. right. eauto. }
  intros n o Hs V. now apply (proj1 G (f n) o V n).
Qed.

(** Extending a circuit with new nodes and edges into new nodes changes no existing value. *)
Lemma extend_value : forall (g g' : fgraph) L, edges_ok g ->
  (forall n, contains g n = true -> n < L) ->
  (forall n, n < L -> node g' n = node g n) -> (forall n, n < L -> in_edges g' n = in_edges g n) ->
  forall n o, n < L -> (fvalue deg cells g n o <-> fvalue deg cells g' n o).
Proof.
  intros g g' L EN HL HN HE n o Hn.
  assert (Idm : forall es : list (nat * nat * fedge), map (emap (fun x => x)) es = es).
  { intros es. rewrite <- (map_id es) at 2. apply map_ext. intros [[s t] l]. reflexivity. }
  assert (Cl : forall n s t l, n < L -> In (s, t, l) (in_edges g n) -> s < L).
  { intros m s t l _ H. apply in_edges_spec in H. apply HL. apply (EN s t l), H. }
  split; intros V.
  - apply (iso_value g g' (fun n => n < L) (fun n => n)); auto.
    intros m op Hm Ho. rewrite HN, HE, Idm by auto. auto.
  - apply (iso_value_back g g' (fun n => n < L) (fun n => n)); auto.
    intros m Hm. rewrite HN, HE, Idm by auto. auto.
Qed.
End V.
