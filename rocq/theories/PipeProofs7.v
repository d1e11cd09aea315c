(** Proofs: the noise of encrypted multiplication. *)
From Coq Require Import ZArith List Lia Bool Permutation.
From Verif Require Import Base Graph MuxGraph SpecMux Circuits MuxGraphProofs FheGraph SpecFhe FheProofs FheProofs2 FheProofs3 FheProofs4 FheProofs5 Fluent SpecFluent FluentProofs FluentMul MulRecProofs CircuitsProofs
  SpecGlwe SpecBoot SpecCbs Eval SpecEval SpecPipe PipeProofs2 Pipe3 SpecPipe4.
Import ListNotations.
Ltac Zify.zify_post_hook ::= idtac.
Open Scope Z_scope.

(** ** The noise of an operation does not depend on the order of its inputs *)
Lemma noise_at_perm l ns ns' : NoDup (map fst ns) -> Permutation ns ns' -> noise_at l ns' = noise_at l ns.
Proof.
  intros ND Pm. assert (ND' : NoDup (map fst ns')) by (eapply Permutation_NoDup; [apply Permutation_map; exact Pm|exact ND]).
  unfold noise_at at 2. destruct (find _ ns) as [[l' x]|] eqn:F.
  - apply find_some in F as (F1 & F2). cbn [fst] in F2. apply fedge_eqb_eq in F2. subst l'. cbn [snd]. apply noise_at_in; [exact ND'|]. eapply Permutation_in; eassumption.
  - unfold noise_at. destruct (find _ ns') as [[l' x]|] eqn:F'; [|reflexivity]. apply find_some in F' as (F1 & F2). exfalso.
    pose proof (find_none _ _ F (l', x) (Permutation_in _ (Permutation_sym Pm) F1)) as Q. cbn beta in Q. congruence.
Qed.
Lemma op_noise_perm P B cell N (cells : cty -> nat -> ct) op (ins : tinputs) o ns ns' : exec_op N cells op ins = Ok o -> map fst ns = map fst ins -> Permutation ns ns' ->
  (op_cond P op ns -> op_cond P op ns') /\ op_noise P B cell op ns' = op_noise P B cell op ns.
Proof.
  intros H Hl Pm.
  assert (V : exists u, validate N op ins = Ok u). { unfold exec_op in H. destruct (validate N op ins); [eauto|discriminate|discriminate]. }
  destruct V as [u V]. unfold validate in V. destruct (validate_inputs op ins) as [[]| |] eqn:VI; [|discriminate|discriminate]. clear V u H.
  assert (Len : length ns = length ins) by (rewrite <- (map_length fst ns), Hl; apply map_length).
  assert (Nil : ins = [] -> ns' = ns). { intros ->. destruct ns; [|discriminate]. apply Permutation_nil in Pm. now subst. }
  assert (One : (exists x, ins = [x]) -> ns' = ns). { intros [x ->]. destruct ns as [|y [|]]; try discriminate. apply Permutation_length_1_inv in Pm. now subst. }
  destruct op; cbn [validate_inputs] in VI;
    try (destruct ins as [|? ?]; [rewrite Nil by reflexivity; tauto|discriminate]);
    try (destruct ins as [|x [|y ins]]; [discriminate|rewrite One by eauto; tauto|destruct x as [[]]; discriminate]).
  - destruct (Nat.eqb_spec (length ins) 2) as [E2|]; [|discriminate]. destruct ns as [|p [|q [|]]]; cbn [length] in Len; try lia.
    apply Permutation_length_2_inv in Pm as [->| ->]; [tauto|]. split; [auto|]. cbn. lia.
  - destruct (length ins =? 3)%nat eqn:E2; [|discriminate]. destruct (find_in ESel ins) as [s|] eqn:ES; [|discriminate]. destruct (find_in ELow ins) as [l|] eqn:EL; [|discriminate]. destruct (find_in EHigh ins) as [h|] eqn:EH; [|discriminate].
    assert (ND : NoDup (map fst ns)).
    { rewrite Hl. apply (labels_nodup [ESel; ELow; EHigh]); [repeat constructor; cbn; intuition congruence|apply Nat.eqb_eq in E2; cbn; lia|].
      intros x [<-|[<-|[<-|[]]]]; eexists; eapply find_in_In; eassumption. }
    split; [auto|]. cbn [op_noise]. now rewrite !(noise_at_perm _ _ _ ND Pm).
  - destruct (length ins =? 3)%nat eqn:E2; [|discriminate]. destruct (find_in ESel ins) as [s|] eqn:ES; [|discriminate]. destruct (find_in ELow ins) as [l|] eqn:EL; [|discriminate]. destruct (find_in EHigh ins) as [h|] eqn:EH; [|discriminate].
    assert (ND : NoDup (map fst ns)).
    { rewrite Hl. apply (labels_nodup [ESel; ELow; EHigh]); [repeat constructor; cbn; intuition congruence|apply Nat.eqb_eq in E2; cbn; lia|].
      intros x [<-|[<-|[<-|[]]]]; eexists; eapply find_in_In; eassumption. }
    split; [auto|]. cbn [op_noise]. now rewrite !(noise_at_perm _ _ _ ND Pm).
  - destruct (length ins =? 2)%nat eqn:E2; [|discriminate]. destruct (find_in EGlwe ins) as [s|] eqn:ES; [|discriminate]. destruct (find_in EGgsw ins) as [l|] eqn:EL; [|discriminate].
    assert (ND : NoDup (map fst ns)).
    { rewrite Hl. apply (labels_nodup [EGlwe; EGgsw]); [repeat constructor; cbn; intuition congruence|apply Nat.eqb_eq in E2; cbn; lia|].
      intros x [<-|[<-|[]]]; eexists; eapply find_in_In; eassumption. }
    split; [auto|]. cbn [op_noise]. now rewrite !(noise_at_perm _ _ _ ND Pm).
Qed.

(** ** Pruning keeps a noise analysis *)
Lemma finputs_labels N cells g es ins : finputs N cells g es ins -> map fst ins = map snd es.
Proof. induction es as [|[[s t] l] es IH] in ins |- *; intros F; inversion F; subst; cbn; [reflexivity|]. f_equal. eauto. Qed.
Lemma finputs_in N cells g es ins s t l : finputs N cells g es ins -> In (s, t, l) es -> exists o, fvalue N cells g s o.
Proof. induction es as [|e es IH] in ins |- *; intros F Hi; [destruct Hi|]. inversion F; subst. destruct Hi as [Hi|Hi]; [injection Hi as -> -> ->; eauto|eauto]. Qed.
Lemma ancestor_value N cells (g : fgraph) roots : (forall r, In r roots -> exists o, fvalue N cells g r o) -> forall n, ancestor g roots n -> exists o, fvalue N cells g n o.
Proof.
  intros Hr n A. induction A as [n Hn|s t l He A (o & IH)]; [auto|]. inversion IH as [n' op ins o' Hn Fi Ex]; subst.
  eapply finputs_in; [exact Fi|]. apply in_edges3. split; [exact He|reflexivity].
Qed.
Definition pull (E : nat -> Z) (ren : list (nat * nat)) (m : nat) : Z :=
  match find (fun n => match alookup ren n with Some m' => (m' =? m)%nat | None => false end) (map fst ren) with Some n => E n | None => 0 end.
Lemma prune_noise P B cell N cells (g : fgraph) roots order out ren E : edges_ok g -> (forall r, In r roots -> contains g r = true) -> (forall l, Permutation l (order l)) ->
  (forall r, In r roots -> exists o, fvalue N cells g r o) -> noise_ok P B cell g E -> prune order g roots = Ok (out, ren) ->
  noise_ok P B cell out (pull E ren) /\ forall n m, alookup ren n = Some m -> pull E ren m = E n.
Proof.
  intros EN RC HO Hv Nk Ep. destruct (prune_ok g roots EN RC order HO) as (out' & ren' & E' & EN' & A & C & Inj & V). rewrite E' in Ep. injection Ep as -> ->.
  assert (Pl : forall n m, alookup ren n = Some m -> pull E ren m = E n).
  { intros n m Hm. unfold pull. destruct (find _ (map fst ren)) as [n'|] eqn:F.
    - apply find_some in F as (_ & F). destruct (alookup ren n') as [m'|] eqn:Hm'; [|discriminate]. apply Nat.eqb_eq in F. subst m'. now rewrite (Inj n n' m Hm Hm').
    - exfalso. assert (Hi : In n (map fst ren)) by (apply alookup_Some; eauto). pose proof (find_none _ _ F n Hi) as Q. cbn beta in Q. rewrite Hm, Nat.eqb_refl in Q. discriminate. }
  split; [|exact Pl]. intros m op Hop. assert (Cm : contains out m = true) by (unfold contains; now rewrite Hop). apply C in Cm as (n & Hn).
  destruct (V n m Hn) as (Vn & Vi). rewrite Hop in Vn. symmetry in Vn. pose proof (proj1 (A n) (ex_intro _ m Hn)) as An. destruct (ancestor_value N cells g roots Hv n An) as (o & Fv).
  inversion Fv as [n' op' ins o' Hn' Fi Ex]; subst. assert (op' = op) as -> by congruence. destruct (Nk n op Vn) as (K1 & K2).
  set (ns := map (fun e : nat * nat * fedge => (snd e, E (fst (fst e)))) (in_edges g n)) in *.
  assert (Pm : Permutation ns (map (fun e : nat * nat * fedge => (snd e, pull E ren (fst (fst e)))) (in_edges out m))).
  { eapply perm_trans; [|apply Permutation_map, Permutation_sym, Vi]. rewrite map_map. unfold ns.
    match goal with |- Permutation ?a ?b => replace b with a; [apply Permutation_refl|] end. apply map_ext_in. intros [[s t] l] Hi. cbn [emap fst snd]. f_equal.
    assert (As : ancestor g roots s). { apply in_edges3 in Hi as (Hi & ->). eapply anc_step; eassumption. }
    apply A in As as (ms & Hs). unfold fren. rewrite Hs. symmetry. now apply Pl. }
  destruct (op_noise_perm P B cell N cells op ins o ns _ Ex ltac:(unfold ns; rewrite map_map; cbn [fst]; symmetry; exact (finputs_labels _ _ _ _ _ Fi)) Pm) as (Q1 & Q2).
  cbv zeta. split; [exact (Q1 K1)|]. rewrite Q2, (Pl n m Hn). exact K2.
Qed.

(** ** Lists *)
Lemma incl_firstn {A} n (l : list A) : incl (firstn n l) l.
Proof. revert l. induction n as [|n IH]; intros [|y l] x; cbn; auto; [intros []|]. intros [H|H]; auto. right. now apply IH. Qed.
Lemma incl_skipn {A} n (l : list A) : incl (skipn n l) l.
Proof. revert l. induction n as [|n IH]; intros [|y l] x; cbn; auto. intros H. right. now apply IH. Qed.
Lemma incl_interleave {T} (a b : list T) : incl (interleave a b) (a ++ b).
Proof.
  revert b. induction a as [|y a IH]; intros [|z b] x H; cbn in H; try tauto. apply in_or_app. destruct H as [->|[->|H]]; [left; now left|right; now left|].
  apply IH, in_app_or in H as [H|H]; [left|right]; now right.
Qed.
Lemma encode_in {A} (d : A) n m ll lh hl hh bits : encode_reduction d n m ll lh hl hh = Ok bits -> incl bits (ll ++ lh ++ hl ++ hh) /\ length bits = (2 * (n + m))%nat.
Proof.
  unfold encode_reduction. destruct (partition_integer n) as [al ah] eqn:Pn. destruct (partition_integer m) as [bl bh] eqn:Pm.
  destruct (negb _) eqn:G; [discriminate|]. apply negb_false_iff in G. rewrite !andb_true_iff, !Nat.eqb_eq, !Nat.leb_le in G. destruct (Nat.ltb_spec ah bh) as [|Hh]; [discriminate|].
  destruct G as ((((((L1 & L2) & L3) & L4) & G1) & G2) & G3). intros H. injection H as <-.
  assert (Sn : n = (al + ah)%nat /\ m = (bl + bh)%nat) by (pose proof (partition_large _ _ _ Pn); pose proof (partition_large _ _ _ Pm); lia).
  assert (I1 : forall i, (i < al + bl)%nat -> In (nth i ll d) (ll ++ lh ++ hl ++ hh)) by (intros i Hi; rewrite !in_app_iff; left; apply nth_In; lia).
  assert (I2 : forall i, (i < al + bh)%nat -> In (nth i lh d) (ll ++ lh ++ hl ++ hh)) by (intros i Hi; rewrite !in_app_iff; right; left; apply nth_In; lia).
  assert (I3 : forall i, (i < ah + bl)%nat -> In (nth i hl d) (ll ++ lh ++ hl ++ hh)) by (intros i Hi; rewrite !in_app_iff; right; right; left; apply nth_In; lia).
  assert (I4 : forall i, (i < ah + bh)%nat -> In (nth i hh d) (ll ++ lh ++ hl ++ hh)) by (intros i Hi; rewrite !in_app_iff; right; right; right; apply nth_In; lia).
  split.
  - intros x Hx. rewrite !in_app_iff in Hx. destruct Hx as [Hx|[Hx|[Hx|[Hx|[Hx|Hx]]]]].
    + apply in_map_iff in Hx as (i & <- & Hi). apply in_seq in Hi. apply I1. lia.
    + apply in_flat_map in Hx as (i & Hi & Hx). apply in_seq in Hi. destruct Hx as [<-|[<-|[]]]; [apply I1|apply I2]; lia.
    + apply in_flat_map in Hx as (i & Hi & Hx). apply in_seq in Hi. destruct Hx as [<-|[<-|[<-|[]]]]; [apply I1|apply I3|apply I2]; lia.
    + apply in_flat_map in Hx as (i & Hi & Hx). apply in_seq in Hi. destruct Hx as [<-|[<-|[<-|[]]]]; [apply I3|apply I2|apply I4]; lia.
    + apply in_flat_map in Hx as (i & Hi & Hx). apply in_seq in Hi. destruct Hx as [<-|[<-|[]]]; [apply I3|apply I4]; lia.
    + apply in_map_iff in Hx as (i & <- & Hi). apply in_seq in Hi. apply I4. lia.
  - assert (FL : forall (k : nat) (f : nat -> list A) (c : nat), (forall i, length (f i) = c) -> forall s, length (flat_map f (seq s k)) = (k * c)%nat).
    { intros k f c Hf. induction k as [|k IH]; intros s; [reflexivity|]. cbn [seq flat_map]. rewrite app_length, Hf, IH. lia. }
    rewrite !app_length, !map_length, !seq_length, (FL _ _ 2%nat), (FL _ _ 3%nat), (FL _ _ 3%nat), (FL _ _ 2%nat) by reflexivity. lia.
Qed.

(** ** The multiplication *)
Section Noise.
Context (P : params) (B : bounds) (cell : cty -> nat -> Z).
Context (HB : bounds_ok B) (HN : (1 <= p_N P)%nat).
Context (lib : mux_library) (L : lib_ok lib) (D : nat -> nat) (Dmono : forall a b, (a <= b)%nat -> (D a <= D b)%nat) (LD : lib_depth lib D).
Local Notation nok := (noise_ok P B cell).
Local Notation sel := (sel_noise P B (boot_noise P B)).
Definition good (g : fgraph) (E : nat -> Z) : Prop := edges_ok g /\ nok g E.
Definition step_to (g : fgraph) (E : nat -> Z) (g' : fgraph) (E' : nat -> Z) : Prop := grows g g' /\ forall n, contains g n = true -> E' n = E n.
Definition boots_at (g : fgraph) (E : nat -> Z) (l : list nat) : Prop := forall x, In x l -> node g x = Some FCbs /\ E x = boot_noise P B.
Definition low (M : Z) (g : fgraph) (E : nat -> Z) (l : list nat) : Prop := forall x, In x l -> contains g x = true /\ E x <= M.
Lemma step_trans g E g1 E1 g2 E2 : step_to g E g1 E1 -> step_to g1 E1 g2 E2 -> step_to g E g2 E2.
Proof. intros (G1 & K1) (G2 & K2). split; [eapply grows_trans; eauto|]. intros n C. rewrite K2 by (eapply grows_contains; eauto). auto. Qed.
Lemma boots_step g E g' E' l : step_to g E g' E' -> boots_at g E l -> boots_at g' E' l.
Proof. intros (G & K) Hb x Hx. destruct (Hb x Hx) as (N1 & N2). assert (C : contains g x = true) by (unfold contains; now rewrite N1). split; [destruct (proj2 G x C) as (_ & -> & _); exact N1|now rewrite K]. Qed.
Lemma low_step M g E g' E' l : step_to g E g' E' -> low M g E l -> low M g' E' l.
Proof. intros (G & K) Hb x Hx. destruct (Hb x Hx) as (C & N2). split; [eapply grows_contains; eauto|now rewrite K]. Qed.

Lemma convert_noise E0 g n E : boot_margin P (E0 + switch_noise P B) -> contains g n = true -> E n <= E0 -> good g E ->
  exists g' c E', convert g n TGlwe1 TGgsw1 = Ok (g', c) /\ step_to g E g' E' /\ good g' E' /\ boots_at g' E' [c].
Proof.
  intros Hmargin C0 Hn (EN & H). unfold convert. cbn [convert_rec cty_eqb convert_step].
  rewrite add_node_extend. destruct (unary_step g n (FSampleExtract 0) EN C0) as (-> & G1 & C1 & _). cbn [bind convert_rec cty_eqb convert_step].
  assert (N1 : nok (extend g [FSampleExtract 0] [(n, size g, EUnary)]) (upd E (size g) E0)).
  { apply noise_one; eauto. split; [exact I|]. cbn. lia. }
  set (g1 := extend g [FSampleExtract 0] [(n, size g, EUnary)]) in *. set (e1 := upd E (size g) E0) in *.
  rewrite (add_node_extend g1). destruct (unary_step g1 (size g) FKeyswitch (proj1 G1) C1) as (-> & G2 & C2 & _). cbn [bind convert_rec cty_eqb convert_step].
  assert (N2 : nok (extend g1 [FKeyswitch] [(size g, size g1, EUnary)]) (upd e1 (size g1) (E0 + switch_noise P B))).
  { apply noise_one; eauto; [exact (proj1 G1)|]. split; [exact I|]. cbn [map fst snd op_noise noise0]. unfold e1. rewrite upd_same. lia. }
  set (g2 := extend g1 [FKeyswitch] [(size g, size g1, EUnary)]) in *. set (e2 := upd e1 (size g1) (E0 + switch_noise P B)) in *.
  rewrite (add_node_extend g2). destruct (unary_step g2 (size g1) FCbs (proj1 G2) C2) as (-> & G3 & C3 & _). cbn [bind convert_rec cty_eqb convert_step].
  assert (N3 : nok (extend g2 [FCbs] [(size g1, size g2, EUnary)]) (upd e2 (size g2) (boot_noise P B))).
  { apply noise_one; eauto; [exact (proj1 G2)|]. cbn [map fst snd op_noise noise0 op_cond]. unfold e2. rewrite upd_same. split; [exact Hmargin|lia]. }
  set (g3 := extend g2 [FCbs] [(size g1, size g2, EUnary)]) in *.
  exists g3, (size g2), (upd e2 (size g2) (boot_noise P B)). split; [reflexivity|]. split; [split; [eapply grows_trans; [|exact G3]; eapply grows_trans; eauto|]|].
  - intros k C. apply contains_lt in C. assert (S1 : size g1 = (size g + 1)%nat) by (unfold g1; now rewrite extend_size). assert (S2 : size g2 = (size g1 + 1)%nat) by (unfold g2; now rewrite extend_size).
    unfold e2, e1, upd. repeat (match goal with |- context [(k =? ?j)%nat] => destruct (Nat.eqb_spec k j); [lia|] end). reflexivity.
  - split; [split; [exact (proj1 G3)|exact N3]|]. intros x [<-|[]]. split; [|apply upd_same]. unfold g3. rewrite <- (Nat.add_0_r (size g2)) at 2. now rewrite extend_node_new.
Qed.
Lemma gconvert_noise E0 : boot_margin P (E0 + switch_noise P B) -> forall ns g E, low E0 g E ns -> good g E ->
  exists g' cs E', gconvert TGlwe1 TGgsw1 ns g = Ok (g', cs) /\ step_to g E g' E' /\ good g' E' /\ boots_at g' E' cs.
Proof.
  intros Hm. induction ns as [|n ns IH]; intros g E Hl Hg.
  - exists g, [], E. split; [reflexivity|]. split; [split; [apply grows_refl; apply Hg|auto]|]. split; [exact Hg|]. intros x [].
  - destruct (Hl n (or_introl eq_refl)) as (C & Hn). destruct (convert_noise E0 g n E Hm C Hn Hg) as (g1 & c & E1 & Q1 & S1 & G1 & B1).
    destruct (IH g1 E1) as (g2 & cs & E2 & Q2 & S2 & G2 & B2); [|exact G1|].
    + intros x Hx. eapply low_step; [exact S1| |exact Hx]. intros y Hy. apply Hl. now right.
    + exists g2, (c :: cs), E2. unfold gconvert in *. rewrite gmap_cons, Q1. cbn [bind]. rewrite Q2. cbn [bind]. split; [reflexivity|]. split; [eapply step_trans; eauto|]. split; [exact G2|].
      intros x [<-|Hx]; [|auto]. eapply boots_step; [exact S2|exact B1|now left].
Qed.
Lemma sel_pos : 0 <= sel. Proof. now apply sel_nonneg. Qed.
Lemma insert_low W b hosts g E g' outs : boots_at g E hosts -> good g E -> insert lib b hosts MGlwe g = Ok (g', outs) -> (length hosts <= W)%nat ->
  exists E', step_to g E g' E' /\ good g' E' /\ low (Z.of_nat (D W) * sel) g' E' outs.
Proof.
  intros Hb (EN & Nk) Ei HW. unfold insert in Ei. pose proof (L b) as Lb. destruct (builder b) as [c| |] eqn:Eb; [|rewrite Lb in Ei; discriminate|rewrite Lb in Ei; discriminate].
  destruct Lb as (mc & inputs & El & Cp). rewrite El in Ei. cbn [bind] in Ei. destruct (cp_outs _ _ _ Cp) as (k & DS & _).
  destruct (Nat.eq_dec (length hosts) (length inputs)) as [Q|Q].
  2:{ unfold insert_mux in Ei. destruct (Nat.eqb_spec (length inputs) (length hosts)) as [Q'|Q']; [congruence|]. discriminate. }
  pose proof (cp_arity _ _ _ Cp) as Ar.
  destruct (insert_noise P B cell 0 HB HN g mc inputs hosts k (D (c_arity c)) E EN (cp_wf _ _ _ Cp) DS Q (LD b c mc inputs Eb El) Hb Nk) as (g2 & outs2 & E2 & Eq & G2 & N2 & _ & F2 & Old).
  rewrite Ei in Eq. injection Eq as <- <-. exists E2. split; [split; [exact G2|exact Old]|]. split; [split; [exact (proj1 G2)|exact N2]|].
  intros x Hx. destruct (proj1 (Forall_forall _ _) F2 x Hx) as (C & Hl). split; [exact C|]. apply Z.le_trans with (1 := Hl). apply Z.mul_le_mono_nonneg_r; [exact sel_pos|]. apply inj_le, Dmono. lia.
Qed.

Lemma boots_incl g E l l' : boots_at g E l -> incl l' l -> boots_at g E l'.
Proof. intros H I x Hx. apply H, I, Hx. Qed.
Lemma low_incl M g E l l' : low M g E l -> incl l' l -> low M g E l'.
Proof. intros H I x Hx. apply H, I, Hx. Qed.
Lemma low_app M g E l l' : low M g E l -> low M g E l' -> low M g E (l ++ l').
Proof. intros H H' x Hx. apply in_app_or in Hx as [Hx|Hx]; auto. Qed.
Lemma boots_app g E l l' : boots_at g E l -> boots_at g E l' -> boots_at g E (l ++ l').
Proof. intros H H' x Hx. apply in_app_or in Hx as [Hx|Hx]; auto. Qed.
Lemma boots_handles g E l : boots_at g E l -> handles g TGgsw1 l.
Proof. intros H. apply Forall_forall. intros x Hx. exists FCbs. split; [apply H, Hx|reflexivity]. Qed.
Lemma gconvert_len t t' : forall ns g g' cs, gconvert t t' ns g = Ok (g', cs) -> length cs = length ns.
Proof.
  unfold gconvert. induction ns as [|n ns IH]; intros g g' cs H; [cbn in H; injection H as <- <-; reflexivity|].
  rewrite gmap_cons in H. destruct (convert g n t t') as [[g1 c]| |]; [|discriminate|discriminate]. cbn [bind] in H. destruct (gmap _ ns g1) as [[g2 cs2]| |] eqn:E; [|discriminate|discriminate]. cbn [bind] in H. injection H as <- <-.
  cbn [length]. f_equal. eapply IH. exact E.
Qed.
Lemma low_step2 M g E g1 E1 g2 E2 l : step_to g E g1 E1 -> step_to g1 E1 g2 E2 -> low M g E l -> low M g2 E2 l.
Proof. intros H1 H2 Hl. eapply low_step; [exact H2|]. eapply low_step; [exact H1|exact Hl]. Qed.
Open Scope nat_scope.
Lemma gmul_noise W : forall fuel a b g E g' r, length a + length b < fuel -> length a + length b <= W -> (16 < Nat.max (length a) (length b) -> 2 * (length a + length b) <= W) -> good g E -> boots_at g E a -> boots_at g E b ->
  ((16 < Nat.max (length a) (length b)) -> boot_margin P (Z.of_nat (D W) * sel + switch_noise P B)%Z) -> gmul_impl lib fuel MGlwe a b g = Ok (g', r) ->
  exists E', step_to g E g' E' /\ good g' E' /\ low (Z.of_nat (D W) * sel)%Z g' E' r.
Proof.
  set (M := (Z.of_nat (D W) * sel)%Z).
  induction fuel as [|f IH]; intros a0 b0 g E g' r HF HW HW2 Hg Ha0 Hb0 Hm Em; [lia|]. cbn [gmul_impl] in Em.
  assert (Hsw : exists a b, (if length a0 <? length b0 then (b0, a0) else (a0, b0)) = (a, b) /\ length a = Nat.max (length a0) (length b0) /\ length b = Nat.min (length a0) (length b0) /\ boots_at g E a /\ boots_at g E b).
  { destruct (Nat.ltb_spec (length a0) (length b0)); [exists b0, a0|exists a0, b0]; (split; [reflexivity|]); (split; [lia|]); (split; [lia|]); auto. }
  destruct Hsw as (a & b & Q & La & Lb & Ha & Hb). rewrite Q in Em. clear Q.
  assert (HF' : length a + length b <= f) by lia. assert (HW' : length a + length b <= W) by lia. assert (HW2' : 16 < length a -> 2 * (length a + length b) <= W) by (intros Q; rewrite La, Lb; specialize (HW2 ltac:(lia)); lia). assert (Hm' : 16 < length a -> boot_margin P (M + switch_noise P B)%Z) by (intros Q; apply Hm; lia).
  assert (Hle : length b <= length a) by lia. clear HF HW HW2 Ha0 Hb0 Hm La Lb.
  destruct (partition_integer (length a)) as [al ah] eqn:Pa. destruct (partition_integer (length b)) as [bl bh] eqn:Pb. apply partition_large in Pa, Pb.
  pose proof (boots_incl _ _ _ _ Ha (incl_firstn al a)) as Hal. pose proof (boots_incl _ _ _ _ Ha (incl_skipn al a)) as Hah. pose proof (boots_incl _ _ _ _ Hb (incl_firstn bl b)) as Hbl. pose proof (boots_incl _ _ _ _ Hb (incl_skipn bl b)) as Hbh.
  assert (Lal : length (firstn al a) = al) by (rewrite firstn_length; lia). assert (Lah : length (skipn al a) = ah) by (rewrite skipn_length; lia).
  assert (Lbl : length (firstn bl b) = bl) by (rewrite firstn_length; lia). assert (Lbh : length (skipn bl b) = bh) by (rewrite skipn_length; lia).
  assert (Len : forall x y g E g' r, good g E -> boots_at g E x -> boots_at g E y -> length x + length y < f -> gmul_impl lib f MGlwe x y g = Ok (g', r) -> length r = length x + length y).
  { intros x y h Eh h' rh Hh Hx Hy Lf Eq. pose proof (gmul_spec lib L f MGlwe x y h (proj1 Hh) (boots_handles _ _ _ Hx) (boots_handles _ _ _ Hy) Lf) as SP.
    destruct (mul_ok f (length x) (length y)); [|congruence]. destruct SP as (h2 & r2 & E2 & _ & _ & L2 & _). rewrite Eq in E2. injection E2 as <- <-. exact L2. }
  destruct ((ah =? 0) && (bh =? 0)) eqn:Z0.
  { apply (insert_low W _ _ _ _ _ _ (boots_app _ _ _ _ Ha Hb) Hg Em). rewrite app_length. lia. }
  assert (Big : 16 < length a) by (apply andb_false_iff in Z0; rewrite !Nat.eqb_neq in Z0; lia). specialize (Hm' Big). specialize (HW2' Big).
  destruct (Nat.eqb_spec bh 0) as [Hbz|Hbz].
  - destruct (gmul_impl lib f MGlwe (firstn al a) (firstn bl b) g) as [[g1 ll]| |] eqn:E1; [|discriminate|discriminate]. cbn [bind] in Em.
    destruct (IH (firstn al a) (firstn bl b) g E _ _ ltac:(lia) ltac:(lia) ltac:(lia) Hg Hal Hbl (fun _ => Hm') E1) as (e1 & S1 & G1 & R1). pose proof (Len (firstn al a) (firstn bl b) g E _ _ Hg Hal Hbl ltac:(lia) E1) as L1.
    destruct (gmul_impl lib f MGlwe (skipn al a) (firstn bl b) g1) as [[g2 hl]| |] eqn:E2; [|discriminate|discriminate]. cbn [bind] in Em.
    pose proof (boots_step _ _ _ _ _ S1 Hah) as Hah1. pose proof (boots_step _ _ _ _ _ S1 Hbl) as Hbl1.
    destruct (IH (skipn al a) (firstn bl b) g1 e1 _ _ ltac:(lia) ltac:(lia) ltac:(lia) G1 Hah1 Hbl1 (fun _ => Hm') E2) as (e2 & S2 & G2 & R2). pose proof (Len (skipn al a) (firstn bl b) g1 e1 _ _ G1 Hah1 Hbl1 ltac:(lia) E2) as L2.
    set (adds := interleave (skipn al ll) (firstn al hl) ++ skipn al hl) in *.
    assert (K : low M g2 e2 adds).
    { apply low_app; [eapply low_incl; [|apply incl_interleave]; apply low_app|]; (eapply low_incl; [|apply incl_firstn || apply incl_skipn]); [eapply low_step; eauto|exact R2|exact R2]. }
    destruct (gconvert_noise M Hm' adds g2 e2 K G2) as (g3 & cs & e3 & E3 & S3 & G3 & R3). cbn [mode_ty] in Em. rewrite E3 in Em. cbn [bind] in Em.
    destruct (insert lib _ cs MGlwe g3) as [[g4 sum]| |] eqn:E4; [|discriminate|discriminate]. cbn [bind] in Em.
    destruct (insert_low W _ _ _ _ _ _ R3 G3 E4) as (e4 & S4 & G4 & R4).
    { rewrite (gconvert_len _ _ _ _ _ _ E3). unfold adds. rewrite app_length, interleave_length_min, !skipn_length, firstn_length. lia. }
    destruct (_ =? _) in Em; [|discriminate]. injection Em as <- <-.
    exists e4. split; [eapply step_trans; [exact S1|]; eapply step_trans; [exact S2|]; eapply step_trans; eauto|]. split; [exact G4|].
    apply low_app; [|exact R4]. eapply low_incl; [|apply incl_firstn]. eapply low_step2; [exact S3|exact S4|]. eapply low_step; eauto.
  - destruct (gmul_impl lib f MGlwe (firstn al a) (firstn bl b) g) as [[g1 ll]| |] eqn:E1; [|discriminate|discriminate]. cbn [bind] in Em.
    destruct (IH (firstn al a) (firstn bl b) g E _ _ ltac:(lia) ltac:(lia) ltac:(lia) Hg Hal Hbl (fun _ => Hm') E1) as (e1 & S1 & G1 & R1).
    destruct (gmul_impl lib f MGlwe (firstn al a) (skipn bl b) g1) as [[g2 lh]| |] eqn:E2; [|discriminate|discriminate]. cbn [bind] in Em.
    destruct (IH (firstn al a) (skipn bl b) g1 e1 _ _ ltac:(lia) ltac:(lia) ltac:(lia) G1 (boots_step _ _ _ _ _ S1 Hal) (boots_step _ _ _ _ _ S1 Hbh) (fun _ => Hm') E2) as (e2 & S2 & G2 & R2). pose proof (step_trans _ _ _ _ _ _ S1 S2) as S12.
    destruct (gmul_impl lib f MGlwe (skipn al a) (firstn bl b) g2) as [[g3 hl]| |] eqn:E3; [|discriminate|discriminate]. cbn [bind] in Em.
    destruct (IH (skipn al a) (firstn bl b) g2 e2 _ _ ltac:(lia) ltac:(lia) ltac:(lia) G2 (boots_step _ _ _ _ _ S12 Hah) (boots_step _ _ _ _ _ S12 Hbl) (fun _ => Hm') E3) as (e3 & S3 & G3 & R3). pose proof (step_trans _ _ _ _ _ _ S12 S3) as S13.
    destruct (gmul_impl lib f MGlwe (skipn al a) (skipn bl b) g3) as [[g4 hh]| |] eqn:E4; [|discriminate|discriminate]. cbn [bind] in Em.
    destruct (IH (skipn al a) (skipn bl b) g3 e3 _ _ ltac:(lia) ltac:(lia) ltac:(lia) G3 (boots_step _ _ _ _ _ S13 Hah) (boots_step _ _ _ _ _ S13 Hbh) (fun _ => Hm') E4) as (e4 & S4 & G4 & R4). pose proof (step_trans _ _ _ _ _ _ S13 S4) as S14.
    destruct (encode_reduction 0 (length a) (length b) ll lh hl hh) as [bits| |] eqn:Ee; [|discriminate|discriminate]. cbn [bind] in Em. destruct (encode_in _ _ _ _ _ _ _ _ Ee) as (Ib & Lbits).
    assert (K : low M g4 e4 bits).
    { eapply low_incl; [|exact Ib]. apply low_app; [exact (low_step2 _ _ _ _ _ _ _ _ (step_trans _ _ _ _ _ _ S2 S3) S4 R1)|]. apply low_app; [exact (low_step2 _ _ _ _ _ _ _ _ S3 S4 R2)|]. apply low_app; [exact (low_step _ _ _ _ _ _ S4 R3)|exact R4]. }
    destruct (gconvert_noise M Hm' bits g4 e4 K G4) as (g5 & cs & e5 & E5 & S5 & G5 & R5). rewrite E5 in Em. cbn [bind] in Em.
    destruct (insert_low W _ _ _ _ _ _ R5 G5 Em) as (e6 & S6 & G6 & R6); [rewrite (gconvert_len _ _ _ _ _ _ E5); lia|].
    exists e6. split; [eapply step_trans; [exact S14|]; eapply step_trans; eauto|]. auto.
Qed.
End Noise.
