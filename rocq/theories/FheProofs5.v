(** Proofs: circuits built from decision diagrams are diagram shaped. *)
From Coq Require Import ZifyBool ZifyNat Permutation.
From Verif Require Import Base Graph MuxGraph SpecMux FheGraph SpecFhe MuxGraphProofs MuxGraphProofs2.
Open Scope nat_scope.

Definition src_lab (w : muxop) (l : medge) : Prop := match w with MVar _ => l = Select | MOut _ => False | _ => l <> Select end.
Definition esrc (g : graph (muxop * nat) medge) : Prop :=
  forall s t l, In (s, t, l) (gedges g) -> exists w v, node g s = Some (w, v) /\ src_lab w l.
Definition inner (g : graph (muxop * nat) medge) (n : nat) : Prop := exists w v, node g n = Some (w, v) /\ (w = MMux \/ w = MOne \/ w = MZero).

Lemma esrc_add_node : forall g w, esrc g -> esrc (snd (add_node g w)).
Proof. intros g w H s t l Hi. destruct (H s t l Hi) as (x & v & Hn & Hl). exists x, v. split; [now apply node_add_old|auto]. Qed.
Lemma inner_add_node : forall g w n, inner g n -> inner (snd (add_node g w)) n.
Proof. intros g w n (x & v & Hn & Hl). exists x, v. split; [now apply node_add_old|auto]. Qed.
Lemma esrc_add_edge : forall g a b l g' w v, esrc g -> add_edge g a b l = Ok g' -> node g a = Some (w, v) -> src_lab w l ->
  esrc g' /\ (forall n, node g' n = node g n).
Proof.
  intros g a b l g' w v H E Hn Hl. unfold add_edge in E. destruct (contains g a && contains g b); [|discriminate]. injection E as <-. split; [|reflexivity].
  intros s t l' [Hi|Hi]; [injection Hi as <- <- <-; exists w, v; auto|]. exact (H s t l' Hi).
Qed.

Record sinv (b : builder) : Prop := { s_e : esrc (bgraph b); s_z : forall z, bzero b = Some z -> inner (bgraph b) z; s_o : forall z, bone b = Some z -> inner (bgraph b) z }.

Lemma add_bdd_node_shape : forall b added rec b' added', sinv b -> Forall (inner (bgraph b)) added ->
  add_bdd_node (b, added) rec = Ok (b', added') -> sinv b' /\ Forall (inner (bgraph b')) added' /\ added' <> [].
Proof.
  intros b added [[var lo] hi] b' added' S F E. unfold add_bdd_node in E.
  match type of E with (let '(n, b1) := ?X in _) = _ => set (st := X) in E end.
  assert (S1 : sinv (snd st) /\ Forall (inner (bgraph (snd st))) added /\ inner (bgraph (snd st)) (fst st)).
  { assert (New : forall w z o, (w = MMux \/ w = MOne \/ w = MZero) -> (forall x, z = Some x -> inner (snd (add_node (bgraph b) (w, var))) x) -> (forall x, o = Some x -> inner (snd (add_node (bgraph b) (w, var))) x) ->
      sinv {| bgraph := snd (add_node (bgraph b) (w, var)); bmax := Nat.max (bmax b) var; bzero := z; bone := o |} /\
      Forall (inner (snd (add_node (bgraph b) (w, var)))) added /\ inner (snd (add_node (bgraph b) (w, var))) (fst (add_node (bgraph b) (w, var)))).
    { intros w z o Hw Hz Ho. split; [|split].
      - constructor; cbn [bgraph bzero bone]; auto. apply esrc_add_node, (s_e b S).
      - eapply Forall_impl; [|exact F]. intros n. apply inner_add_node.
      - exists w, var. split; [apply node_add_new|auto]. }
    assert (Self : forall w, (w = MMux \/ w = MOne \/ w = MZero) -> forall x, Some (fst (add_node (bgraph b) (w, var))) = Some x -> inner (snd (add_node (bgraph b) (w, var))) x).
    { intros w Hw x Hx. injection Hx as <-. exists w, var. split; [apply node_add_new|auto]. }
    assert (Z : forall w x, bzero b = Some x -> inner (snd (add_node (bgraph b) (w, var))) x) by (intros; apply inner_add_node; now apply (s_z b S)).
    assert (O : forall w x, bone b = Some x -> inner (snd (add_node (bgraph b) (w, var))) x) by (intros; apply inner_add_node; now apply (s_o b S)).
    unfold st. destruct ((hi =? 0) && (lo =? 0)).
    - destruct (bzero b) as [z|] eqn:Ez.
      + cbn [fst snd bgraph]. split; [|split; [auto|apply (s_z b S); auto]]. constructor; cbn [bgraph bzero bone]; [apply (s_e b S)|intros x Hx; apply (s_z b S); congruence|apply (s_o b S)].
      + apply (New MZero); auto.
    - destruct ((hi =? 1) && (lo =? 1)).
      + destruct (bone b) as [z|] eqn:Ez.
        * cbn [fst snd bgraph]. split; [|split; [auto|apply (s_o b S); auto]]. constructor; cbn [bgraph bzero bone]; [apply (s_e b S)|apply (s_z b S)|intros x Hx; apply (s_o b S); congruence].
        * apply (New MOne); auto.
      + apply (New MMux); auto. }
  destruct st as [n b1]. cbn [fst snd] in S1. destruct S1 as (S1 & F1 & N1).
  assert (F2 : Forall (inner (bgraph b1)) (added ++ [n])) by (apply Forall_app; auto).
  assert (NE : added ++ [n] <> []) by (intros H; apply app_eq_nil in H; destruct H; discriminate).
  cbn [fst snd] in E. destruct (lo =? hi).
  - injection E as <- <-. auto.
  - unfold get in E. destruct (nth_error (added ++ [n]) lo) as [l|] eqn:El; cbn [bind] in E; [|discriminate].
    destruct (add_edge (bgraph b1) l n Low) as [g1| |] eqn:E1; cbn [bind] in E; try discriminate.
    destruct (nth_error (added ++ [n]) hi) as [h|] eqn:Eh; cbn [bind] in E; [|discriminate].
    destruct (add_edge g1 h n High) as [g2| |] eqn:E2; cbn [bind] in E; try discriminate. injection E as <- <-.
    assert (Il : inner (bgraph b1) l) by (eapply Forall_forall; [exact F2|eapply nth_error_In; eauto]).
    assert (Ih : inner (bgraph b1) h) by (eapply Forall_forall; [exact F2|eapply nth_error_In; eauto]).
    destruct Il as (wl & vl & Hl1 & Hl2). destruct Ih as (wh & vh & Hh1 & Hh2).
    destruct (esrc_add_edge _ _ _ _ _ wl vl (s_e b1 S1) E1 Hl1) as [A1 B1]; [destruct Hl2 as [->|[->| ->]]; discriminate|].
    destruct (esrc_add_edge _ _ _ _ _ wh vh A1 E2) as [A2 B2]; [now rewrite B1|destruct Hh2 as [->|[->| ->]]; discriminate|].
    assert (Sm : forall x, inner (bgraph b1) x -> inner g2 x) by (intros x (w & v & H1 & H2); exists w, v; split; [now rewrite B2, B1|auto]).
    split; [|split; [|exact NE]].
    + constructor; cbn [bgraph bzero bone]; auto; intros z Hz; apply Sm; [now apply (s_z b1 S1)|now apply (s_o b1 S1)].
    + cbn [bgraph]. eapply Forall_impl; [|exact F2]. exact Sm.
Qed.
Lemma add_bdd_nodes_shape : forall d b added b' added', sinv b -> Forall (inner (bgraph b)) added -> foldM add_bdd_node d (b, added) = Ok (b', added') ->
  sinv b' /\ Forall (inner (bgraph b')) added' /\ (d <> [] -> added' <> []).
Proof.
  induction d as [|r d IH]; intros b added b' added' S F E; cbn [foldM] in E.
  - injection E as <- <-. split; [auto|]. split; [auto|congruence].
  - destruct (add_bdd_node (b, added) r) as [[b1 a1]| |] eqn:E1; cbn [bind] in E; try discriminate.
    destruct (add_bdd_node_shape _ _ _ _ _ S F E1) as (S1 & F1 & N1). destruct (IH _ _ _ _ S1 F1 E) as (S2 & F2 & N2). split; [auto|]. split; [auto|].
    intros _. destruct d; [|apply N2; discriminate]. cbn [foldM] in E. injection E as <- <-. exact N1.
Qed.
Lemma add_bdds_shape : forall ds b i b' i', sinv b -> foldM add_bdd ds (b, i) = Ok (b', i') -> sinv b'.
Proof.
  induction ds as [|d ds IH]; intros b i b' i' S E; cbn [foldM] in E; [injection E as <- <-; auto|].
  destruct (add_bdd (b, i) d) as [[b1 i1]| |] eqn:E1; cbn [bind] in E; try discriminate. apply (IH _ _ _ _ ) in E; auto. clear E IH.
  unfold add_bdd in E1. destruct d as [|r d]; [discriminate|]. destruct (foldM add_bdd_node (r :: d) (b, [])) as [[b2 added]| |] eqn:E2; cbn [bind] in E1; try discriminate.
  destruct (add_bdd_nodes_shape _ _ _ _ _ S (Forall_nil _) E2) as (S2 & F2 & N2). specialize (N2 ltac:(discriminate)).
  set (g1 := snd (add_node (bgraph b2) (MOut i, 0))) in *. change (add_node (bgraph b2) (MOut i, 0)) with (length (gnodes (bgraph b2)), g1) in E1. cbv iota beta in E1.
  destruct (add_edge g1 (last added 0) (length (gnodes (bgraph b2))) OutEdge) as [g2| |] eqn:E3; cbn [bind] in E1; try discriminate. injection E1 as <- <-.
  assert (In (last added 0) added). { destruct (exists_last N2) as (l & a & ->). rewrite last_last. apply in_app_iff. right. now left. }
  assert (I1 : inner g1 (last added 0)). { apply inner_add_node. eapply Forall_forall; eauto. }
  destruct I1 as (w & v & H1 & H2). destruct (esrc_add_edge g1 _ _ _ _ w v (esrc_add_node _ _ (s_e b2 S2)) E3 H1) as [A B]; [destruct H2 as [->|[->| ->]]; discriminate|].
  assert (Sm : forall x, inner (bgraph b2) x -> inner g2 x) by (intros x Hx; apply (inner_add_node _ (MOut i, 0)) in Hx; destruct Hx as (w' & v' & Hn & Hw); exists w', v'; split; [rewrite B; exact Hn|auto]).
  constructor; cbn [bgraph bzero bone]; auto; intros z Hz; apply Sm; [now apply (s_z b2 S2)|now apply (s_o b2 S2)].
Qed.
Lemma add_variables_shape : forall k i g ns g', esrc g -> add_variables k i g = (ns, g') -> esrc g' /\ (forall n w, node g n = Some w -> node g' n = Some w) /\
  forall x, In x ns -> exists j v, node g' x = Some (MVar j, v).
Proof.
  induction k as [|k IH]; intros i g ns g' S E; cbn [add_variables] in E.
  - injection E as <- <-. split; [auto|]. split; [auto|]. intros x [].
  - change (add_node g (MVar i, 0)) with (length (gnodes g), snd (add_node g (MVar i, 0))) in E. cbv iota beta in E.
    destruct (add_variables k (Datatypes.S i) (snd (add_node g (MVar i, 0)))) as [ns1 g2] eqn:E1. injection E as <- <-.
    destruct (IH _ _ _ _ (esrc_add_node _ (MVar i, 0) S) E1) as (A & B & C). split; [auto|]. split.
    + intros n w H. apply B. now apply node_add_old.
    + intros x [<-|Hx]; [|auto]. exists i, 0. apply B. apply node_add_new.
Qed.
Lemma add_select_shape : forall inputs ns g g', esrc g -> (forall x, In x inputs -> exists j v, node g x = Some (MVar j, v)) ->
  foldM (add_select inputs) ns g = Ok g' -> esrc g' /\ forall n, node g' n = node g n.
Proof.
  intros inputs. induction ns as [|n ns IH]; intros g g' S V E; cbn [foldM] in E; [injection E as <-; auto|].
  destruct (add_select inputs g n) as [g1| |] eqn:E1; cbn [bind] in E; try discriminate.
  assert (A : esrc g1 /\ forall n, node g1 n = node g n).
  { unfold add_select in E1. destruct (node g n) as [[[] v]|]; try (injection E1 as <-; auto).
    unfold get in E1. destruct (nth_error inputs v) as [x|] eqn:Ex; cbn [bind] in E1; [|discriminate].
    destruct (V x (nth_error_In _ _ Ex)) as (j & v' & Hx). eapply esrc_add_edge; eauto. reflexivity. }
  destruct A as [A B]. destruct (IH g1 g' A) as [C D]; auto.
  - intros x Hx. rewrite B. auto.
  - split; [auto|]. intros m. now rewrite D, B.
Qed.
Lemma from_bdds_src : forall ds g inputs, from_bdds ds = Ok (g, inputs) -> forall s t l, In (s, t, l) (gedges g) ->
  match node g s with Some (MVar _) => l = Select | Some (MOut _) => False | _ => l <> Select end.
Proof.
  intros ds g inputs E. unfold from_bdds in E.
  destruct (foldM add_bdd ds _) as [[b i]| |] eqn:E1; cbn [bind] in E; try discriminate.
  assert (S : sinv b). { eapply add_bdds_shape; [|exact E1]. constructor; cbn; [intros s t l []|discriminate|discriminate]. }
  destruct (add_variables (bmax b) 0 (bgraph b)) as [ns g1] eqn:E2. destruct (add_variables_shape _ _ _ _ _ (s_e b S) E2) as (S2 & _ & V2).
  destruct (foldM (add_select ns) (node_indices g1) g1) as [g2| |] eqn:E3; cbn [bind] in E; try discriminate. injection E as <- <-.
  destruct (add_select_shape _ _ _ _ S2 V2 E3) as [S3 _]. intros s t l H. cbn [untag gedges] in H. destruct (S3 s t l H) as (w & v & Hn & Hw).
  replace (node (untag g2) s) with (Some w); [exact Hw|]. symmetry. unfold node, untag in *. cbn [gnodes]. rewrite nth_error_map.
  destruct (nth_error (gnodes g2) s) as [[[w' v']|]|]; try discriminate. cbn. congruence.
Qed.
Lemma from_bdds_shaped : forall nv ds g inputs, ds <> [] -> Forall (bdd_wf nv) ds -> from_bdds ds = Ok (g, inputs) -> diagram_shaped g inputs (length ds).
Proof.
  intros nv ds g inputs NE F E. destruct (from_bdds_ok nv ds NE F) as (g' & inputs' & E' & W & L & I & O & B). rewrite E in E'. injection E' as <- <-. constructor.
  - exact I.
  - exact (from_bdds_src ds g inputs E).
  - intros o. split.
    + intros Ho. apply nth_error_Some in Ho. destruct (nth_error ds o) as [d|] eqn:Ed; [|congruence]. destruct (O o d Ed) as (n & Hn & _). eauto.
    + intros [n Hn]. eauto.
  - intros n n' o Hn Hn'. assert (Ho : o < length ds) by eauto. apply nth_error_Some in Ho. destruct (nth_error ds o) as [d|] eqn:Ed; [|congruence].
    destruct (O o d Ed) as (n0 & _ & _ & U). rewrite (U n Hn), (U n' Hn'). reflexivity.
Qed.

(** ** Whole circuits on GLWE inputs and outputs *)
From Verif Require Import FheProofs FheProofs2 FheProofs3 FheProofs4.

Lemma connect_glwe_ok : forall g acc r, edges_ok g ->
  exists g' c, connect_glwe (g, acc) r = Ok (g', acc ++ [c]) /\ grows g g' /\ node g' c = Some FCbs /\
    forall deg cells, 0 < deg -> cells_typed cells -> carries deg cells g' c (CGgsw1 (bit_of (cells TGlwe1 r))).
Proof.
  intros g acc r EN. unfold connect_glwe. rewrite add_node_extend.
  assert (G0 : grows g (extend g [FInput TGlwe1 r] [])) by (apply extend_grows; auto; intros s t l []).
  set (g0 := extend g [FInput TGlwe1 r] []) in *. set (i := size g).
  assert (C0 : contains g0 i = true) by (apply size_contains0; cbn; lia).
  assert (V0 : forall deg cells, fvalue deg cells g0 i (Some (cells TGlwe1 r), None)).
  { intros deg cells. apply (carries_node deg cells g0 i (FInput TGlwe1 r)); [|unfold g0, i; rewrite extend_in_new by (auto; lia); reflexivity|reflexivity].
    unfold g0, i. rewrite <- (Nat.add_0_r (size g)). now rewrite extend_node_new. }
  rewrite (add_node_extend g0). destruct (unary_step g0 i (FSampleExtract 0) (proj1 G0) C0) as (-> & G1 & C1 & V1). cbn [bind].
  set (g1 := extend g0 [FSampleExtract 0] [(i, size g0, EUnary)]) in *.
  rewrite (add_node_extend g1). destruct (unary_step g1 (size g0) FKeyswitch (proj1 G1) C1) as (-> & G2 & C2 & V2). cbn [bind].
  set (g2 := extend g1 [FKeyswitch] [(size g0, size g1, EUnary)]) in *.
  rewrite (add_node_extend g2). destruct (unary_step g2 (size g1) FCbs (proj1 G2) C2) as (-> & G3 & C3 & V3). cbn [bind].
  set (g3 := extend g2 [FCbs] [(size g1, size g2, EUnary)]) in *.
  exists g3, (size g2). split; [reflexivity|]. split; [eapply grows_trans; [|exact G3]; eapply grows_trans; [|exact G2]; eapply grows_trans; eauto|].
  split.
  - unfold g3. rewrite <- (Nat.add_0_r (size g2)) at 2. now rewrite extend_node_new.
  - intros deg cells D T. pose proof (T TGlwe1 r) as Tr. destruct (cells TGlwe1 r) as [| |p| |] eqn:Ec; try discriminate.
    assert (W1 : carries deg cells g1 (size g0) (CLwe1 (nth 0 p false))).
    { apply (V1 deg cells (CGlwe1 p)); [unfold carries; rewrite <- Ec; apply V0|].
      unfold exec_op, validate. cbn [validate_inputs validate_op_input ty_of cty_eqb bind]. replace (deg <=? 0) with false by lia. reflexivity. }
    assert (W2 : carries deg cells g2 (size g1) (CLwe0 (nth 0 p false))) by (apply (V2 deg cells (CLwe1 (nth 0 p false))); auto).
    apply (V3 deg cells (CLwe0 (nth 0 p false))); auto.
Qed.
Lemma grows_carries : forall g g' deg cells n c, grows g g' -> carries deg cells g n c -> carries deg cells g' n c.
Proof. intros g g' deg cells n c G V. assert (C : contains g n = true) by (inversion V as [n' op ins o Hn]; subst; unfold contains; now rewrite Hn). now apply (proj2 G n C). Qed.
Lemma connect_all_ok : forall refs g acc, edges_ok g ->
  exists g' hs, foldM connect_glwe refs (g, acc) = Ok (g', acc ++ hs) /\ grows g g' /\ length hs = length refs /\
    (forall x, In x hs -> node g' x = Some FCbs) /\
    forall x r, nth_error refs x = Some r -> exists q, nth_error hs x = Some q /\ forall deg cells, 0 < deg -> cells_typed cells -> carries deg cells g' q (CGgsw1 (bit_of (cells TGlwe1 r))).
Proof.
  induction refs as [|r refs IH]; intros g acc EN.
  - exists g, []. cbn [foldM]. rewrite app_nil_r. split; [auto|]. split; [now apply grows_refl|]. split; [auto|]. split; [intros x []|]. intros [|x] r H; discriminate.
  - cbn [foldM]. destruct (connect_glwe_ok g acc r EN) as (g1 & c & E1 & G1 & N1 & V1). rewrite E1. cbn [bind].
    destruct (IH g1 (acc ++ [c]) (proj1 G1)) as (g2 & hs & E2 & G2 & L2 & N2 & V2). exists g2, (c :: hs). unfold fgraph in *. rewrite E2, <- app_assoc. split; [reflexivity|].
    split; [eapply grows_trans; eauto|]. split; [cbn; lia|]. split.
    + intros x [<-|H]; [|auto]. assert (C : contains g1 c = true) by (unfold contains; now rewrite N1). destruct (proj2 G2 c C) as (_ & -> & _). exact N1.
    + intros [|x] r' H.
      * injection H as <-. exists c. split; [auto|]. intros deg cells D T. eapply grows_carries; [exact G2|auto].
      * apply V2 in H. exact H.
Qed.
Lemma emit_ok : forall ps g acc, edges_ok g -> (forall m r, In (m, r) ps -> contains g m = true) ->
  exists g' os, foldM emit_output ps (g, acc) = Ok (g', acc ++ os) /\ grows g g' /\ length os = length ps /\
    forall x m r, nth_error ps x = Some (m, r) -> exists o, nth_error os x = Some o /\
      forall deg cells p, carries deg cells g m (CGlwe1 p) -> fvalue deg cells g' o (None, Some (TGlwe1, r, CGlwe1 p)).
Proof.
  induction ps as [|[m r] ps IH]; intros g acc EN H.
  - exists g, []. cbn [foldM]. rewrite app_nil_r. split; [auto|]. split; [now apply grows_refl|]. split; [auto|]. intros [|x] m r E; discriminate.
  - cbn [foldM emit_output fst snd]. rewrite add_node_extend. assert (C : contains g m = true) by (apply (H m r); now left).
    destruct (unary_step g m (FOutput TGlwe1 r) EN C) as (-> & G1 & C1 & V1). cbn [bind]. set (g1 := extend g [FOutput TGlwe1 r] [(m, size g, EUnary)]) in *.
    destruct (IH g1 (acc ++ [size g]) (proj1 G1)) as (g2 & os & E2 & G2 & L2 & V2).
    { intros m' r' Hi. apply (proj2 G1 m'). apply (H m' r'). now right. }
    exists g2, (size g :: os). unfold fgraph in *. rewrite E2, <- app_assoc. split; [reflexivity|]. split; [eapply grows_trans; eauto|]. split; [cbn; lia|].
    intros [|x] m' r' Hx.
    + injection Hx as <- <-. exists (size g). split; [auto|]. intros deg cells p Cp. apply (proj2 G2 (size g) C1). apply (V1 deg cells (CGlwe1 p)); auto.
    + cbn [nth_error] in Hx. destruct (V2 x m' r' Hx) as (o & Ho & Vo). exists o. split; [auto|]. intros deg cells p Cp. apply Vo. eapply grows_carries; eauto.
Qed.
Lemma insert_and_connect_ok : forall h mc inputs refs base k, edges_ok h -> mux_wf mc -> diagram_shaped mc inputs k -> length refs = length inputs ->
  exists h' outs, insert_and_connect h mc inputs refs base = Ok (h', outs) /\ grows h h' /\ length outs = k /\
    forall n o, node mc n = Some (MOut o) -> exists m, nth_error outs o = Some m /\
      forall deg cells b, 0 < deg -> cells_typed cells -> value mc (map (fun r => bit_of (cells TGlwe1 r)) refs) n b ->
        fvalue deg cells h' m (None, Some (TGlwe1, base + o, CGlwe1 (pconst deg b))).
Proof.
  intros h mc inputs refs base k EN W D L. unfold insert_and_connect.
  destruct (connect_all_ok refs h [] EN) as (g1 & hs & E1 & G1 & L1 & N1 & V1). unfold fgraph in *. rewrite E1. cbn [bind app].
  destruct (insert_mux_ok g1 mc inputs hs MGlwe k (proj1 G1) W D) as (g2 & outs & -> & G2 & L2 & V2); [congruence|intros x Hx; exists FCbs; auto|]. cbn [bind].
  destruct (emit_ok (combine outs (seq base (length outs))) g2 [] (proj1 G2)) as (g3 & os & E3 & G3 & L3 & V3).
  { intros m r Hi. apply in_combine_l in Hi. apply In_nth_error in Hi. destruct Hi as [o Ho]. assert (Hk : o < k) by (rewrite <- L2; apply nth_error_Some; congruence).
    apply (ds_outs _ _ _ D) in Hk. destruct Hk as [n Hn]. destruct (V2 n o Hn) as (m' & Hm' & Vm). assert (m' = m) by congruence. subst m'.
    destruct (value_total mc (repeat false (length inputs)) W) with (n := n) as [b Vb].
    - intros n' x Hx. rewrite repeat_length. apply (ds_inputs _ _ _ D) in Hx. apply nth_error_Some. congruence.
    - unfold contains. now rewrite Hn.
    - set (cells := fun (t : cty) (r : nat) => match t with TLwe0 => CLwe0 false | TLwe1 => CLwe1 false | TGlwe1 => CGlwe1 [] | TGgsw1 => CGgsw1 false | TGlev1 => CGlev1 false end).
      assert (Cm : carries 1 cells g2 m (const_of 1 MGlwe b)).
      { apply (Vm 1 cells (repeat false (length inputs))); auto. intros x b' Hx.
        assert (b' = false) by (apply nth_error_In in Hx; eapply repeat_spec; eauto). subst b'.
        assert (Hx' : x < length refs). { rewrite L. rewrite <- (repeat_length false (length inputs)). apply nth_error_Some. congruence. }
        apply nth_error_Some in Hx'. destruct (nth_error refs x) as [r'|] eqn:Er; [|congruence]. destruct (V1 x r' Er) as (q & Hq & Vq). exists q. split; [auto|].
        apply (Vq 1 cells); [lia|]. intros []; reflexivity. }
      inversion Cm as [n' op ins o' Hn']. subst. unfold contains. now rewrite Hn'. }
  exists g3, os. split; [exact E3|]. split; [eapply grows_trans; [exact G1|]; eapply grows_trans; eauto|].
  split; [rewrite L3, combine_length, seq_length; lia|].
  intros n o Hn. destruct (V2 n o Hn) as (m & Hm & Vm).
  assert (Ho : o < length outs) by (apply nth_error_Some; congruence).
  assert (Hc : nth_error (combine outs (seq base (length outs))) o = Some (m, base + o)).
  { clear - Hm Ho. revert base o Hm Ho. induction outs as [|a outs IH]; intros base o Hm Ho; cbn [length] in Ho; [lia|]. destruct o as [|o]; cbn [length seq combine nth_error] in *.
    - injection Hm as <-. f_equal. f_equal. lia.
    - rewrite (IH (S base) o Hm) by lia. f_equal. f_equal. lia. }
  destruct (V3 o m (base + o) Hc) as (q & Hq & Vq). exists q. split; [auto|]. intros deg cells b Dg T V. apply Vq. apply (Vm deg cells (map (fun r => bit_of (cells TGlwe1 r)) refs)); auto.
  intros x b' Hx. rewrite nth_error_map in Hx. destruct (nth_error refs x) as [r|] eqn:Er; [|discriminate]. cbn in Hx. injection Hx as <-.
  destruct (V1 x r Er) as (q' & Hq' & Vq'). exists q'. split; [auto|]. now apply Vq'.
Qed.
