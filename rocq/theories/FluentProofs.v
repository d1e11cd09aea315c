(** Basic lemmas for the fluent API: loops over the graph, adding nodes, inserting circuits. *)
From Verif Require Import Base Graph MuxGraph SpecMux Circuits FheGraph SpecFhe MuxGraphProofs2 FheProofs FheProofs2 FheProofs3 FheProofs4 FheProofs5 FheProofs6 FluentInt Fluent SpecFluent.
Open Scope nat_scope.

(** ** Forall2 *)
Lemma Forall2_nth_error_intro : forall {A B} (R : A -> B -> Prop) l l', length l = length l' ->
  (forall i x y, nth_error l i = Some x -> nth_error l' i = Some y -> R x y) -> Forall2 R l l'.
Proof.
  intros A B R. induction l as [|a l IH]; intros [|b l'] E H; try discriminate; constructor.
  - now apply (H 0).
  - apply IH; [now injection E|]. intros i. exact (H (S i)).
Qed.
Lemma Forall2_nth_error_elim : forall {A B} (R : A -> B -> Prop) l l', Forall2 R l l' -> forall i x y, nth_error l i = Some x -> nth_error l' i = Some y -> R x y.
Proof. intros A B R l l' H. induction H; intros [|i] u v E1 E2; try discriminate; [cbn in E1, E2; congruence|]. eapply IHForall2; eauto. Qed.

Lemma Forall2_len : forall {A B} (R : A -> B -> Prop) l l', Forall2 R l l' -> length l = length l'.
Proof. intros A B R l l' H. induction H; cbn; congruence. Qed.

(** ** grows *)
Lemma grows_ok : forall g g', grows g g' -> edges_ok g'.
Proof. intros g g' H. apply H. Qed.
Lemma grows_contains : forall g g' n, grows g g' -> contains g n = true -> contains g' n = true.
Proof. intros g g' n H C. apply (proj2 H n C). Qed.
Lemma grows_node : forall g g' n op, grows g g' -> node g n = Some op -> node g' n = Some op.
Proof. intros g g' n op H N. assert (C : contains g n = true) by (unfold contains; now rewrite N). destruct (proj2 H n C) as (_ & E & _). congruence. Qed.
Lemma handle_contains : forall g t n, handle g t n -> contains g n = true.
Proof. intros g t n H. destruct t; try exact H. destruct H as (op & N & _). unfold contains. now rewrite N. Qed.
Lemma grows_handle : forall g g' t n, grows g g' -> handle g t n -> handle g' t n.
Proof. intros g g' t n G H. destruct t; try (eapply grows_contains; eauto; exact H). destruct H as (op & N & S). exists op. split; [eapply grows_node; eauto|auto]. Qed.
Lemma grows_handles : forall g g' t ns, grows g g' -> handles g t ns -> handles g' t ns.
Proof. intros g g' t ns G H. eapply Forall_impl; [|exact H]. intros n. now apply grows_handle. Qed.
Lemma grows_holds : forall g g' deg cells t ns bs, grows g g' -> holds deg cells g t ns bs -> holds deg cells g' t ns bs.
Proof. intros g g' deg cells t ns bs G H. induction H; constructor; auto. eapply grows_carries; eauto. Qed.
Lemma holds_length : forall deg cells g t ns bs, holds deg cells g t ns bs -> length ns = length bs.
Proof. intros. now apply Forall2_len in H. Qed.
Lemma ty_enc_bit : forall deg t b, ty_of (enc_bit deg t b) = t.
Proof. intros deg [] b; reflexivity. Qed.
Lemma bit_enc_bit : forall deg t b, 0 < deg -> bit_of (enc_bit deg t b) = b.
Proof. intros deg [] b D; try reflexivity. destruct deg; [lia|]. reflexivity. Qed.
Lemma const_of_enc : forall deg m b, const_of deg m b = enc_bit deg (mode_ty m) b.
Proof. intros deg [] b; reflexivity. Qed.

(** ** Adding one node *)
Lemma nadd_ok : forall g op es, edges_ok g -> (forall i s t l, In (s, t, l) (es i) -> t = i /\ contains g s = true) ->
  exists g', nadd g op es = Ok (g', size g) /\ grows g g' /\ node g' (size g) = Some op /\ in_edges g' (size g) = rev (es (size g)).
Proof.
  intros g op es EN H. unfold nadd. rewrite add_node_extend. set (i := size g).
  assert (CE : forall es' s t l, In (s, t, l) (es i) -> contains (extend g [op] es') s = true /\ contains (extend g [op] es') t = true).
  { intros es' s t l Hi. destruct (H i s t l Hi) as [-> C]. split; [now apply extend_contains|apply size_contains0; cbn; lia]. }
  rewrite add_edges_extend by (intros s t l Hi; exact (CE _ s t l Hi)). rewrite extend_extend, !app_nil_r. cbn [bind]. eexists. split; [reflexivity|].
  assert (G : grows g (extend g [op] (rev (es i)))).
  { apply extend_grows; auto.
    - intros s t l Hi. apply in_rev in Hi. destruct (H i s t l Hi) as [-> _]. unfold i. lia.
    - intros s t l Hi. apply in_rev in Hi. exact (CE _ s t l Hi). }
  split; [exact G|]. split; [unfold i; rewrite <- (Nat.add_0_r (size g)); now rewrite extend_node_new|].
  rewrite extend_in_new by (auto; unfold i; lia).
  assert (F : forall l, (forall s t x, In (s, t, x) l -> t = i) -> filter (fun e : nat * nat * fedge => snd (fst e) =? i) l = l).
  { induction l as [|[[s t] x] l IH]; intros Hl; [reflexivity|]. cbn [filter fst snd]. rewrite (Hl s t x) by (now left). rewrite Nat.eqb_refl. f_equal. apply IH. intros s' t' x' Hi. apply (Hl s' t' x'). now right. }
  apply F. intros s t x Hi. apply in_rev in Hi. now destruct (H i s t x Hi).
Qed.
Lemma node_fvalue : forall deg cells g n op ins o, node g n = Some op -> finputs deg cells g (in_edges g n) ins -> exec_op deg cells op ins = Ok o -> fvalue deg cells g n o.
Proof. intros. econstructor; eauto. Qed.

(** ** Loops *)
Lemma gmap_app : forall {A} (f : fgraph -> A -> res (fgraph * nat)) l g acc,
  foldM (fun st x => ' (g', n) <- f (fst st) x ;; Ok (g', snd st ++ [n])) l (g, acc) =
  (' (g', ns) <- gmap f l g ;; Ok (g', acc ++ ns)).
Proof.
  intros A f l. unfold gmap. induction l as [|x l IH]; intros g acc; cbn [foldM fst snd].
  - cbn [bind]. now rewrite app_nil_r.
  - destruct (f g x) as [[g1 n]| |]; cbn [bind]; auto. rewrite IH. rewrite (IH g1 ([] ++ [n])).
    destruct (foldM _ l (g1, [])) as [[g2 ns]| |]; cbn [bind]; auto. now rewrite <- app_assoc.
Qed.
Lemma gmap_cons : forall {A} (f : fgraph -> A -> res (fgraph * nat)) x l g,
  gmap f (x :: l) g = (' (g1, n) <- f g x ;; ' (g2, ns) <- gmap f l g1 ;; Ok (g2, n :: ns)).
Proof.
  intros A f x l g. unfold gmap at 1. cbn [foldM fst snd]. destruct (f g x) as [[g1 n]| |]; cbn [bind]; auto. rewrite gmap_app. reflexivity.
Qed.
(** A loop whose every step succeeds and grows the graph; R relates an element of the list to the node made for it and is
    preserved when the graph grows. *)
Lemma gmap_ok : forall {A} (f : fgraph -> A -> res (fgraph * nat)) (P : fgraph -> A -> Prop) (R : fgraph -> A -> nat -> Prop),
  (forall g g' x, grows g g' -> P g x -> P g' x) -> (forall g g' x n, grows g g' -> R g x n -> R g' x n) ->
  (forall g x, edges_ok g -> P g x -> exists g' n, f g x = Ok (g', n) /\ grows g g' /\ R g' x n) ->
  forall l g, edges_ok g -> Forall (P g) l -> exists g' ns, gmap f l g = Ok (g', ns) /\ grows g g' /\ Forall2 (R g') l ns.
Proof.
  intros A f P R HP HR Hf. induction l as [|x l IH]; intros g EN F.
  - exists g, []. split; [reflexivity|]. split; [now apply grows_refl|constructor].
  - inversion F as [|? ? Hx Hl]. subst. destruct (Hf g x EN Hx) as (g1 & n & E1 & G1 & R1).
    destruct (IH g1 (grows_ok _ _ G1)) as (g2 & ns & E2 & G2 & R2); [eapply Forall_impl; [|exact Hl]; intros; eapply HP; eauto|].
    exists g2, (n :: ns). rewrite gmap_cons, E1. cbn [bind]. rewrite E2. cbn [bind]. split; [reflexivity|]. split; [eapply grows_trans; eauto|]. constructor; [eapply HR; eauto|auto].
Qed.
(** A loop that succeeded, whose every successful step grows the graph, has grown the graph. *)
Lemma gmap_grows : forall {A} (f : fgraph -> A -> res (fgraph * nat)),
  (forall g x g' n, edges_ok g -> f g x = Ok (g', n) -> grows g g') ->
  forall l g g' ns, edges_ok g -> gmap f l g = Ok (g', ns) -> grows g g'.
Proof.
  intros A f Hf. induction l as [|x l IH]; intros g g' ns EN E.
  - injection E as <- <-. now apply grows_refl.
  - rewrite gmap_cons in E. destruct (f g x) as [[g1 n]| |] eqn:E1; cbn [bind] in E; try discriminate.
    destruct (gmap f l g1) as [[g2 ns']| |] eqn:E2; cbn [bind] in E; try discriminate. injection E as <- <-. pose proof (Hf _ _ _ _ EN E1) as G1.
    eapply grows_trans; [exact G1|]. eapply IH; eauto. now apply grows_ok in G1.
Qed.
Lemma gmap_length : forall {A} (f : fgraph -> A -> res (fgraph * nat)) l g g' ns, gmap f l g = Ok (g', ns) -> length ns = length l.
Proof.
  intros A f. induction l as [|x l IH]; intros g g' ns E; [injection E as <- <-; reflexivity|]. rewrite gmap_cons in E.
  destruct (f g x) as [[g1 n]| |]; cbn [bind] in E; try discriminate. destruct (gmap f l g1) as [[g2 ns']| |] eqn:E2; cbn [bind] in E; try discriminate.
  injection E as <- <-. cbn [length]. f_equal. eapply IH; eauto.
Qed.

(** ** Conversion *)
Lemma add_edges_node : forall es (g g' : fgraph) n, add_edges g es = Ok g' -> node g' n = node g n.
Proof.
  unfold add_edges. induction es as [|e es IH]; intros g g' n E; cbn [foldM] in E; [injection E as <-; reflexivity|].
  destruct (add_edge g _ _ _) as [g1| |] eqn:E1; cbn [bind] in E; try discriminate. rewrite (IH _ _ n E). unfold add_edge in E1.
  destruct (_ && _); [|discriminate]. injection E1 as <-. reflexivity.
Qed.
Lemma convert_step_source : forall g cur t out g' n t', convert_step g cur t out = Ok (g', n, t') -> t' = TGgsw1 -> exists op, node g' n = Some op /\ ggsw_source op = true.
Proof.
  intros g cur t out g' n t' E T.
  assert (U : forall op next, (' (i, g1) <- Ok (add_node g op) ;; g2 <- add_edges g1 [(cur, i, EUnary)] ;; Ok (g2, i, next)) = Ok (g', n, t') -> node g' n = Some op).
  { intros op next H. rewrite add_node_extend in H. cbn [bind] in H. destruct (add_edges _ _) as [g2| |] eqn:E2; cbn [bind] in H; try discriminate. injection H as <- <- <-.
    rewrite (add_edges_node _ _ _ _ E2), <- (Nat.add_0_r (size g)). now rewrite extend_node_new. }
  destruct t; cbn [convert_step] in E.
  - eexists. split; [apply (U FCbs TGgsw1); exact E|reflexivity].
  - exfalso. destruct (add_node _ _) as [i g1]. destruct (add_edges _ _); cbn [bind] in E; congruence.
  - exfalso. destruct (add_node _ _) as [i g1]. destruct (add_edges _ _); cbn [bind] in E; congruence.
  - exfalso. destruct (cty_eqb out TGlev1) eqn:Eo.
    + rewrite !add_node_extend in E. destruct (add_edges _ _); cbn [bind] in E; try discriminate. injection E as <- <- <-. subst. discriminate.
    + rewrite !add_node_extend in E. destruct (add_edges _ _); cbn [bind] in E; try discriminate. injection E as <- <- <-. discriminate.
  - eexists. split; [apply (U FSchemeSwitch TGgsw1); exact E|reflexivity].
Qed.
Lemma convert_rec_source : forall fuel g cur t g' n, convert_rec fuel g cur t TGgsw1 = Ok (g', n) -> handle g t cur -> exists op, node g' n = Some op /\ ggsw_source op = true.
Proof.
  induction fuel as [|fuel IH]; intros g cur t g' n E H; cbn [convert_rec] in E; destruct (cty_eqb t TGgsw1) eqn:Et; try discriminate.
  - injection E as <- <-. apply cty_eqb_eq in Et. subst t. exact H.
  - injection E as <- <-. apply cty_eqb_eq in Et. subst t. exact H.
  - destruct (convert_step g cur t TGgsw1) as [[[g1 i] t1]| |] eqn:E1; cbn [bind] in E; try discriminate. destruct (cty_eqb t1 TGgsw1) eqn:Et1.
    + apply cty_eqb_eq in Et1. subst t1. destruct (convert_step_source _ _ _ _ _ _ _ E1 eq_refl) as (op & N & S). eapply IH; [exact E|]. exists op. auto.
    + eapply IH; [exact E|]. assert (C : contains g1 i = true).
      { clear - E1. destruct t; cbn [convert_step] in E1; try destruct (cty_eqb _ _); rewrite ?add_node_extend in E1; destruct (add_edges _ _) as [g2| |] eqn:E2; cbn [bind] in E1; try discriminate;
          injection E1 as <- <- <-; unfold contains; rewrite (add_edges_node _ _ _ _ E2), ?extend_extend, <- (Nat.add_0_r (size g)), extend_node_new; reflexivity. }
      destruct t1; try exact C. discriminate.
Qed.
Lemma convert_spec : forall g cur t out, edges_ok g -> handle g t cur ->
  exists g' n, convert g cur t out = Ok (g', n) /\ grows g g' /\ handle g' out n /\
    forall deg cells b, 0 < deg -> carries deg cells g cur (enc_bit deg t b) -> carries deg cells g' n (enc_bit deg out b).
Proof.
  intros g cur t out EN H. destruct (convert_rec_ok 4 g cur t out EN (handle_contains _ _ _ H)) as (g' & n & E & G & C & V); [destruct t, out; reflexivity|].
  exists g', n. split; [exact E|]. split; [exact G|]. split.
  - assert (out = TGgsw1 \/ out <> TGgsw1) as [->|NE] by (destruct out; (now left) || (right; discriminate)).
    + eapply convert_rec_source; eauto.
    + destruct out; try exact C. congruence.
  - intros deg cells b D W. destruct (V deg cells D _ (ty_enc_bit deg t b) W) as (c' & T & B & W' & K).
    replace (enc_bit deg out b) with c'; [exact W'|]. rewrite bit_enc_bit in * by auto. destruct (cty_eqb t out) eqn:Et.
    + destruct K as (_ & _ & ->). apply cty_eqb_eq in Et. now subst.
    + destruct out, c'; try discriminate; cbn [bit_of enc_bit] in *; try congruence. auto.
Qed.
Lemma gconvert_ok : forall t out ns g, edges_ok g -> handles g t ns ->
  exists g' ms, gconvert t out ns g = Ok (g', ms) /\ grows g g' /\ handles g' out ms /\ length ms = length ns /\
    forall deg cells bs, 0 < deg -> holds deg cells g t ns bs -> holds deg cells g' out ms bs.
Proof.
  intros t out. induction ns as [|n ns IH]; intros g EN F.
  - exists g, []. split; [reflexivity|]. split; [now apply grows_refl|]. split; [constructor|]. split; [reflexivity|]. intros deg cells bs D H. inversion H. constructor.
  - inversion F as [|? ? Hx Hl]. subst. destruct (convert_spec g n t out EN Hx) as (g1 & m & E1 & G1 & H1 & V1).
    destruct (IH g1 (grows_ok _ _ G1)) as (g2 & ms & E2 & G2 & H2 & L2 & V2); [now apply (grows_handles g)|].
    exists g2, (m :: ms). unfold gconvert in *. rewrite gmap_cons, E1. cbn [bind]. rewrite E2. cbn [bind]. split; [reflexivity|]. split; [eapply grows_trans; eauto|].
    split; [constructor; [eapply grows_handle; eauto|auto]|]. split; [cbn; congruence|]. intros deg cells bs D H. inversion H as [|? b ? bs' Hb Hbs]. subst.
    constructor; [eapply grows_carries; eauto|]. apply V2; auto. eapply grows_holds; eauto.
Qed.

(** ** Inserting circuits *)
Section Lib.
Context (lib : blk -> res (mgraph * list nat)) (L : lib_ok lib).

Lemma insert_ok : forall b c hosts mode g, edges_ok g -> builder b = Ok c -> length hosts = c_arity c -> handles g TGgsw1 hosts ->
  exists g' outs, insert lib b hosts mode g = Ok (g', outs) /\ grows g g' /\ handles g' (mode_ty mode) outs /\
    (forall v, length v = c_arity c -> length (c_fn c v) = length outs) /\
    forall deg cells v, holds deg cells g TGgsw1 hosts v -> holds deg cells g' (mode_ty mode) outs (c_fn c v).
Proof.
  intros b c hosts mode g EN B A H. pose proof (L b) as LB. rewrite B in LB. destruct LB as (mc & inputs & E & [W AR (k & D & V)]).
  unfold insert. rewrite E. cbn [bind].
  destruct (insert_mux_ok' g mc inputs hosts mode k EN W D) as (g' & outs & E' & G & LO & C & VO).
  - congruence.
  - intros x Hx. exact (proj1 (Forall_forall _ _) H x Hx).
  - exists g', outs. split; [exact E'|]. split; [exact G|]. split.
    + apply Forall_forall. intros m Hm. destruct mode; exact (C m Hm).
    + split; [intros v Hv; rewrite LO; now apply V|]. intros deg cells v Hv.
      assert (LV : length v = c_arity c) by (apply holds_length in Hv; congruence). destruct (V v LV) as [LF VF].
      apply Forall2_nth_error_intro.
      * congruence.
      * intros o m x Hm Hx. assert (Ho : o < k) by (rewrite <- LO; apply nth_error_Some; congruence). apply (ds_outs _ _ _ D) in Ho. destruct Ho as [n Hn].
        destruct (VO n o Hn) as (m' & Hm' & Vm'). assert (m' = m) by congruence. subst m'. rewrite <- const_of_enc. apply (Vm' deg cells v).
        -- intros i b0 Hb. assert (Hi : i < length hosts) by (apply holds_length in Hv; rewrite Hv; apply nth_error_Some; congruence). apply nth_error_Some in Hi.
           destruct (nth_error hosts i) as [q|] eqn:Eq; [|congruence]. exists q. split; [auto|]. eapply (Forall2_nth_error_elim _ _ _ Hv i q b0); eauto.
        -- replace x with (nth o (c_fn c v) false) by (now apply nth_error_nth). now apply VF.
Qed.
End Lib.
