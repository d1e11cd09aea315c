(** The fluent `mul`: what survives the rebuilding of the circuit. *)
From Coq Require Import Permutation.
From Verif Require Import Base BitsLemmas Graph MuxGraph SpecMux Circuits MulRecProofs FheGraph SpecFhe FheProofs2 FheProofs3 FheProofs4 FheProofs5 FheProofs6 FluentInt Fluent SpecFluent FluentProofs FluentProofs2 FluentProofs3 FluentProofs5 FluentLib FluentMul FluentMul2 Spec Props_Circuits.
Ltac Zify.zify_post_hook ::= idtac.
Open Scope nat_scope.

Lemma lookup_all : forall ren lo acc, (forall x, In x lo -> exists y, alookup ren x = Some y) ->
  exists r, foldM (fun acc x => match alookup ren x with Some y => Ok (acc ++ [y]) | None => Panic end) lo acc = Ok (acc ++ r) /\ Forall2 (fun x y => alookup ren x = Some y) lo r.
Proof.
  intros ren. induction lo as [|x lo IH]; intros acc H.
  - exists []. cbn. rewrite app_nil_r. auto.
  - destruct (H x (or_introl eq_refl)) as [y Hy]. cbn [foldM]. rewrite Hy. cbn [bind]. destruct (IH (acc ++ [y])) as (r & E & F); [intros z Hz; apply H; now right|].
    exists (y :: r). rewrite E, <- app_assoc. split; [reflexivity|]. constructor; auto.
Qed.
Lemma existing_contains : forall (g : fgraph) n, In n (existing_outputs g) -> contains g n = true.
Proof. intros g n H. unfold existing_outputs in H. apply filter_In in H. destruct H as [_ H]. unfold contains. now destruct (node g n). Qed.

(** The value a multiplication of the given sign computes. *)
Definition pval (sg : sign) (x : list bool) : Z := match sg with Unsigned => uval x | Signed => sval x end.

Section Lib.
Context (lib : blk -> res (mgraph * list nat)) (L : lib_ok lib).

Lemma fmul_ok : forall order sg mode a b c, (forall l, Permutation l (order l)) -> edges_ok (cg c) -> handles (cg c) TGgsw1 a -> handles (cg c) TGgsw1 b -> 0 < length a -> 0 < length b ->
  if mul_ok (S (length a + length b)) (length a) (length b) then
    exists c' ns, fmul lib order sg mode a b c = Ok (c', ns) /\ edges_ok (cg c') /\ zeros c' = zeros c /\ ones c' = ones c /\ handles (cg c') (mode_ty mode) ns /\ length ns = length a /\
      (forall n, In n (existing_outputs (cg c)) -> exists m, node (cg c') m = node (cg c) n /\ forall deg cells o, fvalue deg cells (cg c) n o <-> fvalue deg cells (cg c') m o) /\
      forall deg cells x y, 0 < deg -> (sg = Signed \/ mode = MGlwe \/ length a <= 16 /\ length b <= 16) -> holds deg cells (cg c) TGgsw1 a x -> holds deg cells (cg c) TGgsw1 b y ->
        holds deg cells (cg c') (mode_ty mode) ns (to_bits (length a) (pval sg x * pval sg y))
  else fmul lib order sg mode a b c = Panic.
Proof.
  intros order sg mode a b c HO EN Ha Hb Pa Pb. unfold fmul.
  assert (Q : if mul_ok (S (length a + length b)) (length a) (length b) then
    exists g' lo hi, match sg with Unsigned => gappend_uint lib mode a b (cg c) | Signed => gappend_int lib mode a b (cg c) end = Ok (g', (lo, hi)) /\ grows (cg c) g' /\ handles g' (mode_ty mode) lo /\ length lo = length a /\
      forall deg cells x y, 0 < deg -> (sg = Signed \/ mode = MGlwe \/ length a <= 16 /\ length b <= 16) -> holds deg cells (cg c) TGgsw1 a x -> holds deg cells (cg c) TGgsw1 b y ->
        holds deg cells g' (mode_ty mode) lo (to_bits (length a) (pval sg x * pval sg y))
    else match sg with Unsigned => gappend_uint lib mode a b (cg c) | Signed => gappend_int lib mode a b (cg c) end = Panic).
  { assert (SP : forall deg cells (g' : fgraph) t lo hi la lb v, length lo = la -> holds deg cells g' t (lo ++ hi) (to_bits (la + lb) v) -> holds deg cells g' t lo (to_bits la v)).
    { intros deg cells g' t lo hi la lb v LL W. apply (holds_firstn _ _ _ _ la) in W. rewrite firstn_app, firstn_all2, LL, Nat.sub_diag, app_nil_r in W by lia. now rewrite firstn_to_bits in W by lia. }
    destruct sg.
    - pose proof (gappend_uint_ok lib L mode a b (cg c) EN Ha Hb) as Q. destruct (mul_ok _ _ _); [|exact Q]. destruct Q as (g' & lo & hi & E & G & H & LL & _ & V). exists g', lo, hi. split; [exact E|]. split; [exact G|].
      split; [apply (handles_sub _ _ _ _ H); intros z Hz; apply in_app_iff; now left|]. split; [exact LL|]. intros deg cells x y D M Wx Wy. eapply SP; [exact LL|]. apply V; auto. destruct M as [M|M]; [discriminate|exact M].
    - pose proof (gappend_int_ok lib L mode a b (cg c) EN Ha Hb Pa Pb) as Q. destruct (mul_ok _ _ _); [|exact Q]. destruct Q as (g' & lo & hi & E & G & H & LL & _ & V). exists g', lo, hi. split; [exact E|]. split; [exact G|].
      split; [apply (handles_sub _ _ _ _ H); intros z Hz; apply in_app_iff; now left|]. split; [exact LL|]. intros deg cells x y D M Wx Wy. eapply SP; [exact LL|]. apply V; auto. }
  destruct (mul_ok _ _ _); [|now rewrite Q]. destruct Q as (g1 & lo & hi & E & G & H & LL & V). rewrite E. cbn [bind].
  assert (RC : forall r, In r (lo ++ existing_outputs (cg c)) -> contains g1 r = true).
  { intros r Hr. apply in_app_iff in Hr. destruct Hr as [Hr|Hr]; [eapply handle_contains; exact (proj1 (Forall_forall _ _) H r Hr)|eapply grows_contains; [exact G|now apply existing_contains]]. }
  destruct (prune_ok g1 _ (grows_ok _ _ G) RC order HO) as (out & ren & EP & EN' & A & CO & INJ & VP). rewrite EP. cbn [bind].
  destruct (lookup_all ren lo []) as (ns & EL & F).
  { intros x Hx. apply A. apply anc_root. apply in_app_iff. now left. }
  match goal with |- context [foldM ?f ?l ?h] => replace (foldM f l h) with (@Ok (list nat) ns) by (symmetry; exact EL) end. cbn [bind].
  exists (with_graph c out), ns. split; [reflexivity|]. split; [exact EN'|]. split; [reflexivity|]. split; [reflexivity|]. split; [|split; [|split]].
  - apply mode_handles. apply Forall_forall. intros y Hy. apply CO. clear - F Hy. induction F as [|x0 y0 lo ns H0 F IH]; [destruct Hy|]. destruct Hy as [<-|Hy]; eauto.
  - rewrite <- (Forall2_len _ _ _ F). exact LL.
  - intros n Hn. assert (exists m, alookup ren n = Some m) as [m Hm]. { apply A. apply anc_root. apply in_app_iff. now right. }
    exists m. destruct (VP n m Hm) as [N _]. pose proof (existing_contains _ _ Hn) as C. destruct (proj2 G n C) as (_ & N' & _ & V'). split; [cbn [cg with_graph]; congruence|]. intros deg cells o. rewrite V'.
    apply (prune_values g1 _ (grows_ok _ _ G) RC order out ren HO EP n m Hm).
  - intros deg cells x y D M Wx Wy. pose proof (V deg cells x y D M Wx Wy) as W. cbn [cg with_graph]. clear - W F EP HO RC G. revert W. generalize (to_bits (length a) (pval sg x * pval sg y)). intros z W.
    assert (K : forall n m, alookup ren n = Some m -> forall o, fvalue deg cells g1 n o -> fvalue deg cells out m o) by (intros n m Hm o Hv; now apply (prune_values g1 _ (grows_ok _ _ G) RC order out ren HO EP n m Hm deg cells o)).
    clear - W F K. revert z W. induction F as [|x0 y0 lo ns H0 F IH]; intros z W; inversion W; subst; constructor; [eapply K; eauto|apply IH; auto].
Qed.
End Lib.
