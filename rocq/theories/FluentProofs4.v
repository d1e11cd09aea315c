(** Packing, unpacking, comparison and arithmetic through the fluent API. *)
From Verif Require Import Base BitsLemmas Graph MuxGraph SpecMux Circuits FheGraph SpecFhe FheProofs2 FheProofs4 FheProofs5 FheProofs6 FluentInt Fluent SpecFluent FluentProofs FluentProofs2 FluentProofs3 Spec Props_Circuits.
Ltac Zify.zify_post_hook ::= idtac.
Open Scope nat_scope.

(** ** Polynomials modulo 2 *)
Lemma pxor_length : forall a b, length (pxor a b) = Nat.min (length a) (length b).
Proof. induction a as [|x a IH]; intros [|y b]; cbn; auto. Qed.
Lemma pxor_comm : forall a b, pxor a b = pxor b a.
Proof. induction a as [|x a IH]; intros [|y b]; cbn; auto. rewrite IH. f_equal. apply xorb_comm. Qed.
Lemma pxor_assoc : forall a b c, pxor a (pxor b c) = pxor (pxor a b) c.
Proof. induction a as [|x a IH]; intros [|y b] [|z c]; cbn; auto. rewrite IH. f_equal. symmetry. apply xorb_assoc. Qed.
Lemma pxor_nth : forall a b i, length a = length b -> nth i (pxor a b) false = xorb (nth i a false) (nth i b false).
Proof. induction a as [|x a IH]; intros [|y b] i H; try discriminate; [now destruct i|]. destruct i; cbn; auto. Qed.
Definition psum (deg : nat) (ps : list (list bool)) : list bool := fold_right pxor (pzero deg) ps.
Lemma psum_length : forall deg ps, Forall (fun p => length p = deg) ps -> length (psum deg ps) = deg.
Proof. intros deg ps H. unfold psum. induction H as [|p ps Hp H IH]; cbn [fold_right]; [apply repeat_length|]. rewrite pxor_length. lia. Qed.
Lemma pxor_zero : forall deg p, length p = deg -> pxor p (pzero deg) = p.
Proof.
  intros deg p H. apply (nth_ext _ _ false false); [rewrite pxor_length; unfold pzero; rewrite repeat_length; lia|]. intros i _.
  rewrite pxor_nth by (unfold pzero; rewrite repeat_length; lia). unfold pzero. now rewrite nth_repeat, xorb_false_r.
Qed.
Definition mono (deg i : nat) (b : bool) : list bool := rotr i (pconst deg b).
Lemma pconst_length : forall deg b, length (pconst deg b) = deg.
Proof. intros [|d] b; cbn; auto. now rewrite repeat_length. Qed.
Lemma pconst_nth : forall deg b j, nth j (pconst deg b) false = (j =? 0) && b && (0 <? deg).
Proof. intros [|d] b [|j]; cbn; auto. - now rewrite andb_false_r. - now rewrite andb_true_r. - now rewrite nth_repeat. Qed.
Lemma mono_length : forall deg i b, length (mono deg i b) = deg.
Proof. intros. unfold mono. now rewrite rotr_length, pconst_length. Qed.
Lemma mono_nth : forall deg i b j, i < deg -> j < deg -> nth j (mono deg i b) false = (j =? i) && b.
Proof.
  intros deg i b j Hi Hj. unfold mono, rotr. rewrite pconst_length, Nat.mod_small by auto. destruct (Nat.lt_ge_cases j i) as [L|L].
  - rewrite app_nth1 by (rewrite skipn_length, pconst_length; lia). rewrite nth_skip, pconst_nth. destruct (Nat.eqb_spec (deg - i + j) 0); [lia|].
    destruct (Nat.eqb_spec j i); [lia|reflexivity].
  - rewrite app_nth2; rewrite skipn_length, pconst_length; [|lia]. rewrite nth_first by lia. rewrite pconst_nth. replace (j - (deg - (deg - i))) with (j - i) by lia.
    destruct (Nat.ltb_spec 0 deg); [|lia]. rewrite andb_true_r. destruct (Nat.eqb_spec (j - i) 0), (Nat.eqb_spec j i); auto; lia.
Qed.
Fixpoint monos (deg s : nat) (bs : list bool) : list (list bool) := match bs with [] => [] | b :: bs => mono deg s b :: monos deg (S s) bs end.
Lemma monos_length : forall deg bs s, Forall (fun p => length p = deg) (monos deg s bs).
Proof. intros deg. induction bs as [|b bs IH]; intros s; cbn [monos]; constructor; auto. apply mono_length. Qed.
Lemma monos_sum : forall deg bs s j, s + length bs <= deg -> j < deg -> nth j (psum deg (monos deg s bs)) false = (s <=? j) && nth (j - s) bs false.
Proof.
  intros deg. induction bs as [|b bs IH]; intros s j L J; cbn [monos length] in *.
  - unfold psum. cbn [fold_right]. unfold pzero. rewrite nth_repeat. destruct (j - s); now rewrite andb_false_r.
  - unfold psum. cbn [fold_right]. fold (psum deg (monos deg (S s) bs)). rewrite pxor_nth by (rewrite mono_length, psum_length; auto using monos_length).
    rewrite mono_nth by lia. rewrite IH by lia. destruct (Nat.eqb_spec j s) as [->|N].
    + rewrite Nat.sub_diag. destruct (Nat.leb_spec (S s) s); [lia|]. destruct (Nat.leb_spec s s); [|lia]. cbn. now rewrite xorb_false_r.
    + cbn [andb xorb]. destruct (Nat.leb_spec (S s) j), (Nat.leb_spec s j); try lia; auto. cbn [andb]. replace (j - s) with (S (j - S s)) by lia.
      cbn [nth]. now destruct (nth _ bs false).
Qed.
Lemma monos_poly : forall deg bs, length bs <= deg -> psum deg (monos deg 0 bs) = bs ++ repeat false (deg - length bs).
Proof.
  intros deg bs H. apply (nth_ext _ _ false false); [rewrite psum_length by apply monos_length; rewrite app_length, repeat_length; lia|].
  intros j J. rewrite psum_length in J by apply monos_length. rewrite monos_sum by lia. cbn [Nat.leb andb]. rewrite Nat.sub_0_r.
  destruct (Nat.lt_ge_cases j (length bs)); [now rewrite app_nth1|]. rewrite app_nth2, nth_repeat by auto. now apply nth_overflow.
Qed.

(** ** The tree reduction *)
Lemma list_pair_ind : forall {A} (P : list A -> Prop), P [] -> (forall a, P [a]) -> (forall a b l, P l -> P (a :: b :: l)) -> forall l, P l.
Proof.
  intros A P H0 H1 H2. assert (K : forall l, P l /\ forall a, P (a :: l)).
  { induction l as [|x l [IH1 IH2]]; [auto|]. split; [apply IH2|]. intros a. apply H2. exact IH1. }
  intros l. apply K.
Qed.
Lemma chunks2_length : forall l, length (chunks2 l) = (length l + 1) / 2.
Proof.
  apply list_pair_ind; [reflexivity|reflexivity|]. intros a b l IH. cbn [chunks2 length]. rewrite IH.
  replace (S (S (length l)) + 1) with ((length l + 1) + 1 * 2) by lia. rewrite Nat.div_add by lia. lia.
Qed.
(** The polynomials the nodes of one level carry, given those of the level before. *)
Fixpoint psum2 (ps : list (list bool)) : list (list bool) :=
  match ps with p :: q :: ps => pxor p q :: psum2 ps | [p] => [p] | [] => [] end.
Lemma psum2_length : forall deg ps, Forall (fun p => length p = deg) ps -> Forall (fun p => length p = deg) (psum2 ps).
Proof.
  intros deg. apply (list_pair_ind (fun ps => Forall (fun p => length p = deg) ps -> Forall (fun p => length p = deg) (psum2 ps))); [auto|auto|].
  intros a b l IH H. inversion H as [|? ? Ha H']. inversion H' as [|? ? Hb H'']. subst. cbn [psum2]. constructor; [rewrite pxor_length; lia|auto].
Qed.
Lemma psum_psum2 : forall deg ps, Forall (fun p => length p = deg) ps -> psum deg (psum2 ps) = psum deg ps.
Proof.
  intros deg. apply (list_pair_ind (fun ps => Forall (fun p => length p = deg) ps -> psum deg (psum2 ps) = psum deg ps)); [auto|auto|].
  intros a b l IH H. inversion H as [|? ? Ha H']. inversion H' as [|? ? Hb H'']. subst. cbn [psum2]. unfold psum in *. cbn [fold_right]. rewrite IH by auto. symmetry. apply pxor_assoc.
Qed.
Definition all_in (g : fgraph) (ns : list nat) : Prop := Forall (fun n => contains g n = true) ns.
Definition polys (deg : nat) (cells : cty -> nat -> ct) (g : fgraph) (ns : list nat) (ps : list (list bool)) : Prop := Forall2 (fun n p => carries deg cells g n (CGlwe1 p)) ns ps.
Lemma grows_all_in : forall g g' ns, grows g g' -> all_in g ns -> all_in g' ns.
Proof. intros g g' ns G H. eapply Forall_impl; [|exact H]. intros n. now apply grows_contains. Qed.
Lemma grows_polys : forall g g' deg cells ns ps, grows g g' -> polys deg cells g ns ps -> polys deg cells g' ns ps.
Proof. intros g g' deg cells ns ps G H. induction H; constructor; auto. eapply grows_carries; eauto. Qed.

Lemma level_ok : forall l g, edges_ok g -> all_in g l ->
  exists g' ns, gmap add_pair (chunks2 l) g = Ok (g', ns) /\ grows g g' /\ all_in g' ns /\ length ns = length (chunks2 l) /\
    forall deg cells ps, polys deg cells g l ps -> polys deg cells g' ns (psum2 ps).
Proof.
  apply (list_pair_ind (fun l => forall g, edges_ok g -> all_in g l ->
    exists g' ns, gmap add_pair (chunks2 l) g = Ok (g', ns) /\ grows g g' /\ all_in g' ns /\ length ns = length (chunks2 l) /\
    forall deg cells ps, polys deg cells g l ps -> polys deg cells g' ns (psum2 ps))).
  - intros g EN _. exists g, []. split; [reflexivity|]. split; [now apply grows_refl|]. split; [constructor|]. split; [reflexivity|]. intros deg cells ps H. inversion H. constructor.
  - intros a g EN H. exists g, [a]. split; [reflexivity|]. split; [now apply grows_refl|]. split; [auto|]. split; [reflexivity|]. intros deg cells ps W. inversion W as [|? p ? ps' Hp Hps]. subst. inversion Hps. subst. exact W.
  - intros a b l IH g EN H. inversion H as [|? ? Ha H']. inversion H' as [|? ? Hb Hl]. subst. cbn [chunks2]. rewrite gmap_cons. cbn [add_pair].
    destruct (nadd_ok g FGlweAdd (fun i => [(a, i, ELeft); (b, i, ERight)]) EN) as (g1 & E1 & G1 & N1 & I1).
    { intros i s t l0 [Q|[Q|[]]]; injection Q as <- <- <-; auto. }
    destruct (IH g1 (grows_ok _ _ G1) (grows_all_in _ _ _ G1 Hl)) as (g2 & ns & E2 & G2 & A2 & L2 & V2).
    rewrite E1. cbn [bind]. rewrite E2. cbn [bind]. exists g2, (size g :: ns). split; [reflexivity|]. split; [eapply grows_trans; eauto|].
    split; [constructor; [eapply grows_contains; [exact G2|]; unfold contains; now rewrite N1|exact A2]|]. split; [cbn; congruence|].
    intros deg cells ps W. inversion W as [|? p ? ps' Hp Hps]. subst. inversion Hps as [|? q ? ps'' Hq Hps']. subst. cbn [psum2]. constructor.
    + eapply grows_carries; [exact G2|]. eapply node_fvalue; [exact N1|rewrite I1; cbn [rev app]; econstructor; [eapply grows_carries; [exact G1|exact Hq]|apply finputs_one; eapply grows_carries; eauto]|].
      rewrite pxor_comm. reflexivity.
    + apply V2. eapply grows_polys; eauto.
Qed.
Lemma reduction_ok : forall k s l g, edges_ok g -> all_in g l -> (k = 0 /\ length l = 1 \/ (0 < k /\ 2 ^ (k - 1) < length l <= 2 ^ k)) ->
  exists g' id, foldM reduce_level (seq s k) (g, l) = Ok (g', [id]) /\ grows g g' /\ contains g' id = true /\
    forall deg cells ps, Forall (fun p => length p = deg) ps -> polys deg cells g l ps -> carries deg cells g' id (CGlwe1 (psum deg ps)).
Proof.
  induction k as [|k IH]; intros s l g EN A H.
  - destruct H as [[_ L1]|[? _]]; [|lia]. destruct l as [|id [|]]; try discriminate. exists g, id. split; [reflexivity|]. split; [now apply grows_refl|]. inversion A. split; [auto|].
    intros deg cells ps F W. inversion W as [|? p ? ps' Hp Hps]. subst. inversion Hps. subst. inversion F. subst. unfold psum. cbn [fold_right]. now rewrite pxor_zero.
  - destruct H as [[? _]|[_ HL]]; [lia|]. replace (S k - 1) with k in HL by lia. cbn [seq foldM]. change (reduce_level (g, l) s) with (if 1 <? length l then gmap add_pair (chunks2 l) g else Panic). assert (P : 0 < 2 ^ k) by (apply Nat.neq_0_lt_0, Nat.pow_nonzero; lia).
    destruct (Nat.ltb_spec 1 (length l)); [|lia]. destruct (level_ok l g EN A) as (g1 & l1 & E1 & G1 & A1 & L1 & V1). rewrite E1. cbn [bind].
    rewrite chunks2_length in L1. assert (B : length l1 * 2 <= length l + 1 < (length l1 + 1) * 2).
    { rewrite L1. pose proof (Nat.div_mod (length l + 1) 2). pose proof (Nat.mod_upper_bound (length l + 1) 2). lia. }
    destruct (IH (S s) l1 g1 (grows_ok _ _ G1) A1) as (g2 & id & E2 & G2 & C2 & V2).
    { rewrite Nat.pow_succ_r' in HL. destruct k as [|k]; [left; cbn [Nat.pow] in *; lia|right]. replace (S k - 1) with k by lia. rewrite !Nat.pow_succ_r' in *. lia. }
    exists g2, id. split; [exact E2|]. split; [eapply grows_trans; eauto|]. split; [exact C2|]. intros deg cells ps F W. rewrite <- psum_psum2 by auto. apply V2; [now apply psum2_length|]. now apply V1.
Qed.

Lemma shift_ok : forall bits s g, edges_ok g -> all_in g bits ->
  exists g' ns, gmap shift_bit (combine bits (seq s (length bits))) g = Ok (g', ns) /\ grows g g' /\ all_in g' ns /\ length ns = length bits /\
    forall deg cells bs, 0 < deg -> holds deg cells g TGlwe1 bits bs -> polys deg cells g' ns (monos deg s bs).
Proof.
  induction bits as [|n bits IH]; intros s g EN A; cbn [length seq combine].
  - exists g, []. split; [reflexivity|]. split; [now apply grows_refl|]. split; [constructor|]. split; [reflexivity|]. intros deg cells bs D H. inversion H. constructor.
  - inversion A as [|? ? Hn Hb]. subst. rewrite gmap_cons.
    assert (exists g1 m, shift_bit g (n, s) = Ok (g1, m) /\ grows g g1 /\ contains g1 m = true /\ forall deg cells b, 0 < deg -> carries deg cells g n (CGlwe1 (pconst deg b)) -> carries deg cells g1 m (CGlwe1 (mono deg s b))) as (g1 & m & E1 & G1 & C1 & V1).
    { unfold shift_bit. cbn [fst snd]. destruct (Nat.ltb_spec 0 s) as [P|P].
      - destruct (nadd_ok g (FMulXN s) (fun i => [(n, i, EUnary)]) EN) as (g1 & E1 & G1 & N1 & I1); [intros i a t l [Q|[]]; injection Q as <- <- <-; auto|].
        exists g1, (size g). split; [exact E1|]. split; [exact G1|]. split; [unfold contains; now rewrite N1|]. intros deg cells b D W. eapply unary_carries; [exact G1|exact N1|exact I1|exact W|reflexivity].
      - assert (s = 0) as -> by lia. exists g, n. split; [reflexivity|]. split; [now apply grows_refl|]. split; [auto|]. intros deg cells b D W. unfold mono.
        replace (rotr 0 (pconst deg b)) with (pconst deg b); [exact W|]. unfold rotr. rewrite pconst_length, Nat.mod_small, Nat.sub_0_r by auto. rewrite skipn_all2, firstn_all2 by (rewrite pconst_length; lia). reflexivity. }
    destruct (IH (S s) g1 (grows_ok _ _ G1) (grows_all_in _ _ _ G1 Hb)) as (g2 & ns & E2 & G2 & A2 & L2 & V2). rewrite E1. cbn [bind]. rewrite E2. cbn [bind].
    exists g2, (m :: ns). split; [reflexivity|]. split; [eapply grows_trans; eauto|]. split; [constructor; [eapply grows_contains; eauto|auto]|]. split; [cbn; congruence|].
    intros deg cells bs D W. inversion W as [|? b ? bs' Wb Wbs]. subst. cbn [monos]. constructor; [eapply grows_carries; [exact G2|]; now apply V1|]. apply V2; auto. eapply grows_holds; eauto.
Qed.

Lemma pack_ok : forall deg bits c, ctx_ok c -> all_in (cg c) bits -> 1 <= length bits <= deg ->
  exists c' id, pack deg bits c = Ok (c', (id, length bits)) /\ ctx_ok c' /\ grows (cg c) (cg c') /\ contains (cg c') id = true /\
    forall cells bs, holds deg cells (cg c) TGlwe1 bits bs -> carries deg cells (cg c') id (CGlwe1 (bs ++ repeat false (deg - length bs))).
Proof.
  intros deg bits c C A B. unfold pack. destruct (Nat.leb_spec (length bits) deg); [|lia]. destruct (Nat.eqb_spec (length bits) 0); [lia|]. cbn [negb].
  destruct (shift_ok bits 0 (cg c) (proj1 C) A) as (g1 & sh & E1 & G1 & A1 & L1 & V1). rewrite E1. cbn [bind].
  destruct (reduction_ok (next_log2 (length bits)) 0 sh g1 (grows_ok _ _ G1) A1) as (g2 & id & E2 & G2 & C2 & V2).
  { unfold next_log2. rewrite L1. destruct (Nat.eq_dec (length bits) 1) as [->|N1]; [left; split; reflexivity|right]. assert (N2 : 1 < length bits) by lia.
    pose proof (Nat.log2_up_spec _ N2) as Q. pose proof (Nat.log2_up_pos _ N2). split; [auto|]. now rewrite Nat.sub_1_r. }
  match goal with |- context [foldM reduce_level ?a ?b] => replace (foldM reduce_level a b) with (@Ok (fgraph * list nat) (g2, [id])) by (symmetry; exact E2) end.
  cbn [bind]. exists (with_graph c g2), id. pose proof (grows_trans _ _ _ G1 G2) as G. split; [reflexivity|]. split; [now apply with_graph_ok|]. split; [exact G|]. split; [exact C2|].
  intros cells bs W. pose proof (holds_length _ _ _ _ _ _ W). rewrite <- monos_poly by lia. apply V2; [apply monos_length|]. apply V1; [lia|exact W].
Qed.
Lemma pack_panics : forall deg bits c, (length bits = 0 \/ deg < length bits) -> pack deg bits c = Panic.
Proof. intros deg bits c H. unfold pack. destruct (Nat.leb_spec (length bits) deg); cbn [negb]; auto. destruct (Nat.eqb_spec (length bits) 0); auto; lia. Qed.
Lemma unpack_ok : forall id n c, ctx_ok c -> contains (cg c) id = true ->
  exists c' ns, unpack id n c = Ok (c', ns) /\ ctx_ok c' /\ grows (cg c) (cg c') /\ handles (cg c') TLwe1 ns /\ length ns = n /\
    forall deg cells p, length p = deg -> n <= deg -> carries deg cells (cg c) id (CGlwe1 p) -> holds deg cells (cg c') TLwe1 ns (firstn n p).
Proof.
  intros id n c C A. unfold unpack. pose proof (proj1 C) as EN0.
  destruct (gmap_ok (fun g i => nadd g (FSampleExtract i) (fun m => [(id, m, EUnary)])) (fun g _ => grows (cg c) g)
    (fun g i m => contains g m = true /\ forall deg cells p, i < deg -> carries deg cells (cg c) id (CGlwe1 p) -> carries deg cells g m (CLwe1 (nth i p false)))) with (l := seq 0 n) (g := cg c) as (g' & ns & E & G & R).
  - intros g g' x G G0. eapply grows_trans; eauto.
  - intros g g' x m G [K V]. split; [eapply grows_contains; eauto|]. intros. eapply grows_carries; eauto.
  - intros g i EN G0. destruct (nadd_ok g (FSampleExtract i) (fun m => [(id, m, EUnary)]) EN) as (g' & E & G & N & I).
    { intros j s t l [Q|[]]. injection Q as <- <- <-. split; [auto|eapply grows_contains; eauto]. }
    exists g', (size g). split; [exact E|]. split; [exact G|]. split; [unfold contains; now rewrite N|]. intros deg cells p D W.
    eapply unary_carries; [exact (grows_trans _ _ _ G0 G)|exact N|exact I|exact W|]. unfold exec_op, validate. cbn [validate_inputs validate_op_input ty_of cty_eqb bind].
    destruct (Nat.leb_spec deg i); [lia|]. reflexivity.
  - exact EN0.
  - apply Forall_forall. intros i _. now apply grows_refl.
  - rewrite E. cbn [bind]. exists (with_graph c g'), ns. split; [reflexivity|]. split; [now apply with_graph_ok|]. split; [exact G|].
    split; [clear - R; induction R as [|r m rs ns' H R IH]; constructor; [apply H|exact IH]|]. split; [rewrite <- (Forall2_len _ _ _ R); apply seq_length|].
    intros deg cells p LP LN W. apply Forall2_nth_error_intro; [rewrite <- (Forall2_len _ _ _ R), seq_length, firstn_length; lia|]. intros i m b Hm Hb.
    assert (Hi : i < n) by (assert (HH : i < length (firstn n p)) by (apply nth_error_Some; congruence); rewrite firstn_length in HH; lia).
    assert (Hs : nth_error (seq 0 n) i = Some i) by (rewrite (nth_error_nth' _ 0) by (rewrite seq_length; auto); rewrite seq_nth by auto; reflexivity).
    destruct (Forall2_nth_error_elim _ _ _ R i i m Hs Hm) as [_ V]. replace b with (nth i p false); [apply V; [lia|exact W]|].
    apply (nth_error_nth _ _ false) in Hb. rewrite <- Hb. rewrite nth_first by auto. reflexivity.
Qed.
