(** The operations of the fluent API succeed and compute what they should. *)
From Verif Require Import Base BitsLemmas Graph MuxGraph SpecMux Circuits FheGraph SpecFhe FheProofs2 FheProofs4 FheProofs5 FheProofs6 FluentInt Fluent SpecFluent FluentProofs FluentProofs2 Spec Props_Circuits.
Open Scope nat_scope.

Lemma run_builder : forall r v out, run_res r v = Ok out -> exists c, r = Ok c /\ length v = c_arity c /\ c_fn c v = out.
Proof.
  intros r v out H. unfold run_res in H. destruct r as [c| |]; cbn [bind] in H; try discriminate. exists c. unfold run_circuit in H.
  destruct (Nat.eqb_spec (length v) (c_arity c)); [|discriminate]. injection H as H. auto.
Qed.

(** ** Simple nodes *)
Lemma finputs_one : forall deg cells g n t l c, carries deg cells g n c -> finputs deg cells g [(n, t, l)] [(l, Some c)].
Proof. intros. econstructor; [eassumption|constructor]. Qed.
Lemma unary_carries : forall g g' deg cells n i op c o, grows g g' -> node g' i = Some op -> in_edges g' i = [(n, i, EUnary)] ->
  carries deg cells g n c -> exec_op deg cells op [(EUnary, Some c)] = Ok o -> fvalue deg cells g' i o.
Proof. intros g g' deg cells n i op c o G N I C X. eapply node_fvalue; [exact N| |exact X]. rewrite I. apply finputs_one. eapply grows_carries; eauto. Qed.

Lemma inputs_ok : forall t refs c, ctx_ok c -> exists c' ns, inputs t refs c = Ok (c', ns) /\ ctx_ok c' /\ grows (cg c) (cg c') /\ length ns = length refs /\
  handles (cg c') t ns /\ forall deg cells, Forall2 (fun r n => carries deg cells (cg c') n (cells t r)) refs ns.
Proof.
  intros t refs c C. unfold inputs.
  destruct (gmap_ok (fun g r => nadd g (FInput t r) (fun _ => [])) (fun _ _ => True)
    (fun g r n => handle g t n /\ forall deg cells, carries deg cells g n (cells t r))) with (l := refs) (g := cg c) as (g' & ns & E & G & R).
  - auto.
  - intros g g' x n G [H V]. split; [eapply grows_handle; eauto|]. intros. eapply grows_carries; eauto.
  - intros g r EN _. destruct (nadd_ok g (FInput t r) (fun _ => []) EN) as (g' & E & G & N & I); [intros i s t0 l []|].
    exists g', (size g). split; [exact E|]. split; [exact G|]. split.
    + destruct t; try (unfold handle, contains; now rewrite N). exists (FInput TGgsw1 r). auto.
    + intros deg cells. eapply node_fvalue; [exact N|rewrite I; constructor|reflexivity].
  - apply C.
  - apply Forall_forall. auto.
  - rewrite E. cbn [bind]. exists (with_graph c g'), ns. split; [reflexivity|]. split; [now apply with_graph_ok|]. split; [exact G|].
    split; [symmetry; eapply Forall2_len; exact R|]. split.
    + clear - R. induction R as [|r n rs ns' H R IH]; constructor; [apply H|exact IH].
    + intros deg cells. clear - R. induction R as [|r n rs ns' H R IH]; constructor; [apply H|exact IH].
Qed.

Lemma outputs_ok : forall t ps c, ctx_ok c -> Forall (fun p => contains (cg c) (fst p) = true) ps ->
  exists c' os, collect_outputs t ps c = Ok (c', os) /\ ctx_ok c' /\ grows (cg c) (cg c') /\ length os = length ps /\
  forall deg cells, Forall2 (fun p o => forall ct, carries deg cells (cg c) (fst p) ct -> ty_of ct = t -> fvalue deg cells (cg c') o (None, Some (t, snd p, ct))) ps os.
Proof.
  intros t ps c C F. unfold collect_outputs. pose proof (proj1 C) as EN0.
  destruct (gmap_ok (fun g (p : nat * nat) => nadd g (FOutput t (snd p)) (fun o => [(fst p, o, EUnary)])) (fun g p => grows (cg c) g /\ contains (cg c) (fst p) = true)
    (fun g (p : nat * nat) o => forall deg cells ct, carries deg cells (cg c) (fst p) ct -> ty_of ct = t -> fvalue deg cells g o (None, Some (t, snd p, ct)))) with (l := ps) (g := cg c) as (g' & ns & E & G & R).
  - intros g g' x G [G0 K]. split; [eapply grows_trans; eauto|auto].
  - intros g g' x n G H deg cells ct K T. assert (Q : fvalue deg cells g n (None, Some (t, snd x, ct))) by auto.
    assert (CN : contains g n = true) by (inversion Q; unfold contains; match goal with H : node g n = _ |- _ => rewrite H end; reflexivity).
    now apply (proj2 G n CN).
  - intros g p EN [G0 K]. destruct (nadd_ok g (FOutput t (snd p)) (fun o => [(fst p, o, EUnary)]) EN) as (g' & E & G & N & I).
    { intros i s t0 l [H|[]]. injection H as <- <- <-. split; [auto|eapply grows_contains; eauto]. }
    exists g', (size g). split; [exact E|]. split; [exact G|]. intros deg cells ct W T. eapply unary_carries; [exact (grows_trans _ _ _ G0 G)|exact N|exact I|exact W|].
    unfold exec_op. replace (validate deg (FOutput t (snd p)) [(EUnary, Some ct)]) with (Ok tt).
    + cbn [bind run_op inp0 snd]. rewrite T. now replace (cty_eqb t t) with true by now destruct t.
    + unfold validate, validate_inputs, validate_op_input. rewrite T. now destruct t.
  - exact EN0.
  - eapply Forall_impl; [|exact F]. intros p K. split; [now apply grows_refl|exact K].
  - rewrite E. cbn [bind]. exists (with_graph c g'), ns. split; [reflexivity|]. split; [now apply with_graph_ok|]. split; [exact G|].
    split; [symmetry; eapply Forall2_len; exact R|].
    intros deg cells. clear - R. induction R as [|r n rs ns' H R IH]; constructor; [intros; now apply H|exact IH].
Qed.

Lemma convert_bits_ok : forall t out ns c, ctx_ok c -> handles (cg c) t ns ->
  exists c' ms, convert_bits t out ns c = Ok (c', ms) /\ ctx_ok c' /\ grows (cg c) (cg c') /\ handles (cg c') out ms /\ length ms = length ns /\
    forall deg cells bs, 0 < deg -> holds deg cells (cg c) t ns bs -> holds deg cells (cg c') out ms bs.
Proof.
  intros t out ns c C H. unfold convert_bits. destruct (gconvert_ok t out ns (cg c) (proj1 C) H) as (g' & ms & E & G & H' & LL & V). rewrite E. cbn [bind].
  exists (with_graph c g'), ms. split; [reflexivity|]. split; [now apply with_graph_ok|]. auto.
Qed.

Definition const_type (t : cty) : bool := match t with TLwe1 | TGlev1 => false | _ => true end.
Lemma const_ok : forall v t c, ctx_ok c -> const_type t = true ->
  exists c' n, const_bit v t c = Ok (c', n) /\ ctx_ok c' /\ grows (cg c) (cg c') /\ handle (cg c') t n /\
    forall deg cells, carries deg cells (cg c') n (enc_bit deg t v).
Proof.
  intros v t c C T. assert (exists c' n, const_bit v t c = Ok (c', n)) as (c' & n & E).
  { unfold const_bit. destruct C as (_ & LZ & LO & _). set (cache := if v then ones c else zeros c). assert (LL : length cache = 4) by (destruct v; auto).
    destruct (nth_error cache (tnum t)) as [[m|]|] eqn:Ec; [eauto| |].
    - destruct t; try discriminate; eexists; eexists; reflexivity.
    - apply nth_error_None in Ec. rewrite LL in Ec. destruct t; cbn in Ec; try lia; discriminate. }
  destruct (const_grows _ _ _ _ _ C E) as (C' & G & N & I). exists c', n. split; [exact E|]. split; [exact C'|]. split; [exact G|]. split.
  - destruct t; try (unfold handle, contains; now rewrite N). eexists. split; [exact N|]. now destruct v.
  - intros deg cells. eapply node_fvalue; [exact N|rewrite I; constructor|]. destruct t, v; try discriminate; reflexivity.
Qed.
Lemma const_panics : forall v t c, ctx_ok c -> const_type t = false -> const_bit v t c = Panic.
Proof.
  intros v t c (_ & LZ & LO & Z & O) T. unfold const_bit. set (cache := if v then ones c else zeros c). assert (LL : length cache = 4) by (destruct v; auto).
  destruct (nth_error cache (tnum t)) as [[m|]|] eqn:Ec; auto.
  - destruct t; try discriminate.
    + unfold cache in Ec. destruct v; [destruct (O TLwe1 m Ec)|destruct (Z TLwe1 m Ec)]; congruence.
    + assert (4 < 4); [|lia]. rewrite <- LL at 2. apply nth_error_Some. change (tnum TGlev1) with 4 in Ec. congruence.
  - destruct t; try discriminate; auto. assert (4 < 4); [|lia]. rewrite <- LL at 2. apply nth_error_Some. change (tnum TGlev1) with 4 in Ec. congruence.
Qed.

Lemma cmux_value : forall deg cells g s l h i b x y, node g i = Some FCMux ->
  (exists es, in_edges g i = es /\ (es = [(s, i, ESel); (h, i, EHigh); (l, i, ELow)] \/ es = [(h, i, EHigh); (l, i, ELow); (s, i, ESel)])) ->
  carries deg cells g s (CGgsw1 b) -> carries deg cells g l (CGlwe1 x) -> carries deg cells g h (CGlwe1 y) -> carries deg cells g i (CGlwe1 (if b then y else x)).
Proof.
  intros deg cells g s l h i b x y N (es & I & K) S L H. destruct K as [->| ->].
  - eapply node_fvalue; [exact N|rewrite I; repeat (econstructor; [eassumption|]); constructor|]. now destruct b.
  - eapply node_fvalue; [exact N|rewrite I; repeat (econstructor; [eassumption|]); constructor|]. now destruct b.
Qed.

(** select works on GLWE values. *)
Lemma select_ok : forall s a b c, ctx_ok c -> contains (cg c) s = true -> Forall (fun n => contains (cg c) n = true) a -> Forall (fun n => contains (cg c) n = true) b ->
  exists c' ns, select s a b c = Ok (c', ns) /\ ctx_ok c' /\ grows (cg c) (cg c') /\ handles (cg c') TGlwe1 ns /\ length ns = Nat.min (length a) (length b) /\
    forall deg cells sb x y, carries deg cells (cg c) s (CGgsw1 sb) -> holds deg cells (cg c) TGlwe1 a x -> holds deg cells (cg c) TGlwe1 b y -> length a = length b ->
      holds deg cells (cg c') TGlwe1 ns (if sb then x else y).
Proof.
  intros s a b c C Cs Ca Cb. unfold select. pose proof (proj1 C) as EN0.
  destruct (gmap_ok (fun g (p : nat * nat) => nadd g FCMux (fun m => [(snd p, m, ELow); (fst p, m, EHigh); (s, m, ESel)]))
    (fun g p => grows (cg c) g /\ contains (cg c) (fst p) = true /\ contains (cg c) (snd p) = true)
    (fun g (p : nat * nat) n => contains g n = true /\ forall deg cells sb x y, carries deg cells (cg c) s (CGgsw1 sb) -> carries deg cells (cg c) (fst p) (CGlwe1 x) -> carries deg cells (cg c) (snd p) (CGlwe1 y) ->
       carries deg cells g n (CGlwe1 (if sb then x else y)))) with (l := combine a b) (g := cg c) as (g' & ns & E & G & R).
  - intros g g' x G (K1 & K2 & K3). split; [eapply grows_trans; eauto|auto].
  - intros g g' p n G (K & H). split; [eapply grows_contains; eauto|]. intros deg cells sb x y W1 W2 W3. eapply grows_carries; eauto.
  - intros g p EN (G0 & K2 & K3).
    destruct (nadd_ok g FCMux (fun m => [(snd p, m, ELow); (fst p, m, EHigh); (s, m, ESel)]) EN) as (g' & E & G & N & I).
    { intros i s0 t0 l [H|[H|[H|[]]]]; injection H as <- <- <-; (split; [auto|eapply grows_contains; eauto]). }
    exists g', (size g). split; [exact E|]. split; [exact G|]. split; [unfold contains; now rewrite N|].
    pose proof (grows_trans _ _ _ G0 G) as G1. intros deg cells sb x y W1 W2 W3.
    eapply cmux_value; [exact N|eexists; split; [exact I|now left]|eapply grows_carries; [exact G1|eassumption] ..].
  - exact EN0.
  - apply Forall_forall. intros [p q] Hp. split; [now apply grows_refl|]. split.
    + apply in_combine_l in Hp. exact (proj1 (Forall_forall _ _) Ca _ Hp).
    + apply in_combine_r in Hp. exact (proj1 (Forall_forall _ _) Cb _ Hp).
  - rewrite E. cbn [bind]. exists (with_graph c g'), ns. split; [reflexivity|]. split; [now apply with_graph_ok|]. split; [exact G|]. split.
    + clear - R. cbn [cg with_graph]. induction R as [|r n rs ns' H R IH]; constructor; [apply H|exact IH].
    + split; [rewrite <- (Forall2_len _ _ _ R); apply combine_length|]. intros deg cells sb x y W1 W2 W3 LL. cbn [cg with_graph]. clear - W1 W2 W3 R LL.
      revert b ns y R W3 LL. induction W2 as [|n m x' xs H W2 IH]; intros b ns y R W3 LL; destruct b as [|b0 b]; try discriminate; inversion W3; subst; cbn [combine] in R; inversion R; subst.
      * destruct sb; constructor.
      * match goal with H : contains _ _ = true /\ _ |- _ => destruct H as [_ V] end. cbn [fst snd] in V.
        assert (Q : holds deg cells g' TGlwe1 l'0 (if sb then xs else l')) by (eapply IH; eauto).
        pose proof (V deg cells sb _ _ W1 H H2) as VV. destruct sb; constructor; auto.
Qed.

(** ** Lists of handles *)
Lemma holds_app : forall deg cells g t a b x y, holds deg cells g t a x -> holds deg cells g t b y -> holds deg cells g t (a ++ b) (x ++ y).
Proof. intros. now apply Forall2_app. Qed.
Lemma holds_firstn : forall deg cells g t k a x, holds deg cells g t a x -> holds deg cells g t (firstn k a) (firstn k x).
Proof. intros deg cells g t k a x H. revert k. induction H; intros [|k]; constructor; auto. apply IHForall2. Qed.
Lemma holds_skipn : forall deg cells g t k a x, holds deg cells g t a x -> holds deg cells g t (skipn k a) (skipn k x).
Proof. intros deg cells g t k a x H. revert k. induction H; intros [|k]; try constructor; auto. apply IHForall2. Qed.
Lemma holds_repeat : forall deg cells g t n b k, carries deg cells g n (enc_bit deg t b) -> holds deg cells g t (repeat n k) (repeat b k).
Proof. intros. induction k; constructor; auto. Qed.
Lemma holds_rev : forall deg cells g t a x, holds deg cells g t a x -> holds deg cells g t (rev a) (rev x).
Proof. intros deg cells g t a x H. induction H; cbn [rev]; [constructor|]. apply holds_app; [exact IHForall2|]. repeat constructor. exact H. Qed.
Lemma holds_interleave : forall deg cells g t a x b y, holds deg cells g t a x -> holds deg cells g t b y -> length a = length b -> holds deg cells g t (interleave a b) (interleave x y).
Proof.
  intros deg cells g t a x b y H. revert b y. induction H as [|n m a x H HA IH]; intros b y HB LL; destruct HB as [|n' m' b y H' HB]; try discriminate; cbn [interleave]; [constructor|].
  constructor; [exact H|]. constructor; [exact H'|]. apply IH; auto.
Qed.
Lemma handles_app : forall g t a b, handles g t a -> handles g t b -> handles g t (a ++ b).
Proof. intros. apply Forall_app. auto. Qed.
Lemma handles_sub : forall g t a b, handles g t a -> (forall x, In x b -> In x a) -> handles g t b.
Proof. intros g t a b H K. apply Forall_forall. intros x Hx. exact (proj1 (Forall_forall _ _) H x (K x Hx)). Qed.
Lemma in_firstn : forall {A} k (l : list A) x, In x (firstn k l) -> In x l.
Proof. intros A k l x H. rewrite <- (firstn_skipn k l). apply in_or_app. auto. Qed.
Lemma in_skipn : forall {A} k (l : list A) x, In x (skipn k l) -> In x l.
Proof. intros A k l x H. rewrite <- (firstn_skipn k l). apply in_or_app. auto. Qed.
Lemma handles_firstn : forall g t k a, handles g t a -> handles g t (firstn k a).
Proof. intros g t k a H. eapply handles_sub; [exact H|]. intros x. apply in_firstn. Qed.
Lemma handles_skipn : forall g t k a, handles g t a -> handles g t (skipn k a).
Proof. intros g t k a H. eapply handles_sub; [exact H|]. intros x. apply in_skipn. Qed.
Lemma handles_repeat : forall g t n k, handle g t n -> handles g t (repeat n k).
Proof. intros. apply Forall_forall. intros x Hx. apply repeat_spec in Hx. now subst. Qed.
Lemma in_interleave : forall {A} (a b : list A) x, In x (interleave a b) -> In x a \/ In x b.
Proof. intros A. induction a as [|u a IH]; intros [|v b] x H; cbn in *; try tauto. destruct H as [H|[H|H]]; auto. apply IH in H. tauto. Qed.
Lemma handles_interleave : forall g t a b, handles g t a -> handles g t b -> handles g t (interleave a b).
Proof. intros g t a b Ha Hb. apply Forall_forall. intros x Hx. apply in_interleave in Hx. destruct Hx as [Hx|Hx]; [exact (proj1 (Forall_forall _ _) Ha x Hx)|exact (proj1 (Forall_forall _ _) Hb x Hx)]. Qed.

(** ** Resizing *)
Lemma firstn_uval : forall k l, k <= length l -> uval l = (uval (firstn k l) + 2 ^ Z.of_nat k * uval (skipn k l))%Z.
Proof. intros k l H. rewrite <- (firstn_skipn k l) at 1. rewrite uval_app, firstn_length_le by auto. reflexivity. Qed.
Lemma unsigned_resize_bits : forall new bs, firstn (Nat.min new (length bs)) bs ++ repeat false (new - length bs) = to_bits new (uval bs).
Proof.
  intros new bs. apply bits_eq; [rewrite app_length, repeat_length, firstn_length; lia|]. rewrite uval_app, uval_repeat_false, Z.mul_0_r, Z.add_0_r.
  destruct (Nat.le_gt_cases new (length bs)) as [H|H].
  - rewrite Nat.min_l by auto. exists (- uval (skipn new bs))%Z. rewrite (firstn_uval new bs H). ring.
  - rewrite Nat.min_r, firstn_all by lia. exists 0%Z. ring.
Qed.
Lemma signed_resize_bits : forall new l b, 1 <= new ->
  firstn (Nat.min new (S (length l)) - 1) (l ++ [b]) ++ repeat b (new - S (length l) + 1) = to_bits (new - 1) (sval (l ++ [b])) ++ [(sval (l ++ [b]) <? 0)%Z].
Proof.
  intros new l b H. rewrite sval_app. pose proof (uval_range l) as R.
  replace (uval l - b2z b * 2 ^ Z.of_nat (length l) <? 0)%Z with b by (destruct b; cbn [b2z]; symmetry; [apply Z.ltb_lt|apply Z.ltb_ge]; lia).
  replace (new - S (length l) + 1) with ((new - S (length l)) + 1) by lia. rewrite repeat_app, app_assoc. f_equal.
  apply bits_eq; [rewrite app_length, repeat_length, firstn_length, app_length; cbn [length]; lia|].
  destruct (Nat.le_gt_cases (new - 1) (length l)) as [K|K].
  - replace (new - S (length l)) with 0 by lia. cbn [repeat]. rewrite app_nil_r. replace (Nat.min new (S (length l)) - 1) with (new - 1) by lia.
    rewrite firstn_app. replace (new - 1 - length l) with 0 by lia. cbn [firstn]. rewrite app_nil_r. rewrite (firstn_uval _ _ K).
    exists (b2z b * 2 ^ Z.of_nat (length l - (new - 1)) - uval (skipn (new - 1) l))%Z.
    replace (Z.of_nat (length l)) with (Z.of_nat (new - 1) + Z.of_nat (length l - (new - 1)))%Z by lia. rewrite Z.pow_add_r by lia. ring.
  - replace (Nat.min new (S (length l)) - 1) with (length l) by lia. rewrite firstn_app, firstn_all, Nat.sub_diag. cbn [firstn]. rewrite app_nil_r, uval_app. exists (b2z b).
    destruct b; [rewrite uval_repeat_true|rewrite uval_repeat_false]; cbn [b2z].
    + replace (Z.of_nat (new - 1)) with (Z.of_nat (length l) + Z.of_nat (new - S (length l)))%Z by lia. rewrite Z.pow_add_r by lia. ring.
    + ring.
Qed.

Lemma resize_unsigned_ok : forall p t ns new c, ctx_ok c -> const_type t = true -> handles (cg c) t ns ->
  exists c' r, resize p Unsigned t ns new c = Ok (c', r) /\ ctx_ok c' /\ grows (cg c) (cg c') /\ handles (cg c') t r /\ length r = new /\
    forall deg cells bs, holds deg cells (cg c) t ns bs -> holds deg cells (cg c') t r (to_bits new (uval bs)).
Proof.
  intros p t ns new c C T H. destruct (const_ok false t c C T) as (c' & z & E & C' & G & Hz & V). unfold resize. cbn [resize_config bind]. rewrite E. cbn [bind].
  eexists. eexists. split; [reflexivity|]. split; [exact C'|]. split; [exact G|]. split; [apply handles_app; [apply handles_firstn; eapply grows_handles; eauto|now apply handles_repeat]|].
  split; [rewrite app_length, firstn_length, repeat_length; lia|]. intros deg cells bs W. rewrite (holds_length _ _ _ _ _ _ W), <- unsigned_resize_bits.
  apply holds_app; [apply holds_firstn; eapply grows_holds; eauto|apply holds_repeat; auto].
Qed.
Lemma resize_unsigned_panics : forall p t ns new c, ctx_ok c -> const_type t = false -> resize p Unsigned t ns new c = Panic.
Proof. intros p t ns new c C T. unfold resize. cbn [resize_config bind]. now rewrite const_panics. Qed.
Lemma resize_signed_ok : forall p t ns new c, ctx_ok c -> handles (cg c) t ns -> 1 <= new -> 1 <= length ns ->
  exists r, resize p Signed t ns new c = Ok (c, r) /\ handles (cg c) t r /\ length r = new /\
    forall deg cells bs, holds deg cells (cg c) t ns bs -> holds deg cells (cg c) t r (to_bits (new - 1) (sval bs) ++ [(sval bs <? 0)%Z]).
Proof.
  intros p t ns new c C H N1 L1. destruct (list_snoc_cases ns) as (l & n & ->); [destruct ns; cbn in *; [lia|congruence]|]. unfold resize. rewrite app_length in *. cbn [length] in *.
  replace (length l + 1) with (S (length l)) in * by lia. unfold resize_config. destruct (Nat.min new (S (length l))) as [|k] eqn:Ek; [lia|]. cbn [bind]. rewrite rev_app_distr. cbn [rev app bind].
  eexists. split; [reflexivity|]. apply Forall_app in H. destruct H as [Hl Hn]. inversion Hn. subst. split; [apply handles_app; [apply handles_firstn; now apply handles_app|now apply handles_repeat]|].
  split; [rewrite app_length, firstn_length, repeat_length, app_length; cbn [length]; lia|]. intros deg cells bs W. pose proof (holds_length _ _ _ _ _ _ W) as LB. rewrite app_length in LB. cbn [length] in LB.
  destruct (list_snoc_cases bs) as (bl & b & ->); [intros ->; cbn in LB; lia|]. rewrite app_length in LB. cbn [length] in LB.
  assert (W' : holds deg cells (cg c) t (rev (l ++ [n])) (rev (bl ++ [b]))) by now apply holds_rev. rewrite !rev_app_distr in W'. inversion W'. subst.
  rewrite <- signed_resize_bits by auto. replace (length bl) with (length l) by lia. rewrite Ek. replace (S k - 1) with k by lia.
  apply holds_app; [now apply holds_firstn|now apply holds_repeat].
Qed.
Lemma resize_signed_zero : forall t ns c, 1 <= length ns -> resize Debug Signed t ns 0 c = Panic /\
  exists r, resize Release Signed t ns 0 c = Ok (c, r) /\ length r = S (length ns).
Proof.
  intros t ns c H. split; [reflexivity|]. unfold resize. cbn [resize_config Nat.min bind]. destruct (rev ns) as [|b l] eqn:E; [apply (f_equal (@length nat)) in E; rewrite rev_length in E; cbn in E; lia|].
  cbn [bind]. eexists. split; [reflexivity|]. rewrite firstn_all, app_length, repeat_length. lia.
Qed.
(** When the value fits, the result has the same value. *)
Lemma signed_resize_value : forall new v, 1 <= new -> (- 2 ^ Z.of_nat (new - 1) <= v < 2 ^ Z.of_nat (new - 1))%Z -> sval (to_bits (new - 1) v ++ [(v <? 0)%Z]) = v.
Proof.
  intros new v H R. rewrite sval_app, to_bits_length, uval_to_bits. set (P := (2 ^ Z.of_nat (new - 1))%Z) in *. destruct (Z.ltb_spec v 0) as [N|N]; cbn [b2z].
  - rewrite <- (Z.mod_add v 1 P) by lia. rewrite Z.mod_small by lia. ring.
  - rewrite Z.mod_small by lia. ring.
Qed.
