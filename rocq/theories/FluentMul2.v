(** Signed graph-level multiplication and the fluent `mul`. *)
From Verif Require Import Base BitsLemmas Graph MuxGraph SpecMux Circuits MulRecProofs FheGraph SpecFhe FheProofs2 FheProofs3 FheProofs4 FheProofs5 FheProofs6 FluentInt Fluent SpecFluent FluentProofs FluentProofs2 FluentProofs3 FluentProofs5 FluentLib FluentMul Spec Props_Circuits.
Require Import Permutation.
Ltac Zify.zify_post_hook ::= idtac.
Open Scope nat_scope.

Lemma cmux_node_ok : forall g s l h, edges_ok g -> contains g s = true -> contains g l = true -> contains g h = true ->
  exists g' i, cmux_node s l h g = Ok (g', i) /\ grows g g' /\ contains g' i = true /\
    forall deg cells sb x y, carries deg cells g s (CGgsw1 sb) -> carries deg cells g l (enc_bit deg TGlwe1 x) -> carries deg cells g h (enc_bit deg TGlwe1 y) ->
      carries deg cells g' i (enc_bit deg TGlwe1 (cmux sb x y)).
Proof.
  intros g s l h EN Cs Cl Ch. unfold cmux_node.
  destruct (nadd_ok g FCMux (fun i => [(s, i, ESel); (l, i, ELow); (h, i, EHigh)]) EN) as (g' & E & G & N & I).
  { intros i s0 t0 l0 [H|[H|[H|[]]]]; injection H as <- <- <-; auto. }
  exists g', (size g). split; [exact E|]. split; [exact G|]. split; [unfold contains; now rewrite N|]. intros deg cells sb x y W1 W2 W3.
  cbn [enc_bit] in *. replace (CGlwe1 (pconst deg (cmux sb x y))) with (CGlwe1 (if sb then pconst deg y else pconst deg x)) by now destruct sb.
  eapply cmux_value; [exact N|eexists; split; [exact I|now right]|eapply grows_carries; [exact G|eassumption] ..].
Qed.

(** A loop over pairs of nodes whose body computes F of the two bits. *)
Lemma gmap2_ok : forall (f : fgraph -> nat * nat -> res (fgraph * nat)) t (Q : nat -> (cty -> nat -> ct) -> (bool -> bool -> bool) -> Prop) g0 a b, edges_ok g0 -> length a = length b ->
  Forall (fun n => contains g0 n = true) a -> Forall (fun n => contains g0 n = true) b ->
  (forall g p, grows g0 g -> contains g0 (fst p) = true -> contains g0 (snd p) = true ->
     exists g' n, f g p = Ok (g', n) /\ grows g g' /\ handle g' t n /\
       forall deg cells F x y, 0 < deg -> Q deg cells F -> carries deg cells g (fst p) (enc_bit deg TGlwe1 x) -> carries deg cells g (snd p) (enc_bit deg TGlwe1 y) -> carries deg cells g' n (enc_bit deg t (F x y))) ->
  exists g' ns, gmap f (combine a b) g0 = Ok (g', ns) /\ grows g0 g' /\ handles g' t ns /\ length ns = length a /\
    forall deg cells F x y, 0 < deg -> Q deg cells F -> holds deg cells g0 TGlwe1 a x -> holds deg cells g0 TGlwe1 b y -> holds deg cells g' t ns (zipwith F x y).
Proof.
  intros f t Q g0 a b EN LL Ca Cb Hf.
  destruct (gmap_ok f (fun g p => grows g0 g /\ contains g0 (fst p) = true /\ contains g0 (snd p) = true)
    (fun g (p : nat * nat) n => handle g t n /\ forall deg cells F x y, 0 < deg -> Q deg cells F -> carries deg cells g0 (fst p) (enc_bit deg TGlwe1 x) -> carries deg cells g0 (snd p) (enc_bit deg TGlwe1 y) -> carries deg cells g n (enc_bit deg t (F x y)))) with (l := combine a b) (g := g0) as (g' & ns & E & G & R).
  - intros g g' x G (K1 & K2 & K3). split; [eapply grows_trans; eauto|auto].
  - intros g g' p n G (K & H). split; [eapply grows_handle; eauto|]. intros deg cells F x y D W1 W2 W3. eapply grows_carries; eauto.
  - intros g p EN' (G0 & K2 & K3). destruct (Hf g p G0 K2 K3) as (g' & n & E & G & H & V). exists g', n. split; [exact E|]. split; [exact G|]. split; [exact H|].
    intros deg cells F x y D W1 W2 W3. apply V; auto; eapply grows_carries; eauto.
  - exact EN.
  - apply Forall_forall. intros [p q] Hp. split; [now apply grows_refl|]. split.
    + apply in_combine_l in Hp. exact (proj1 (Forall_forall _ _) Ca _ Hp).
    + apply in_combine_r in Hp. exact (proj1 (Forall_forall _ _) Cb _ Hp).
  - exists g', ns. split; [exact E|]. split; [exact G|]. split; [|split].
    + clear - R. induction R as [|r n rs ns' H R IH]; constructor; [apply H|exact IH].
    + rewrite <- (Forall2_len _ _ _ R), combine_length. lia.
    + intros deg cells F x y D W1 W2 W3. clear - D W1 W2 W3 R LL. revert b ns y R W3 LL.
      induction W2 as [|n m x' xs H W2 IH]; intros b ns y R W3 LL; destruct b as [|b0 b]; try discriminate; inversion W3; subst; cbn [combine] in R; inversion R; subst; cbn [zipwith].
      * constructor.
      * match goal with H : handle _ _ _ /\ _ |- _ => destruct H as [_ V] end. constructor; [now apply V|]. eapply IH; eauto.
Qed.
Lemma rev_last : forall {A} (l : list A) s r d, rev l = s :: r -> l = rev r ++ [s] /\ last l d = s.
Proof. intros A l s r d H. assert (l = rev r ++ [s]) as -> by (rewrite <- (rev_involutive l), H; reflexivity). split; [reflexivity|]. apply last_last. Qed.
Lemma holds_last : forall deg cells g t a x s r, holds deg cells g t a x -> rev a = s :: r -> carries deg cells g s (enc_bit deg t (last x false)).
Proof.
  intros deg cells g t a x s r W E. apply holds_rev in W. rewrite E in W. destruct (rev x) as [|b r'] eqn:Ex; inversion W as [|? ? ? ? Hb Hr]. subst. now rewrite (proj2 (rev_last x b r' false Ex)).
Qed.

Section Lib.
Context (lib : blk -> res (mgraph * list nat)) (L : lib_ok lib).

Lemma gneg_ok : forall a g, edges_ok g -> handles g TGgsw1 a -> 0 < length a ->
  exists g' ns, gneg lib a g = Ok (g', ns) /\ grows g g' /\ handles g' TGlwe1 ns /\ length ns = length a /\
    forall deg cells x, holds deg cells g TGgsw1 a x -> exists y, neg_bits x = Ok y /\ holds deg cells g' TGlwe1 ns y.
Proof.
  intros a g EN H P. unfold gneg. assert (RN : forall x, 0 < length x -> run_res (builder (BNeg (length x))) x = Ok (to_bits (length x) (- uval x))) by (intros x Hx; apply (negator_negates x); lia).
  pose proof (RN (repeat false (length a))) as R0. rewrite repeat_length in R0. specialize (R0 P).
  destruct (insert_run lib L (BNeg (length a)) a MGlwe g _ _ EN H (repeat_length _ _) R0) as (g' & ns & E & G & H' & LN & V).
  exists g', ns. split; [exact E|]. split; [exact G|]. split; [exact H'|]. split; [now rewrite to_bits_length in LN|]. intros deg cells x W. pose proof (holds_length _ _ _ _ _ _ W) as LX.
  exists (to_bits (length x) (- uval x)). split; [apply RN; lia|]. apply (V deg cells x); auto. rewrite LX. apply RN. lia.
Qed.
Lemma contains_handles : forall g t ns, handles g t ns -> Forall (fun n => contains g n = true) ns.
Proof. intros g t ns H. apply Forall_forall. intros n Hn. eapply handle_contains. exact (proj1 (Forall_forall _ _) H n Hn). Qed.
Lemma gabs_ok : forall a g, edges_ok g -> handles g TGgsw1 a -> 0 < length a ->
  exists g' ns, gabs lib a g = Ok (g', ns) /\ grows g g' /\ handles g' TGgsw1 ns /\ length ns = length a /\
    forall deg cells x, 0 < deg -> holds deg cells g TGgsw1 a x -> holds deg cells g' TGgsw1 ns (to_bits (length a) (Z.abs (sval x))).
Proof.
  intros a g EN H P. unfold gabs.
  destruct (gconvert_ok TGgsw1 TGlwe1 a g EN H) as (g1 & ag & E1 & G1 & H1 & L1 & V1). rewrite E1. cbn [bind].
  destruct (gneg_ok a g1 (grows_ok _ _ G1) (grows_handles _ _ _ _ G1 H) P) as (g2 & na & E2 & G2 & H2 & L2 & V2). rewrite E2. cbn [bind].
  destruct (rev a) as [|s r] eqn:Er; [apply (f_equal (@length _)) in Er; rewrite rev_length in Er; cbn in Er; lia|].
  pose proof (grows_trans _ _ _ G1 G2) as G12.
  assert (Cs : contains g2 s = true). { eapply grows_contains; [exact G12|]. eapply handle_contains. apply (proj1 (Forall_forall _ _) H). apply in_rev. rewrite Er. now left. }
  destruct (gmap2_ok (fun g (p : nat * nat) => ' (g, m) <- cmux_node s (fst p) (snd p) g ;; convert g m TGlwe1 TGgsw1) TGgsw1
     (fun deg cells F => exists sb, carries deg cells g2 s (CGgsw1 sb) /\ F = cmux sb) g2 ag na (grows_ok _ _ G2)) as (g3 & ns & E3 & G3 & H3 & L3 & V3).
  - lia.
  - eapply contains_handles. eapply grows_handles; [exact G2|exact H1].
  - eapply contains_handles. exact H2.
  - intros g' p G' C1 C2. destruct (cmux_node_ok g' s (fst p) (snd p)) as (g4 & i & E4 & G4 & C4 & V4); try (eapply grows_contains; [exact G'|assumption]).
    { now apply grows_ok in G'. }
    rewrite E4. cbn [bind]. destruct (convert_spec g4 i TGlwe1 TGgsw1 (grows_ok _ _ G4) C4) as (g5 & n & E5 & G5 & H5 & V5).
    exists g5, n. split; [exact E5|]. split; [eapply grows_trans; eauto|]. split; [exact H5|]. intros deg cells F x y D (sb & W & ->) W1 W2. apply V5; auto. apply V4; auto. eapply grows_carries; eauto.
  - rewrite E3. exists g3, ns. split; [reflexivity|]. split; [eapply grows_trans; eauto|]. split; [exact H3|]. split; [lia|]. intros deg cells x D W.
    pose proof (holds_length _ _ _ _ _ _ W) as LX. destruct (V2 deg cells x) as (y & NY & WY); [eapply grows_holds; eauto|].
    pose proof (abs_bits_correct x ltac:(lia)) as AB. unfold abs_bits in AB. rewrite NY in AB. cbn [bind] in AB. injection AB as AB. rewrite LX, <- AB.
    apply V3; auto.
    + exists (last x false). split; [|reflexivity]. eapply grows_carries; [exact G12|]. eapply (holds_last deg cells g TGgsw1); eauto.
    + eapply grows_holds; [exact G2|]. now apply V1.
Qed.
Lemma gabs_empty : forall g, edges_ok g -> gabs lib [] g = Panic.
Proof.
  intros g EN. unfold gabs. cbn. unfold gneg. rewrite (insert_panics lib L); [reflexivity|]. intros v Hv. destruct v; [reflexivity|discriminate].
Qed.

(** Unsigned: splits the product at the length of the first operand. *)
Lemma gappend_uint_ok : forall mode a b g, edges_ok g -> handles g TGgsw1 a -> handles g TGgsw1 b ->
  if mul_ok (S (length a + length b)) (length a) (length b) then
    exists g' lo hi, gappend_uint lib mode a b g = Ok (g', (lo, hi)) /\ grows g g' /\ handles g' (mode_ty mode) (lo ++ hi) /\ length lo = length a /\ length hi = length b /\
      forall deg cells x y, 0 < deg -> (mode = MGlwe \/ length a <= 16 /\ length b <= 16) -> holds deg cells g TGgsw1 a x -> holds deg cells g TGgsw1 b y ->
        holds deg cells g' (mode_ty mode) (lo ++ hi) (to_bits (length a + length b) (uval x * uval y))
  else gappend_uint lib mode a b g = Panic.
Proof.
  intros mode a b g EN Ha Hb. unfold gappend_uint. pose proof (gmul_spec lib L (S (length a + length b)) mode a b g EN Ha Hb ltac:(lia)) as Q.
  destruct (mul_ok _ _ _); [|now rewrite Q]. destruct Q as (g' & r & E & G & H & LR & V). rewrite E. cbn [bind]. destruct (Nat.leb_spec (length a) (length r)); [|lia].
  exists g', (firstn (length a) r), (skipn (length a) r). split; [reflexivity|]. rewrite firstn_skipn, firstn_length, skipn_length. split; [exact G|]. split; [exact H|]. split; [lia|]. split; [lia|]. exact V.
Qed.

(** Signed: always in GLWE inside, so every result type is right. *)
Lemma gappend_int_ok : forall mode a b g, edges_ok g -> handles g TGgsw1 a -> handles g TGgsw1 b -> 0 < length a -> 0 < length b ->
  if mul_ok (S (length a + length b)) (length a) (length b) then
    exists g' lo hi, gappend_int lib mode a b g = Ok (g', (lo, hi)) /\ grows g g' /\ handles g' (mode_ty mode) (lo ++ hi) /\ length lo = length a /\ length hi = length b /\
      forall deg cells x y, 0 < deg -> holds deg cells g TGgsw1 a x -> holds deg cells g TGgsw1 b y ->
        holds deg cells g' (mode_ty mode) (lo ++ hi) (to_bits (length a + length b) (sval x * sval y))
  else gappend_int lib mode a b g = Panic.
Proof.
  intros mode a b g EN Ha Hb Pa Pb. unfold gappend_int.
  destruct (gabs_ok a g EN Ha Pa) as (g1 & aa & E1 & G1 & H1 & L1 & V1). rewrite E1. cbn [bind].
  destruct (gabs_ok b g1 (grows_ok _ _ G1) (grows_handles _ _ _ _ G1 Hb) Pb) as (g2 & ab & E2 & G2 & H2 & L2 & V2). rewrite E2. cbn [bind].
  pose proof (gmul_spec lib L (S (length a + length b)) MGlwe aa ab g2 (grows_ok _ _ G2) (grows_handles _ _ _ _ G2 H1) H2 ltac:(lia)) as Q. rewrite L1, L2 in Q.
  destruct (mul_ok _ _ _) eqn:MO; [|now rewrite Q]. destruct Q as (g3 & pos & E3 & G3 & H3 & L3 & V3). rewrite E3. cbn [bind].
  destruct (gconvert_ok TGlwe1 TGgsw1 pos g3 (grows_ok _ _ G3) H3) as (g4 & pg & E4 & G4 & H4 & L4 & V4). rewrite E4. cbn [bind].
  destruct (gneg_ok pg g4 (grows_ok _ _ G4) H4 ltac:(lia)) as (g5 & neg & E5 & G5 & H5 & L5 & V5). rewrite E5. cbn [bind].
  destruct (rev a) as [|s1 r1] eqn:Er1; [apply (f_equal (@length _)) in Er1; rewrite rev_length in Er1; cbn in Er1; lia|].
  destruct (rev b) as [|s2 r2] eqn:Er2; [apply (f_equal (@length _)) in Er2; rewrite rev_length in Er2; cbn in Er2; lia|].
  assert (G35 : grows g3 g5) by (eapply grows_trans; eauto). assert (G12 : grows g g2) by (eapply grows_trans; eauto).
  assert (G05 : grows g g5) by (eapply grows_trans; [exact G12|]; eapply grows_trans; eauto).
  assert (Cs1 : contains g5 s1 = true). { eapply grows_contains; [exact G05|]. eapply handle_contains. apply (proj1 (Forall_forall _ _) Ha). apply in_rev. rewrite Er1. now left. }
  assert (Cs2 : contains g5 s2 = true). { eapply grows_contains; [exact G05|]. eapply handle_contains. apply (proj1 (Forall_forall _ _) Hb). apply in_rev. rewrite Er2. now left. }
  destruct (gmap2_ok (fun g (p : nat * nat) =>
          ' (g, m11) <- cmux_node s1 (fst p) (snd p) g ;;
          ' (g, m12) <- cmux_node s1 (snd p) (fst p) g ;;
          ' (g, m2) <- cmux_node s2 m11 m12 g ;;
          convert g m2 TGlwe1 (mode_ty mode)) (mode_ty mode)
     (fun deg cells F => exists b1 b2, carries deg cells g5 s1 (CGgsw1 b1) /\ carries deg cells g5 s2 (CGgsw1 b2) /\ F = fun p n => cmux b2 (cmux b1 p n) (cmux b1 n p)) g5 pos neg (grows_ok _ _ G5)) as (g6 & ns & E6 & G6 & H6 & L6 & V6).
  - lia.
  - eapply contains_handles. eapply grows_handles; [exact G35|exact H3].
  - eapply contains_handles. exact H5.
  - intros g' p G' C1 C2.
    destruct (cmux_node_ok g' s1 (fst p) (snd p)) as (h1 & i1 & F1 & K1 & X1 & Y1); try (eapply grows_contains; [exact G'|assumption]); [now apply grows_ok in G'|]. rewrite F1. cbn [bind].
    pose proof (grows_trans _ _ _ G' K1) as GK1.
    destruct (cmux_node_ok h1 s1 (snd p) (fst p)) as (h2 & i2 & F2 & K2 & X2 & Y2); try (eapply grows_contains; [exact GK1|assumption]); [now apply grows_ok in K1|]. rewrite F2. cbn [bind].
    pose proof (grows_trans _ _ _ GK1 K2) as GK2.
    destruct (cmux_node_ok h2 s2 i1 i2) as (h3 & i3 & F3 & K3 & X3 & Y3); [now apply grows_ok in K2|eapply grows_contains; [exact GK2|assumption]|eapply grows_contains; [exact K2|assumption]|assumption|]. rewrite F3. cbn [bind].
    destruct (convert_spec h3 i3 TGlwe1 (mode_ty mode) (grows_ok _ _ K3) X3) as (h4 & n & F4 & K4 & X4 & Y4).
    exists h4, n. split; [exact F4|]. split; [eapply grows_trans; [exact K1|]; eapply grows_trans; [exact K2|]; eapply grows_trans; eauto|]. split; [exact X4|].
    intros deg cells F x y D (b1 & b2 & W1 & W2 & ->) Wx Wy. apply Y4; auto. apply Y3.
    + eapply grows_carries; [exact GK2|exact W2].
    + eapply grows_carries; [exact K2|]. apply Y1; auto. eapply grows_carries; [exact G'|exact W1].
    + apply Y2; auto; (eapply grows_carries; [|eassumption]); assumption.
  - match goal with |- context [gmap ?f ?l ?h] => replace (gmap f l h) with (@Ok (fgraph * list nat) (g6, ns)) by (symmetry; exact E6) end. cbn [bind]. destruct (Nat.leb_spec (length a) (length ns)); [|lia].
    exists g6, (firstn (length a) ns), (skipn (length a) ns). split; [reflexivity|]. rewrite firstn_skipn, firstn_length, skipn_length. split; [eapply grows_trans; eauto|]. split; [exact H6|]. split; [lia|]. split; [lia|].
    intros deg cells x y D Wx Wy. pose proof (holds_length _ _ _ _ _ _ Wx) as LX. pose proof (holds_length _ _ _ _ _ _ Wy) as LY.
    assert (A1 := V1 deg cells x D Wx). assert (A2 := V2 deg cells y D (grows_holds _ _ _ _ _ _ _ G1 Wy)).
    assert (A3 := V3 deg cells _ _ D (or_introl eq_refl) (grows_holds _ _ _ _ _ _ _ G2 A1) A2). cbn [mode_ty] in A3.
    pose proof (uval_abs x ltac:(lia)) as U1. pose proof (uval_abs y ltac:(lia)) as U2. rewrite LX, LY in A3. rewrite U1, U2 in A3.
    assert (A4 := V4 deg cells _ D A3). destruct (V5 deg cells _ A4) as (ny & N5 & A5).
    pose proof (int_mul_spec x y ltac:(lia) ltac:(lia)) as IM. rewrite <- LX, <- LY, MO in IM. unfold append_int_multiply in IM. rewrite !abs_bits_correct in IM by lia. cbn [bind] in IM.
    rewrite mul_impl_spec in IM by (rewrite !to_bits_length; lia). rewrite !to_bits_length, U1, U2, <- LX, <- LY, MO in IM. cbn [bind] in IM. rewrite <- LX, <- LY in N5. rewrite N5 in IM. cbn [bind] in IM. rewrite <- LX, <- LY in A3.
    assert (C1 : carries deg cells g5 s1 (CGgsw1 (last x false))) by (eapply grows_carries; [exact G05|exact (holds_last _ _ _ _ _ _ _ _ Wx Er1)]).
    assert (C2 : carries deg cells g5 s2 (CGgsw1 (last y false))) by (eapply grows_carries; [exact G05|exact (holds_last _ _ _ _ _ _ _ _ Wy Er2)]).
    assert (A6 := V6 deg cells _ _ _ D (ex_intro _ (last x false) (ex_intro _ (last y false) (conj C1 (conj C2 eq_refl)))) (grows_holds _ _ _ _ _ _ _ G35 A3) A5).
    destruct (Nat.leb _ _); [|discriminate]. injection IM as I1 I2. rewrite <- (firstn_skipn (length a)) in A6. rewrite I1, I2 in A6. now rewrite <- to_bits_app in A6.
Qed.
End Lib.
