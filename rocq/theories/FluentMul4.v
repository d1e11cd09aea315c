(** Multiplication into GLEV results wider than 16 bits: the circuit that is built has results without a value. *)
From Coq Require Import Permutation.
From Verif Require Import Base BitsLemmas Graph MuxGraph SpecMux Circuits MulRecProofs FheGraph SpecFhe FheProofs2 FheProofs3 FheProofs4 FheProofs5 FheProofs6 FluentInt Fluent SpecFluent FluentProofs FluentProofs2 FluentProofs3 FluentProofs5 FluentLib FluentMul FluentMul2 FluentMul3 Spec Props_Circuits.
Ltac Zify.zify_post_hook ::= idtac.
Open Scope nat_scope.

Definition no_value (g : fgraph) (n : nat) : Prop := forall deg cells o, ~ fvalue deg cells g n o.
Definition glev_op (g : fgraph) (n : nat) : Prop := exists op, node g n = Some op /\ mode_op MGlev op.
Lemma finputs_In : forall deg cells g es ins s t l, finputs deg cells g es ins -> In (s, t, l) es -> exists o, fvalue deg cells g s o.
Proof. intros deg cells g es ins s t l F. induction F as [|s' t' l' es c w ins V F IH]; intros H; [destruct H|]. destruct H as [H|H]; [injection H as -> -> ->; eauto|auto]. Qed.
Lemma blocked : forall g n s t l, In (s, t, l) (in_edges g n) -> no_value g s -> no_value g n.
Proof. intros g n s t l H NV deg cells o V. inversion V as [? op ins ? Hn F E]. subst. destruct (finputs_In _ _ _ _ _ _ _ _ F H) as [o' V']. exact (NV _ _ _ V'). Qed.
Lemma no_value_grows : forall g g' n, grows g g' -> contains g n = true -> no_value g n -> no_value g' n.
Proof. intros g g' n G C NV deg cells o V. apply (NV deg cells o). now apply (proj2 G n C). Qed.
Lemma glev_op_grows : forall g g' n, grows g g' -> glev_op g n -> glev_op g' n.
Proof. intros g g' n G (op & N & M). exists op. split; [|exact M]. eapply grows_node; eauto. Qed.
Lemma bind_ok : forall {A B} (m : res A) (f : A -> res B) r, bind m f = Ok r -> exists x, m = Ok x /\ f x = Ok r.
Proof. intros A B [x| |] f r H; try discriminate. eauto. Qed.
Lemma glev_value : forall g n, glev_op g n -> forall deg cells o, fvalue deg cells g n o -> exists b, fst o = Some (CGlev1 b).
Proof.
  intros g n (op & N & M) deg cells o V. inversion V as [? op' ins ? N' F E]. subst. assert (op' = op) by congruence. subst op'. unfold exec_op in E. apply bind_ok in E. destruct E as (u & _ & E).
  destruct M as [->|[->| ->]]; cbn [mode_mux mode_ty run_op const_ct bind] in E.
  - apply bind_ok in E. destruct E as (c1 & _ & E). apply bind_ok in E. destruct E as (a1 & _ & E). apply bind_ok in E. destruct E as (c2 & _ & E). apply bind_ok in E. destruct E as (a2 & _ & E).
    apply bind_ok in E. destruct E as (s1 & _ & E). apply bind_ok in E. destruct E as (b1 & _ & E). injection E as <-. cbn. eauto.
  - injection E as <-. cbn. eauto.
  - injection E as <-. cbn. eauto.
Qed.

(** Reading such a node as a GLWE ciphertext never gives a value. *)
Lemma convert_glev : forall g cur, edges_ok g -> glev_op g cur -> exists g' n, convert g cur TGlwe1 TGgsw1 = Ok (g', n) /\ grows g g' /\ contains g' n = true /\ no_value g' n.
Proof.
  intros g cur EN GO. assert (C : contains g cur = true) by (destruct GO as (op & N & _); unfold contains; now rewrite N).
  unfold convert. cbn [convert_rec cty_eqb convert_step].
  pose proof (nadd_ok g (FSampleExtract 0) (fun i => [(cur, i, EUnary)]) EN) as Q1. destruct Q1 as (g1 & E1 & G1 & N1 & I1).
  { intros i s t l [H|[]]. injection H as <- <- <-. auto. }
  unfold nadd in E1. destruct (add_node g (FSampleExtract 0)) as [i1 h1] eqn:A1. apply bind_ok in E1. destruct E1 as (k1 & E1 & F1). injection F1 as -> ->. rewrite E1. cbn [bind convert_rec cty_eqb convert_step].
  assert (C1 : contains g1 (size g) = true) by (unfold contains; now rewrite N1).
  assert (B1 : no_value g1 (size g)).
  { intros deg cells o V. inversion V as [? op ins ? N F E]. subst. rewrite N1 in N. injection N as <-. rewrite I1 in F. cbn [rev] in F. inversion F as [|? ? ? ? c w ins' Vs Fs]. subst. inversion Fs. subst.
    apply (proj2 G1 cur C) in Vs. destruct (glev_value g cur GO deg cells _ Vs) as [b Hb]. cbn [fst] in Hb. subst c. unfold exec_op in E. cbn in E. destruct deg; discriminate. }
  pose proof (nadd_ok g1 FKeyswitch (fun i => [(size g, i, EUnary)]) (grows_ok _ _ G1)) as Q2. destruct Q2 as (g2 & E2 & G2 & N2 & I2).
  { intros i s t l [H|[]]. injection H as <- <- <-. auto. }
  unfold nadd in E2. destruct (add_node g1 FKeyswitch) as [i2 h2] eqn:A2. apply bind_ok in E2. destruct E2 as (k2 & E2 & F2). injection F2 as -> ->. rewrite E2. cbn [bind convert_rec cty_eqb convert_step].
  assert (C2 : contains g2 (size g1) = true) by (unfold contains; now rewrite N2).
  assert (B2 : no_value g2 (size g1)) by (eapply blocked; [rewrite I2; now left|]; eapply no_value_grows; eauto).
  pose proof (nadd_ok g2 FCbs (fun i => [(size g1, i, EUnary)]) (grows_ok _ _ G2)) as Q3. destruct Q3 as (g3 & E3 & G3 & N3 & I3).
  { intros i s t l [H|[]]. injection H as <- <- <-. auto. }
  unfold nadd in E3. destruct (add_node g2 FCbs) as [i3 h3] eqn:A3. apply bind_ok in E3. destruct E3 as (k3 & E3 & F3). injection F3 as -> ->. rewrite E3. cbn [bind convert_rec cty_eqb convert_step].
  exists g3, (size g2). split; [reflexivity|]. split; [eapply grows_trans; [exact G1|]; eapply grows_trans; eauto|]. split; [unfold contains; now rewrite N3|].
  eapply blocked; [rewrite I3; now left|]. eapply no_value_grows; eauto.
Qed.
Lemma gconvert_glev : forall ns g, edges_ok g -> Forall (glev_op g) ns -> exists g' ms, gconvert TGlwe1 TGgsw1 ns g = Ok (g', ms) /\ grows g g' /\ Forall (fun n => no_value g' n) ms.
Proof.
  intros ns g EN F. destruct (gmap_ok (fun g n => convert g n TGlwe1 TGgsw1) glev_op (fun g _ m => contains g m = true /\ no_value g m)) with (l := ns) (g := g) as (g' & ms & E & G & R); auto.
  - intros g0 g1 x G H. eapply glev_op_grows; eauto.
  - intros g0 g1 x n G [C H]. split; [eapply grows_contains; eauto|eapply no_value_grows; eauto].
  - intros g0 x EN0 H. destruct (convert_glev g0 x EN0 H) as (g' & n & E & G & C & B). exists g', n. auto.
  - exists g', ms. split; [exact E|]. split; [exact G|]. clear - R. induction R as [|x y l l' [_ H] R IH]; constructor; auto.
Qed.

Section Lib.
Context (lib : blk -> res (mgraph * list nat)) (L : lib_ok lib).

Lemma insert_glev : forall b hosts g g' outs, edges_ok g -> handles g TGgsw1 hosts -> insert lib b hosts MGlev g = Ok (g', outs) -> Forall (glev_op g') outs /\
  (Forall (no_value g) hosts -> forall o n v v' r r', nth_error outs o = Some n -> run_res (builder b) v = Ok r -> run_res (builder b) v' = Ok r' -> nth o r false = true -> nth o r' false = false -> no_value g' n).
Proof.
  intros b hosts g g' outs EN H E. unfold insert in E. pose proof (L b) as LB. destruct (builder b) as [c| |] eqn:B; [|now rewrite LB in E|now rewrite LB in E].
  destruct LB as (mc & ins & EL & [W AR (k & D & V)]). rewrite EL in E. cbn [bind] in E.
  assert (LH : length hosts = length ins). { unfold insert_mux in E. destruct (Nat.eqb_spec (length ins) (length hosts)); [auto|discriminate]. }
  destruct (insert_mux_ok'' g mc ins hosts MGlev k EN W D LH) as (h' & outs' & E' & G & LO & C & VO).
  { intros x Hx. exact (proj1 (Forall_forall _ _) H x Hx). }
  rewrite E in E'. injection E' as <- <-. split.
  - apply Forall_forall. exact C.
  - intros NV o n v v' r r' Hn Rv Rv' T F. apply run_builder in Rv, Rv'. destruct Rv as (c1 & Q1 & L1 & <-). destruct Rv' as (c2 & Q2 & L2 & <-). injection Q1 as <-. injection Q2 as <-.
    assert (Ho : o < k) by (rewrite <- LO; apply nth_error_Some; congruence). apply (ds_outs _ _ _ D) in Ho. destruct Ho as [m Hm]. destruct (VO m o Hm) as (n' & Hn' & _ & S'). assert (n' = n) by congruence. subst n'.
    destruct (V v L1) as [_ Vv]. destruct (V v' L2) as [_ Vv']. specialize (Vv m o Hm). specialize (Vv' m o Hm). rewrite T in Vv. rewrite F in Vv'. destruct (S' v v' Vv Vv') as (q & Hq & He).
    eapply blocked; [exact He|]. eapply no_value_grows; [exact G| |exact (proj1 (Forall_forall _ _) NV q Hq)]. eapply handle_contains. exact (proj1 (Forall_forall _ _) H q Hq).
Qed.

Lemma Forall_diag : forall {A} (P : A -> Prop) l, Forall P l -> Forall2 (fun x (_ : A) => P x) l l.
Proof. intros A P l F. induction F; constructor; auto. Qed.
Lemma Forall_undiag : forall {A} (P : A -> Prop) l l', Forall2 (fun x (_ : A) => P x) l l' -> Forall P l.
Proof. intros A P l l' F. induction F; constructor; auto. Qed.

Lemma gmul_glev : forall fuel a b g g' r, edges_ok g -> handles g TGgsw1 a -> handles g TGgsw1 b -> length a + length b < fuel -> gmul_impl lib fuel MGlev a b g = Ok (g', r) ->
  Forall (glev_op g') r /\ (16 < length a -> 16 < length b -> forall o n, o < Nat.max (length a) (length b) -> nth_error r o = Some n -> no_value g' n).
Proof.
  induction fuel as [|f IH]; intros a0 b0 g g' r EN Ha0 Hb0 HF E; [lia|].
  pose proof (gmul_spec lib L (S f) MGlev a0 b0 g EN Ha0 Hb0 HF) as SP. destruct (mul_ok (S f) (length a0) (length b0)) eqn:MO; [|congruence]. clear SP.
  cbn [gmul_impl] in E.
  assert (Hsw : exists a b, (if length a0 <? length b0 then (b0, a0) else (a0, b0)) = (a, b) /\
     length a = Nat.max (length a0) (length b0) /\ length b = Nat.min (length a0) (length b0) /\ handles g TGgsw1 a /\ handles g TGgsw1 b).
  { destruct (Nat.ltb_spec (length a0) (length b0)); [exists b0, a0|exists a0, b0]; (split; [reflexivity|]); (split; [lia|]); (split; [lia|]); (split; [auto|]); auto. }
  destruct Hsw as (a & b & Esw & La & Lb & Ha & Hb). rewrite Esw in E. cbn [mul_ok] in MO. rewrite <- La, <- Lb in MO. assert (Hle : length b <= length a) by lia. assert (Hf' : length a + length b <= f) by lia.
  replace (Nat.max (length a0) (length b0)) with (length a). assert (Hbig0 : 16 < length a0 -> 16 < length b0 -> 16 < length b) by lia. clear Esw La Lb Ha0 Hb0 HF.
  destruct (partition_integer (length a)) as [al ah] eqn:Pa. destruct (partition_integer (length b)) as [bl bh] eqn:Pb.
  pose proof (partition_large _ _ _ Pa) as Ca. pose proof (partition_large _ _ _ Pb) as Cb.
  destruct (Nat.leb_spec (length a) 16) as [Hs|Hbig].
  { assert (ah = 0 /\ bh = 0) as [-> ->] by lia. cbn [Nat.eqb andb] in E. assert (Hab : handles g TGgsw1 (a ++ b)) by now apply handles_app.
    split; [exact (proj1 (insert_glev _ _ _ _ _ EN Hab E))|]. intros. lia. }
  destruct (Nat.leb_spec (length b) 16) as [Hbs|Hbb]; [discriminate|].
  assert (Hah : (ah =? 0) = false) by (apply Nat.eqb_neq; lia). rewrite Hah in E. cbn [andb] in E. assert (Hbh : (bh =? 0) = false) by (apply Nat.eqb_neq; lia). rewrite Hbh in E.
  replace (length a - length a / 2) with al in MO by lia. replace (length a / 2) with ah in MO by lia. replace (length b - length b / 2) with bl in MO by lia. replace (length b / 2) with bh in MO by lia.
  rewrite !andb_true_iff in MO.
  assert (M1 : mul_ok f al bl = true) by tauto. assert (M2 : mul_ok f al bh = true) by tauto. assert (M3 : mul_ok f ah bl = true) by tauto. assert (M4 : mul_ok f ah bh = true) by tauto. clear MO.
  assert (Lal : length (firstn al a) = al) by (rewrite firstn_length; lia). assert (Lah : length (skipn al a) = ah) by (rewrite skipn_length; lia).
  assert (Lbl : length (firstn bl b) = bl) by (rewrite firstn_length; lia). assert (Lbh : length (skipn bl b) = bh) by (rewrite skipn_length; lia).
  pose proof (handles_firstn _ _ al _ Ha) as Hal. pose proof (handles_skipn _ _ al _ Ha) as Haht. pose proof (handles_firstn _ _ bl _ Hb) as Hbl. pose proof (handles_skipn _ _ bl _ Hb) as Hbht.
  assert (SUB : forall a b g, edges_ok g -> handles g TGgsw1 a -> handles g TGgsw1 b -> length a + length b < f -> mul_ok f (length a) (length b) = true -> forall g' r, gmul_impl lib f MGlev a b g = Ok (g', r) -> grows g g' /\ Forall (glev_op g') r).
  { intros a' b' g1 EN1 K1 K2 K3 K4 g2 r2 E2. split; [|exact (proj1 (IH _ _ _ _ _ EN1 K1 K2 K3 E2))]. pose proof (gmul_spec lib L f MGlev a' b' g1 EN1 K1 K2 K3) as SP. rewrite K4 in SP. destruct SP as (g3 & r3 & E3 & G3 & _). rewrite E2 in E3. injection E3 as <- <-. exact G3. }
  apply bind_ok in E. destruct E as ([g1 ll] & E1 & E). apply SUB in E1; auto; try lia; [|now rewrite Lal, Lbl]. destruct E1 as [G1 F1].
  apply bind_ok in E. destruct E as ([g2 lh] & E2 & E). apply SUB in E2; auto; try lia; [|now apply grows_ok in G1|eapply grows_handles; eauto|eapply grows_handles; eauto|now rewrite Lal, Lbh]. destruct E2 as [G2 F2].
  pose proof (grows_trans _ _ _ G1 G2) as G12.
  apply bind_ok in E. destruct E as ([g3 hl] & E3 & E). apply SUB in E3; auto; try lia; [|now apply grows_ok in G2|eapply grows_handles; eauto|eapply grows_handles; eauto|now rewrite Lah, Lbl]. destruct E3 as [G3 F3].
  pose proof (grows_trans _ _ _ G12 G3) as G13.
  apply bind_ok in E. destruct E as ([g4 hh] & E4 & E). apply SUB in E4; auto; try lia; [|now apply grows_ok in G3|eapply grows_handles; eauto|eapply grows_handles; eauto|now rewrite Lah, Lbh]. destruct E4 as [G4 F4].
  assert (K1 : Forall (glev_op g4) ll) by (eapply Forall_impl; [|exact F1]; intros n; apply glev_op_grows; exact (grows_trans _ _ _ (grows_trans _ _ _ G2 G3) G4)).
  assert (K2 : Forall (glev_op g4) lh) by (eapply Forall_impl; [|exact F2]; intros n; apply glev_op_grows; exact (grows_trans _ _ _ G3 G4)).
  assert (K3 : Forall (glev_op g4) hl) by (eapply Forall_impl; [|exact F3]; intros n; apply glev_op_grows; exact G4).
  apply bind_ok in E. destruct E as (bits & E5 & E).
  pose proof (encode_rel (fun n (_ : nat) => glev_op g4 n) 0 0 (length a) (length b) _ _ _ _ _ _ _ _ (Forall_diag _ _ K1) (Forall_diag _ _ K2) (Forall_diag _ _ K3) (Forall_diag _ _ F4)) as ER. rewrite E5 in ER. apply Forall_undiag in ER.
  destruct (gconvert_glev bits g4 (grows_ok _ _ G4) ER) as (g5 & bits' & E6 & G6 & NV). rewrite E6 in E. cbn [bind] in E.
  assert (H5 : handles g5 TGgsw1 bits').
  { destruct (gconvert_ok TGlwe1 TGgsw1 bits g4 (grows_ok _ _ G4)) as (g5' & bits'' & E6' & _ & H5 & _); [|rewrite E6 in E6'; injection E6' as <- <-; exact H5].
    apply Forall_forall. intros n Hn. destruct (proj1 (Forall_forall _ _) ER n Hn) as (op & N & _). cbn. unfold contains. now rewrite N. }
  destruct (insert_glev _ _ _ _ _ (grows_ok _ _ G6) H5 E) as [GO BL]. split; [exact GO|]. intros _ _ o n Ho Hn.
  destruct (mul_split f (to_bits (length a) (2 ^ Z.of_nat o)) (to_bits (length b) 1) al ah bl bh) as (v & _ & R); rewrite ?to_bits_length; auto.
  destruct (mul_split f (repeat false (length a)) (repeat false (length b)) al ah bl bh) as (v' & _ & R'); rewrite ?repeat_length; auto.
  rewrite !to_bits_length in R. rewrite !repeat_length in R'. apply (BL NV o n v v' _ _ Hn R R').
  - assert (Zo : (2 ^ Z.of_nat o < 2 ^ Z.of_nat (length a))%Z) by (apply Z.pow_lt_mono_r; lia). assert (Z1 : (1 < 2 ^ Z.of_nat (length b))%Z) by (apply Z.pow_gt_1; lia). assert (0 < 2 ^ Z.of_nat o)%Z by (apply Z.pow_pos_nonneg; lia).
    rewrite !uval_to_bits, !Z.mod_small, Z.mul_1_r by lia. rewrite to_bits_nth by lia. apply Z.pow2_bits_true. lia.
  - rewrite !uval_repeat_false, Z.mul_0_l, to_bits_nth by lia. apply Z.bits_0.
Qed.

Lemma fmul_glev : forall order a b c, (forall l, Permutation l (order l)) -> edges_ok (cg c) -> handles (cg c) TGgsw1 a -> handles (cg c) TGgsw1 b -> 16 < length a -> 16 < length b ->
  forall c' ns, fmul lib order Unsigned MGlev a b c = Ok (c', ns) -> Forall (no_value (cg c')) ns.
Proof.
  intros order a b c HO EN Ha Hb La Lb c' ns E. unfold fmul in E. apply bind_ok in E. destruct E as ([g1 [lo hi]] & E1 & E). unfold gappend_uint in E1. apply bind_ok in E1. destruct E1 as ([g1' p] & E0 & E1).
  destruct (Nat.leb_spec (length a) (length p)); [|discriminate]. injection E1 as -> <- <-.
  destruct (gmul_glev (S (length a + length b)) a b (cg c) _ _ EN Ha Hb ltac:(lia) E0) as [GO BL]. specialize (BL La Lb).
  assert (G : grows (cg c) g1). { pose proof (gmul_spec lib L (S (length a + length b)) MGlev a b (cg c) EN Ha Hb ltac:(lia)) as SP. destruct (mul_ok _ _ _); [|congruence]. destruct SP as (g3 & r3 & E3 & G3 & _). rewrite E0 in E3. injection E3 as <- <-. exact G3. }
  apply bind_ok in E. destruct E as ([out ren] & EP & E). apply bind_ok in E. destruct E as (lo' & EL & E). injection E as <- <-.
  assert (RC : forall r, In r (firstn (length a) p ++ existing_outputs (cg c)) -> contains g1 r = true).
  { intros r Hr. apply in_app_iff in Hr. destruct Hr as [Hr|Hr]; [|eapply grows_contains; [exact G|now apply existing_contains]]. apply in_firstn in Hr. destruct (proj1 (Forall_forall _ _) GO r Hr) as (op & N & _). unfold contains. now rewrite N. }
  destruct (prune_ok g1 _ (grows_ok _ _ G) RC order HO) as (out' & ren' & EP' & _ & A & _). rewrite EP in EP'. injection EP' as <- <-.
  destruct (lookup_all ren (firstn (length a) p) []) as (r & EL' & F).
  { intros x Hx. apply A. apply anc_root. apply in_app_iff. now left. }
  assert (lo' = r). { apply (f_equal (fun x => match x with Ok l => l | _ => [] end)) in EL'. cbn [app] in EL'. rewrite <- EL'. match type of EL with ?t = _ => change (lo' = match t with Ok l => l | _ => [] end) end. now rewrite EL. }
  subst lo'. cbn [cg with_graph]. apply Forall_forall. intros y Hy. apply In_nth_error in Hy. destruct Hy as [o Ho].
  assert (exists x, nth_error (firstn (length a) p) o = Some x) as [x Hx]. { destruct (nth_error (firstn (length a) p) o) eqn:Q; [eauto|]. apply nth_error_None in Q. rewrite (Forall2_len _ _ _ F) in Q. apply nth_error_None in Q. congruence. }
  pose proof (Forall2_nth_error_elim _ _ _ F o x y Hx Ho) as Hl. cbn in Hl.
  assert (Lo : o < length a). { assert (o < length (firstn (length a) p)) by (apply nth_error_Some; congruence). rewrite firstn_length in *. lia. }
  assert (Hx' : nth_error p o = Some x). { rewrite <- (firstn_skipn (length a) p). rewrite nth_error_app1; [exact Hx|]. apply nth_error_Some. congruence. }
  intros deg cells ou V. apply (BL o x ltac:(lia) Hx' deg cells ou). now apply (prune_values g1 _ (grows_ok _ _ G) RC order out ren HO EP x y Hl deg cells ou).
Qed.
End Lib.
