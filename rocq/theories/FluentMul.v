(** Graph-level multiplication: it builds a circuit exactly when the bit-level algorithm of Circuits.v succeeds, and for GLWE results
    the circuit computes the product. *)
From Verif Require Import Base BitsLemmas Graph MuxGraph SpecMux Circuits MulRecProofs FheGraph SpecFhe FheProofs2 FheProofs4 FheProofs5 FheProofs6 FluentInt Fluent SpecFluent FluentProofs FluentProofs2 FluentProofs3 FluentProofs5 FluentLib Spec Props_Circuits.
Ltac Zify.zify_post_hook ::= idtac.
Open Scope nat_scope.

(** ** The reduction encoding moves nodes as it moves bits *)
Lemma encode_bits : forall n m ll lh hl hh, encode_gradeschool_reduction n m ll lh hl hh = encode_reduction false n m ll lh hl hh.
Proof. reflexivity. Qed.
Lemma Forall2_seq : forall {A B} (R : A -> B -> Prop) f g k s, (forall i, s <= i < s + k -> Forall2 R (f i) (g i)) -> Forall2 R (flat_map f (seq s k)) (flat_map g (seq s k)).
Proof.
  intros A B R f g. induction k as [|k IH]; intros s H; cbn [seq flat_map]; [constructor|]. apply Forall2_app; [apply H; lia|]. apply IH. intros i Hi. apply H. lia.
Qed.
Lemma map_flat_map : forall {A B} (f : A -> B) l, map f l = flat_map (fun x => [f x]) l.
Proof. intros A B f l. induction l as [|x l IH]; cbn; [reflexivity|]. now rewrite IH. Qed.
Lemma Forall2_nth : forall {A B} (R : A -> B -> Prop) l l' d d' i, Forall2 R l l' -> i < length l -> R (nth i l d) (nth i l' d').
Proof. intros A B R l l' d d' i H. revert i. induction H as [|x y l l' Hx H IH]; intros i Hi; cbn [length] in Hi; [lia|]. destruct i; cbn [nth]; [auto|apply IH; lia]. Qed.
Lemma encode_rel : forall {A B} (R : A -> B -> Prop) d d' n m ll lh hl hh ll' lh' hl' hh',
  Forall2 R ll ll' -> Forall2 R lh lh' -> Forall2 R hl hl' -> Forall2 R hh hh' ->
  match encode_reduction d n m ll lh hl hh, encode_reduction d' n m ll' lh' hl' hh' with
  | Ok u, Ok v => Forall2 R u v
  | Panic, Panic => True
  | _, _ => False
  end.
Proof.
  intros A B R d d' n m ll lh hl hh ll' lh' hl' hh' H1 H2 H3 H4. unfold encode_reduction. destruct (partition_integer n) as [a_lo a_hi]. destruct (partition_integer m) as [b_lo b_hi].
  rewrite <- (Forall2_len _ _ _ H1), <- (Forall2_len _ _ _ H2), <- (Forall2_len _ _ _ H3), <- (Forall2_len _ _ _ H4).
  destruct (negb _) eqn:E; [exact Logic.I|]. apply negb_false_iff in E. rewrite !andb_true_iff, !Nat.eqb_eq, !Nat.leb_le in E. destruct (Nat.ltb_spec a_hi b_hi); [exact Logic.I|].
  rewrite !map_flat_map. repeat apply Forall2_app; apply Forall2_seq; intros i Hi; repeat constructor; apply Forall2_nth; auto; lia.
Qed.

(** ** Bit-level facts: what mul_impl_spec says about one level of the recursion *)
Lemma mul_small : forall f x y, mul_ok (S f) x y = true -> Nat.max x y <= 16 -> 0 < Nat.min x y.
Proof. intros f x y H K. cbn [mul_ok] in H. destruct (Nat.leb_spec (Nat.max x y) 16); [|lia]. now apply Nat.ltb_lt in H. Qed.
Lemma mul_split : forall f (a b : list bool) al ah bl bh, length b <= length a -> length a + length b <= f -> 16 < length a -> 16 < length b ->
  partition_integer (length a) = (al, ah) -> partition_integer (length b) = (bl, bh) ->
  mul_ok f al bl = true -> mul_ok f al bh = true -> mul_ok f ah bl = true -> mul_ok f ah bh = true ->
  exists bits, encode_gradeschool_reduction (length a) (length b)
      (to_bits (al + bl) (uval (firstn al a) * uval (firstn bl b))) (to_bits (al + bh) (uval (firstn al a) * uval (skipn bl b)))
      (to_bits (ah + bl) (uval (skipn al a) * uval (firstn bl b))) (to_bits (ah + bh) (uval (skipn al a) * uval (skipn bl b))) = Ok bits /\
    run_res (gradeschool_reduce (length a) (length b)) bits = Ok (to_bits (length a + length b) (uval a * uval b)).
Proof.
  intros f a b al ah bl bh LE F La Lb Pa Pb M1 M2 M3 M4. pose proof (partition_large _ _ _ Pa) as Ca. pose proof (partition_large _ _ _ Pb) as Cb.
  assert (Lal : length (firstn al a) = al) by (rewrite firstn_length; lia). assert (Lah : length (skipn al a) = ah) by (rewrite skipn_length; lia).
  assert (Lbl : length (firstn bl b) = bl) by (rewrite firstn_length; lia). assert (Lbh : length (skipn bl b) = bh) by (rewrite skipn_length; lia).
  pose proof (mul_impl_spec (S f) a b ltac:(lia)) as Q. cbn [mul_impl mul_ok] in Q. destruct (Nat.ltb_spec (length a) (length b)); [lia|]. rewrite Pa, Pb in Q.
  destruct (Nat.eqb_spec ah 0); [lia|]. destruct (Nat.eqb_spec bh 0); [lia|]. cbn [andb] in Q.
  replace (Nat.max (length a) (length b)) with (length a) in Q by lia. replace (Nat.min (length a) (length b)) with (length b) in Q by lia.
  destruct (Nat.leb_spec (length a) 16); [lia|]. destruct (Nat.leb_spec (length b) 16); [lia|].
  replace (length a - length a / 2) with al in Q by lia. replace (length a / 2) with ah in Q by lia. replace (length b - length b / 2) with bl in Q by lia. replace (length b / 2) with bh in Q by lia.
  rewrite !mul_impl_spec in Q by lia. rewrite Lal, Lah, Lbl, Lbh, M1, M2, M3, M4 in Q. cbn [bind andb] in Q.
  destruct (encode_gradeschool_reduction _ _ _ _ _ _) as [bits| |]; cbn [bind] in Q; try discriminate. exists bits. auto.
Qed.

Section Lib.
Context (lib : blk -> res (mgraph * list nat)) (L : lib_ok lib).

Lemma insert_total : forall b hosts mode g, edges_ok g -> handles g TGgsw1 hosts ->
  insert lib b hosts mode g = Panic \/ exists g' outs, insert lib b hosts mode g = Ok (g', outs) /\ length outs = out_len b /\ grows g g' /\ handles g' (mode_ty mode) outs.
Proof.
  intros b hosts mode g EN H. destruct (builder b) as [c| |] eqn:B.
  - destruct (Nat.eq_dec (length hosts) (c_arity c)) as [A|A].
    + right. destruct (insert_ok lib L b c hosts mode g EN B A H) as (g' & outs & E & G & H' & LO & _). exists g', outs. split; [exact E|]. split; [|auto].
      rewrite <- (LO (repeat false (c_arity c)) (repeat_length _ _)). apply out_len_ok; [auto|apply repeat_length].
    + left. apply insert_panics; auto. intros v LV. rewrite B. cbn [run_res bind]. unfold run_circuit. destruct (Nat.eqb_spec (length v) (c_arity c)); [congruence|reflexivity].
  - left. unfold insert. pose proof (L b) as LB. rewrite B in LB. now rewrite LB.
  - left. unfold insert. pose proof (L b) as LB. rewrite B in LB. now rewrite LB.
Qed.
Lemma mode_handles : forall mode g ns, handles g (mode_ty mode) ns <-> Forall (fun n => contains g n = true) ns.
Proof. intros [] g ns; reflexivity. Qed.

(** The multiplication by sizes: it panics iff the bit-level algorithm does; otherwise the result has the right number of nodes, and
    holds the product if the result type is GLWE or no recursion happens. *)
Lemma gmul_spec : forall fuel mode a b g, edges_ok g -> handles g TGgsw1 a -> handles g TGgsw1 b -> length a + length b < fuel ->
  if mul_ok fuel (length a) (length b) then
    exists g' r, gmul_impl lib fuel mode a b g = Ok (g', r) /\ grows g g' /\ handles g' (mode_ty mode) r /\ length r = length a + length b /\
      forall deg cells x y, 0 < deg -> (mode = MGlwe \/ length a <= 16 /\ length b <= 16) -> holds deg cells g TGgsw1 a x -> holds deg cells g TGgsw1 b y ->
        holds deg cells g' (mode_ty mode) r (to_bits (length a + length b) (uval x * uval y))
  else gmul_impl lib fuel mode a b g = Panic.
Proof.
  induction fuel as [|f IH]; intros mode a0 b0 g EN Ha0 Hb0 HF; [lia|]. cbn [gmul_impl].
  assert (Hsw : exists a b, (if length a0 <? length b0 then (b0, a0) else (a0, b0)) = (a, b) /\
     length a = Nat.max (length a0) (length b0) /\ length b = Nat.min (length a0) (length b0) /\ handles g TGgsw1 a /\ handles g TGgsw1 b /\
     forall deg cells x y, holds deg cells g TGgsw1 a0 x -> holds deg cells g TGgsw1 b0 y -> exists x' y', holds deg cells g TGgsw1 a x' /\ holds deg cells g TGgsw1 b y' /\ (uval x * uval y = uval x' * uval y')%Z).
  { destruct (Nat.ltb_spec (length a0) (length b0)); [exists b0, a0|exists a0, b0]; (split; [reflexivity|]); (split; [lia|]); (split; [lia|]); (split; [auto|]); (split; [auto|]); intros deg cells x y Wx Wy;
      [exists y, x|exists x, y]; (split; [auto|]); (split; [auto|]); ring. }
  destruct Hsw as (a & b & -> & La & Lb & Ha & Hb & Hv).
  cbn [mul_ok]. rewrite <- La, <- Lb. assert (Hle : length b <= length a) by lia. assert (Hf' : length a + length b <= f) by lia.
  replace (length a0 + length b0) with (length a + length b) by lia.
  assert (Hsm : (length a0 <= 16 /\ length b0 <= 16) <-> length a <= 16) by lia.
  (* enough for the swapped operands *)
  assert (EN' : forall mode0 (r : res (fgraph * list nat)), (exists g' r0, r = Ok (g', r0) /\ grows g g' /\ handles g' (mode_ty mode0) r0 /\ length r0 = length a + length b /\
      forall deg cells x y, 0 < deg -> (mode0 = MGlwe \/ length a <= 16) -> holds deg cells g TGgsw1 a x -> holds deg cells g TGgsw1 b y -> holds deg cells g' (mode_ty mode0) r0 (to_bits (length a + length b) (uval x * uval y))) ->
    exists g' r0, r = Ok (g', r0) /\ grows g g' /\ handles g' (mode_ty mode0) r0 /\ length r0 = length a + length b /\
      forall deg cells x y, 0 < deg -> (mode0 = MGlwe \/ length a0 <= 16 /\ length b0 <= 16) -> holds deg cells g TGgsw1 a0 x -> holds deg cells g TGgsw1 b0 y -> holds deg cells g' (mode_ty mode0) r0 (to_bits (length a + length b) (uval x * uval y))).
  { intros mode0 r (g' & r0 & E & G & HH & LL & V). exists g', r0. split; [exact E|]. split; [exact G|]. split; [exact HH|]. split; [exact LL|]. intros deg cells x y D M Wx Wy.
    destruct (Hv deg cells x y Wx Wy) as (x' & y' & Wx' & Wy' & ->). apply V; auto. destruct M; [now left|right; now apply Hsm]. }
  clear Hv Hsm La Lb Ha0 Hb0 HF.
  destruct (partition_integer (length a)) as [al ah] eqn:Pa. destruct (partition_integer (length b)) as [bl bh] eqn:Pb.
  pose proof (partition_large _ _ _ Pa) as Ca. pose proof (partition_large _ _ _ Pb) as Cb.
  destruct (Nat.leb_spec (length a) 16) as [Hs|Hbig].
  { assert (ah = 0 /\ bh = 0) as [-> ->] by lia. cbn [Nat.eqb andb]. destruct (Nat.ltb_spec 0 (length b)) as [Hp|Hp].
    - apply EN'. assert (Hab : handles g TGgsw1 (a ++ b)) by now apply handles_app.
      destruct (insert_run lib L (BMul (length a) (length b)) (a ++ b) mode g (repeat false (length a) ++ repeat false (length b)) (to_bits (length a + length b) (uval (repeat false (length a)) * uval (repeat false (length b))))) as (g' & r & E & G & H' & LR & V); auto.
      + rewrite !app_length, !repeat_length. reflexivity.
      + cbn [builder]. pose proof (multiplier_multiplies (repeat false (length a)) (repeat false (length b))) as Q. rewrite !repeat_length in Q. apply Q; lia.
      + exists g', r. split; [exact E|]. split; [exact G|]. split; [exact H'|]. split; [now rewrite to_bits_length in LR|]. intros deg cells x y D _ Wx Wy. apply (V deg cells (x ++ y)); [now apply holds_app|].
        cbn [builder]. rewrite (holds_length _ _ _ _ _ _ Wx), (holds_length _ _ _ _ _ _ Wy) in *. apply multiplier_multiplies; lia.
    - apply insert_panics; auto. intros v _. cbn [builder]. unfold run_res, unsigned_multiplier. replace (length b) with 0 by lia. rewrite orb_true_r. reflexivity. }
  assert (Hah : (ah =? 0) = false) by (apply Nat.eqb_neq; lia). rewrite Hah. cbn [andb].
  assert (Lal : length (firstn al a) = al) by (rewrite firstn_length; lia). assert (Lah : length (skipn al a) = ah) by (rewrite skipn_length; lia).
  assert (Lbl : length (firstn bl b) = bl) by (rewrite firstn_length; lia). assert (Lbh : length (skipn bl b) = bh) by (rewrite skipn_length; lia).
  pose proof (handles_firstn _ _ al _ Ha) as Hal. pose proof (handles_skipn _ _ al _ Ha) as Haht. pose proof (handles_firstn _ _ bl _ Hb) as Hbl. pose proof (handles_skipn _ _ bl _ Hb) as Hbht.
  destruct (Nat.leb_spec (length b) 16) as [Hbs|Hbb].
  { assert (bh = 0 /\ bl = length b) as [-> Ebl] by lia. cbn [Nat.eqb].
    pose proof (IH mode (firstn al a) (firstn bl b) g EN Hal Hbl ltac:(lia)) as I1. rewrite Lal, Lbl in I1. destruct (mul_ok f al bl); [|now rewrite I1]. destruct I1 as (g1 & ll & E1 & G1 & H1 & L1 & _). rewrite E1. cbn [bind].
    pose proof (IH mode (skipn al a) (firstn bl b) g1 (grows_ok _ _ G1) (grows_handles _ _ _ _ G1 Haht) (grows_handles _ _ _ _ G1 Hbl) ltac:(lia)) as I2. rewrite Lah, Lbl in I2. destruct (mul_ok f ah bl); [|now rewrite I2]. destruct I2 as (g2 & hl & E2 & G2 & H2 & L2 & _). rewrite E2. cbn [bind].
    assert (Hc : handles g2 (mode_ty mode) (interleave (skipn al ll) (firstn al hl) ++ skipn al hl)).
    { apply handles_app; [apply handles_interleave; [apply handles_skipn; eapply grows_handles; eauto|now apply handles_firstn]|now apply handles_skipn]. }
    destruct (gconvert_ok (mode_ty mode) TGgsw1 _ g2 (grows_ok _ _ G2) Hc) as (g3 & ins & E3 & G3 & H3 & L3 & _). rewrite E3. cbn [bind].
    destruct (insert_total (BAdd bl (ah + bl)) ins mode g3 (grows_ok _ _ G3) H3) as [E4|(g4 & outs & E4 & L4 & _)]; rewrite E4; cbn [bind]; [reflexivity|].
    rewrite L4, firstn_length, L1. cbn [out_len]. destruct (Nat.eqb_spec (Nat.min al (al + bl) + (Nat.max (ah + bl) bl + 1)) (length a + length b)); [lia|reflexivity]. }
  assert (Hbh : (bh =? 0) = false) by (apply Nat.eqb_neq; lia). rewrite Hbh.
  replace (length a - length a / 2) with al by lia. replace (length a / 2) with ah by lia. replace (length b - length b / 2) with bl by lia. replace (length b / 2) with bh by lia.
  pose proof (IH mode (firstn al a) (firstn bl b) g EN Hal Hbl ltac:(lia)) as I1. rewrite Lal, Lbl in I1. destruct (mul_ok f al bl) eqn:M1; [|now rewrite I1]. destruct I1 as (g1 & ll & E1 & G1 & H1 & L1 & V1). rewrite E1. cbn [bind andb].
  pose proof (IH mode (firstn al a) (skipn bl b) g1 (grows_ok _ _ G1) (grows_handles _ _ _ _ G1 Hal) (grows_handles _ _ _ _ G1 Hbht) ltac:(lia)) as I2. rewrite Lal, Lbh in I2. destruct (mul_ok f al bh) eqn:M2; [|now rewrite I2]. destruct I2 as (g2 & lh & E2 & G2 & H2 & L2 & V2). rewrite E2. cbn [bind andb].
  pose proof (grows_trans _ _ _ G1 G2) as G12.
  pose proof (IH mode (skipn al a) (firstn bl b) g2 (grows_ok _ _ G2) (grows_handles _ _ _ _ G12 Haht) (grows_handles _ _ _ _ G12 Hbl) ltac:(lia)) as I3. rewrite Lah, Lbl in I3. destruct (mul_ok f ah bl) eqn:M3; [|now rewrite I3]. destruct I3 as (g3 & hl & E3 & G3 & H3 & L3 & V3). rewrite E3. cbn [bind andb].
  pose proof (grows_trans _ _ _ G12 G3) as G13.
  pose proof (IH mode (skipn al a) (skipn bl b) g3 (grows_ok _ _ G3) (grows_handles _ _ _ _ G13 Haht) (grows_handles _ _ _ _ G13 Hbht) ltac:(lia)) as I4. rewrite Lah, Lbh in I4. destruct (mul_ok f ah bh) eqn:M4; [|now rewrite I4]. destruct I4 as (g4 & hh & E4 & G4 & H4 & L4 & V4). rewrite E4. cbn [bind andb].
  pose proof (grows_trans _ _ _ G13 G4) as G14. apply EN'.
  assert (K1 : handles g4 (mode_ty mode) ll) by (eapply grows_handles; [exact (grows_trans _ _ _ (grows_trans _ _ _ G2 G3) G4)|exact H1]).
  assert (K2 : handles g4 (mode_ty mode) lh) by (eapply grows_handles; [exact (grows_trans _ _ _ G3 G4)|exact H2]).
  assert (K3 : handles g4 (mode_ty mode) hl) by (eapply grows_handles; [exact G4|exact H3]).
  apply mode_handles in K1, K2, K3. apply mode_handles in H4.
  (* the encoding succeeds *)
  assert (F2 : forall (l : list nat) (z : list bool), length l = length z -> Forall (fun n => contains g4 n = true) l -> Forall2 (fun n (_ : bool) => contains g4 n = true) l z).
  { clear. intros l z E F. revert z E. induction F as [|n l Hn F IHF]; intros [|b z] E; try discriminate; constructor; auto. }
  destruct (mul_split f (repeat false (length a)) (repeat false (length b)) al ah bl bh) as (bits0 & ENC0 & RUN0); rewrite ?repeat_length; auto. rewrite !repeat_length in ENC0, RUN0.
  match type of ENC0 with encode_gradeschool_reduction _ _ ?u1 ?u2 ?u3 ?u4 = _ =>
    pose proof (encode_rel (fun n (_ : bool) => contains g4 n = true) 0 false (length a) (length b) ll lh hl hh u1 u2 u3 u4 (F2 ll u1 ltac:(now rewrite to_bits_length) K1) (F2 lh u2 ltac:(now rewrite to_bits_length) K2) (F2 hl u3 ltac:(now rewrite to_bits_length) K3) (F2 hh u4 ltac:(now rewrite to_bits_length) H4)) as ER end.
  rewrite encode_bits in ENC0. rewrite ENC0 in ER. destruct (encode_reduction 0 (length a) (length b) ll lh hl hh) as [bits| |] eqn:ENC; [|contradiction|contradiction]. cbn [bind].
  assert (HB : handles g4 TGlwe1 bits). { clear - ER. induction ER; constructor; auto. }
  destruct (gconvert_ok TGlwe1 TGgsw1 bits g4 (grows_ok _ _ G4) HB) as (g5 & bits' & E5 & G5 & H5 & L5 & V5). rewrite E5. cbn [bind].
  destruct (insert_run lib L (BReduce (length a) (length b)) bits' mode g5 bits0 (to_bits (length a + length b) (uval (repeat false (length a)) * uval (repeat false (length b))))) as (g6 & outs & E6 & G6 & H6 & L6 & V6); auto.
  { now apply grows_ok in G5. }
  { rewrite L5. symmetry. exact (Forall2_len _ _ _ ER). }
  exists g6, outs. split; [exact E6|]. split; [exact (grows_trans _ _ _ G14 (grows_trans _ _ _ G5 G6))|]. split; [exact H6|]. split; [now rewrite to_bits_length in L6|].
  intros deg cells x y D M Wx Wy. assert (mode = MGlwe) as -> by (destruct M; [auto|lia]). cbn [mode_ty] in *. pose proof (holds_length _ _ _ _ _ _ Wx) as LX. pose proof (holds_length _ _ _ _ _ _ Wy) as LY.
  destruct (mul_split f x y al ah bl bh) as (bits1 & ENC1 & RUN1); rewrite <- ?LX, <- ?LY; auto. rewrite <- LX, <- LY in ENC1, RUN1.
  apply (V6 deg cells bits1); [|exact RUN1]. apply V5; [auto|]. rewrite encode_bits in ENC1.
  assert (W1 : holds deg cells g4 TGlwe1 ll (to_bits (al + bl) (uval (firstn al x) * uval (firstn bl y)))).
  { eapply grows_holds; [exact (grows_trans _ _ _ (grows_trans _ _ _ G2 G3) G4)|]. apply V1; auto using holds_firstn. }
  assert (W2 : holds deg cells g4 TGlwe1 lh (to_bits (al + bh) (uval (firstn al x) * uval (skipn bl y)))).
  { eapply grows_holds; [exact (grows_trans _ _ _ G3 G4)|]. apply V2; auto; (eapply grows_holds; [exact G1|]); auto using holds_firstn, holds_skipn. }
  assert (W3 : holds deg cells g4 TGlwe1 hl (to_bits (ah + bl) (uval (skipn al x) * uval (firstn bl y)))).
  { eapply grows_holds; [exact G4|]. apply V3; auto; (eapply grows_holds; [exact G12|]); auto using holds_firstn, holds_skipn. }
  assert (W4 : holds deg cells g4 TGlwe1 hh (to_bits (ah + bh) (uval (skipn al x) * uval (skipn bl y)))).
  { apply V4; auto; (eapply grows_holds; [exact G13|]); auto using holds_firstn, holds_skipn. }
  pose proof (encode_rel _ 0 false (length a) (length b) _ _ _ _ _ _ _ _ W1 W2 W3 W4) as EV. rewrite ENC, ENC1 in EV. exact EV.
Qed.
End Lib.
