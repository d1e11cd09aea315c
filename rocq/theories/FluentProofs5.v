(** Comparison, addition, subtraction and bitwise and through the fluent API. *)
From Verif Require Import Base BitsLemmas Graph MuxGraph SpecMux Circuits FheGraph SpecFhe FheProofs2 FheProofs4 FheProofs5 FheProofs6 FluentInt Fluent SpecFluent FluentProofs FluentProofs2 FluentProofs3 Spec Props_Circuits.
Ltac Zify.zify_post_hook ::= idtac.
Open Scope nat_scope.

Lemma pad_interleave_eq : forall z a b, pad_interleave z a b = interleave (a ++ repeat z (length b - length a)) (b ++ repeat z (length a - length b)).
Proof.
  intros z. unfold pad_interleave. induction a as [|x a IH]; intros b.
  - cbn [interleave length skipn app]. rewrite skipn_nil, Nat.sub_0_r. cbn [flat_map app]. replace (0 - length b) with 0 by lia. cbn [repeat]. rewrite app_nil_r. clear. induction b as [|y b IH]; [reflexivity|]. cbn. now rewrite IH.
  - destruct b as [|y b].
    + cbn [interleave length skipn app]. rewrite Nat.sub_0_r. cbn [flat_map app]. cbn [repeat]. rewrite !app_nil_r. clear. cbn [length repeat interleave]. f_equal. f_equal. induction a as [|x0 a IH]; [reflexivity|]. cbn. now rewrite IH.
    + cbn [interleave length skipn app Nat.sub]. f_equal. f_equal. apply IH.
Qed.

Section Lib.
Context (lib : blk -> res (mgraph * list nat)) (L : lib_ok lib).

(** Inserting the circuit of builder b: what running the builder's circuit gives, the nodes hold. *)
Lemma insert_run : forall b hosts mode g v0 out0, edges_ok g -> handles g TGgsw1 hosts -> length v0 = length hosts -> run_res (builder b) v0 = Ok out0 ->
  exists g' outs, insert lib b hosts mode g = Ok (g', outs) /\ grows g g' /\ handles g' (mode_ty mode) outs /\ length outs = length out0 /\
    forall deg cells v out, holds deg cells g TGgsw1 hosts v -> run_res (builder b) v = Ok out -> holds deg cells g' (mode_ty mode) outs out.
Proof.
  intros b hosts mode g v0 out0 EN H LV R. apply run_builder in R. destruct R as (c & B & A & <-).
  destruct (insert_ok lib L b c hosts mode g EN B) as (g' & outs & E & G & H' & LO & V); [congruence|exact H|].
  exists g', outs. split; [exact E|]. split; [exact G|]. split; [exact H'|]. split; [symmetry; apply LO; congruence|].
  intros deg cells v out W RV. apply run_builder in RV. destruct RV as (c' & B' & A' & <-). assert (c' = c) as -> by congruence. now apply V.
Qed.
Lemma insert_panics : forall b hosts mode g, (forall v, length v = length hosts -> run_res (builder b) v = Panic) -> insert lib b hosts mode g = Panic.
Proof.
  intros b hosts mode g H. pose proof (L b) as LB. specialize (H (repeat false (length hosts)) (repeat_length _ _)). unfold run_res in H. unfold insert.
  destruct (builder b) as [c| |]; [|now rewrite LB|now rewrite LB]. destruct LB as (mc & ins & E & [_ AR _]). rewrite E. cbn [bind] in *. unfold run_circuit in H. rewrite repeat_length in H.
  destruct (Nat.eqb_spec (length hosts) (c_arity c)) as [Q|Q]; [discriminate|]. unfold insert_mux. destruct (Nat.eqb_spec (length ins) (length hosts)); [congruence|]. reflexivity.
Qed.

Definition zext (n : nat) (x : list bool) : list bool := x ++ repeat false (n - length x).
Lemma zext_length : forall n x, length x <= n -> length (zext n x) = n.
Proof. intros. unfold zext. rewrite app_length, repeat_length. lia. Qed.
Lemma uval_zext : forall n x, uval (zext n x) = uval x.
Proof. intros. unfold zext. rewrite uval_app, uval_repeat_false. ring. Qed.
Lemma compare_ok : forall bo mode a b c (f : list bool -> list bool -> bool), ctx_ok c -> 0 < Nat.max (length b) (length a) ->
  (forall x y, length x = Nat.max (length b) (length a) -> length y = length x -> run_res (builder (bo (Nat.max (length b) (length a)))) (interleave x y) = Ok [f x y]) ->
  handles (cg c) TGgsw1 a -> handles (cg c) TGgsw1 b ->
  exists c' n, compare_with lib bo mode a b c = Ok (c', [n]) /\ ctx_ok c' /\ grows (cg c) (cg c') /\ handle (cg c') (mode_ty mode) n /\
    forall deg cells x y, holds deg cells (cg c) TGgsw1 a x -> holds deg cells (cg c) TGgsw1 b y ->
      carries deg cells (cg c') n (enc_bit deg (mode_ty mode) (f (zext (Nat.max (length b) (length a)) x) (zext (Nat.max (length b) (length a)) y))).
Proof.
  intros bo mode a b c f C P F Ha Hb. unfold compare_with. set (m := Nat.max (length b) (length a)) in *. pose proof (proj1 C) as EN.
  assert (exists mc ins, lib (bo m) = Ok (mc, ins)) as (mc & ins & EL).
  { pose proof (L (bo m)) as LB. specialize (F (repeat false m) (repeat false m) (repeat_length _ _) eq_refl). apply run_builder in F. destruct F as (c0 & B & _). rewrite B in LB. destruct LB as (mc & ins & E & _). eauto. }
  rewrite EL. cbn [bind]. rewrite add_node_extend. set (g1 := extend (cg c) [FZero TGgsw1] []). set (z := size (cg c)).
  assert (G1 : grows (cg c) g1) by (apply extend_grows; auto; intros s t l []).
  assert (N1 : node g1 z = Some (FZero TGgsw1)) by (unfold g1, z; rewrite <- (Nat.add_0_r (size (cg c))); now rewrite extend_node_new).
  assert (I1 : in_edges g1 z = []) by (unfold g1, z; rewrite extend_in_new by (auto; lia); reflexivity).
  assert (Hz : handle g1 TGgsw1 z) by (exists (FZero TGgsw1); auto).
  assert (Ha1 := grows_handles _ _ _ _ G1 Ha). assert (Hb1 := grows_handles _ _ _ _ G1 Hb).
  rewrite pad_interleave_eq. set (hosts := interleave _ _). assert (LH : length hosts = 2 * m) by (unfold hosts; rewrite interleave_length; rewrite !app_length, !repeat_length; unfold m; lia).
  destruct (insert_run (bo m) hosts mode g1 (interleave (repeat false m) (repeat false m)) [f (repeat false m) (repeat false m)]) as (g2 & outs & E2 & G2 & H2 & L2 & V2).
  - now apply grows_ok in G1.
  - apply handles_interleave; (apply handles_app; [assumption|now apply handles_repeat]).
  - rewrite interleave_length, repeat_length by reflexivity. lia.
  - apply F; rewrite repeat_length; auto.
  - rewrite E2. cbn [bind]. destruct outs as [|o [|]]; try discriminate. pose proof (grows_trans _ _ _ G1 G2) as G. exists (with_graph c g2), o. split; [reflexivity|]. split; [now apply with_graph_ok|].
    split; [exact G|]. inversion H2. subst. split; [assumption|]. intros deg cells x y Wx Wy. pose proof (holds_length _ _ _ _ _ _ Wx) as LX. pose proof (holds_length _ _ _ _ _ _ Wy) as LY.
    assert (Wz : carries deg cells g1 z (enc_bit deg TGgsw1 false)) by (eapply node_fvalue; [exact N1|rewrite I1; constructor|reflexivity]).
    assert (W : holds deg cells g1 TGgsw1 hosts (interleave (zext m x) (zext m y))).
    { unfold hosts, zext. apply holds_interleave.
      - replace (m - length x) with (length b - length a) by (unfold m; lia). apply holds_app; [eapply grows_holds; eauto|now apply holds_repeat].
      - replace (m - length y) with (length a - length b) by (unfold m; lia). apply holds_app; [eapply grows_holds; eauto|now apply holds_repeat].
      - rewrite !app_length, !repeat_length. lia. }
    specialize (V2 deg cells _ [f (zext m x) (zext m y)] W). assert (V3 : holds deg cells g2 (mode_ty mode) [o] [f (zext m x) (zext m y)]).
    { apply V2. apply F; rewrite !zext_length by (unfold m; lia); reflexivity. }
    inversion V3. assumption.
Qed.

(** What the signed comparison reads: the shorter operand is extended with zeros. *)
Lemma cmp_ok : forall sg gt eq mode a b c, ctx_ok c -> 0 < Nat.max (length b) (length a) -> handles (cg c) TGgsw1 a -> handles (cg c) TGgsw1 b ->
  exists c' n, cmp lib sg gt eq mode a b c = Ok (c', [n]) /\ ctx_ok c' /\ grows (cg c) (cg c') /\ handle (cg c') (mode_ty mode) n /\
    forall deg cells x y, holds deg cells (cg c) TGgsw1 a x -> holds deg cells (cg c) TGgsw1 b y ->
      carries deg cells (cg c') n (enc_bit deg (mode_ty mode)
        (match sg with Unsigned => rel gt eq (uval x) (uval y) | Signed => rel gt eq (sval (zext (Nat.max (length b) (length a)) x)) (sval (zext (Nat.max (length b) (length a)) y)) end)).
Proof.
  intros sg gt eq mode a b c C P Ha Hb. unfold cmp. set (m := Nat.max (length b) (length a)) in *.
  destruct (compare_ok (fun n => BCmp sg n gt eq) mode a b c (fun x y => match sg with Unsigned => rel gt eq (uval x) (uval y) | Signed => rel gt eq (sval x) (sval y) end) C P) as (c' & n & E & C' & G & H & V); auto.
  - intros x y LX LY. fold m in LX |- *. rewrite <- LX. destruct sg; cbn [builder]; [apply comparison_unsigned|apply comparison_signed]; lia.
  - exists c', n. split; [exact E|]. split; [exact C'|]. split; [exact G|]. split; [exact H|]. intros deg cells x y Wx Wy. specialize (V deg cells x y Wx Wy). fold m in V. destruct sg; rewrite ?uval_zext in V; exact V.
Qed.
Lemma feq_ok : forall (neg : bool) mode a b c, ctx_ok c -> 0 < Nat.max (length b) (length a) -> handles (cg c) TGgsw1 a -> handles (cg c) TGgsw1 b ->
  exists c' n, (if neg then fneq lib mode a b c else feq lib mode a b c) = Ok (c', [n]) /\ ctx_ok c' /\ grows (cg c) (cg c') /\ handle (cg c') (mode_ty mode) n /\
    forall deg cells x y, holds deg cells (cg c) TGgsw1 a x -> holds deg cells (cg c) TGgsw1 b y ->
      carries deg cells (cg c') n (enc_bit deg (mode_ty mode) (xorb neg (uval x =? uval y)%Z)).
Proof.
  intros neg mode a b c C P Ha Hb. set (m := Nat.max (length b) (length a)) in *.
  destruct (compare_ok (if neg then BNeq else BEq) mode a b c (fun x y => xorb neg (uval x =? uval y)%Z) C P) as (c' & n & E & C' & G & H & V); auto.
  - intros x y LX LY. fold m in LX |- *. rewrite <- LX. destruct (comparison_equal x y) as [K1 K2]; [lia|auto|]. destruct neg; cbn [builder xorb]; [rewrite K2|rewrite K1]; [|destruct (uval x =? uval y)%Z; reflexivity].
    destruct (uval x =? uval y)%Z; reflexivity.
  - exists c', n. split; [destruct neg; exact E|]. split; [exact C'|]. split; [exact G|]. split; [exact H|]. intros deg cells x y Wx Wy. specialize (V deg cells x y Wx Wy). now rewrite !uval_zext in V.
Qed.

Lemma interleave_firstn : forall {A} (a b : list A), length a <= length b -> interleave a b = interleave a (firstn (length a) b).
Proof. intros A. induction a as [|x a IH]; intros [|y b] H; cbn in *; auto; try lia. f_equal. f_equal. apply IH. lia. Qed.
Lemma interleave_len : forall {A} (a b : list A), length (interleave a b) = 2 * Nat.min (length a) (length b).
Proof. intros A. induction a as [|x a IH]; intros [|y b]; cbn [interleave length]; auto. rewrite IH. lia. Qed.
Lemma binop_ok : forall b0 mode a b c (f : list bool -> list bool -> list bool), ctx_ok c -> length a <= length b ->
  (forall x y, length x = length a -> length y = length x -> run_res (builder b0) (interleave x y) = Ok (f x y) /\ length a <= length (f x y)) ->
  handles (cg c) TGgsw1 a -> handles (cg c) TGgsw1 b ->
  exists c' r, binop lib b0 mode a b c = Ok (c', r) /\ ctx_ok c' /\ grows (cg c) (cg c') /\ handles (cg c') (mode_ty mode) r /\ length r = length a /\
    forall deg cells x y, holds deg cells (cg c) TGgsw1 a x -> holds deg cells (cg c) TGgsw1 b y ->
      holds deg cells (cg c') (mode_ty mode) r (firstn (length a) (f x (firstn (length a) y))).
Proof.
  intros b0 mode a b c f C LE F Ha Hb. unfold binop. pose proof (proj1 C) as EN. rewrite interleave_firstn by auto. set (hosts := interleave _ _).
  assert (LF : length (firstn (length a) b) = length a) by (rewrite firstn_length; lia).
  assert (LH : length hosts = 2 * length a) by (unfold hosts; rewrite interleave_length; lia). set (z := repeat false (length a)).
  destruct (F z z) as [F1 F2]; [apply repeat_length|reflexivity|].
  destruct (insert_run b0 hosts mode (cg c) (interleave z z) (f z z)) as (g2 & outs & E2 & G2 & H2 & L2 & V2); auto.
  - apply handles_interleave; [auto|now apply handles_firstn].
  - rewrite interleave_length by auto. unfold z. rewrite repeat_length. lia.
  - rewrite E2. cbn [bind]. exists (with_graph c g2), (firstn (length a) outs). split; [reflexivity|]. split; [now apply with_graph_ok|]. split; [exact G2|]. split; [now apply handles_firstn|].
    split; [rewrite firstn_length; lia|]. intros deg cells x y Wx Wy. pose proof (holds_length _ _ _ _ _ _ Wx) as LX. pose proof (holds_length _ _ _ _ _ _ Wy) as LY.
    apply holds_firstn. apply (V2 deg cells (interleave x (firstn (length a) y))).
    + unfold hosts. apply holds_interleave; [auto|now apply holds_firstn|lia].
    + apply F; [auto|]. rewrite firstn_length. lia.
Qed.
Lemma binop_short_panics : forall b0 mode a b c, length b < length a -> (forall v, length v = 2 * length b -> run_res (builder b0) v = Panic) -> binop lib b0 mode a b c = Panic.
Proof. intros b0 mode a b c H K. unfold binop. rewrite insert_panics; [reflexivity|]. intros v LV. apply K. rewrite LV, interleave_len. lia. Qed.

Lemma firstn_to_bits : forall n m z, n <= m -> firstn n (to_bits m z) = to_bits n z.
Proof. intros n m z H. replace m with (n + (m - n)) by lia. rewrite to_bits_app, firstn_app, to_bits_length, Nat.sub_diag. cbn [firstn]. rewrite app_nil_r. rewrite <- (to_bits_length n z) at 1. apply firstn_all. Qed.
Lemma uval_firstn_to_bits : forall n m x y, (n <= m)%nat -> n <= length y -> to_bits n (x + uval (firstn n y)) = to_bits n (x + uval y).
Proof.
  intros n m x y _ H. rewrite <- to_bits_mod, <- (to_bits_mod n (x + uval y)). f_equal. rewrite (firstn_uval n y H). rewrite Z.add_assoc, (Z.mul_comm (2 ^ _)), Z.mod_add; [reflexivity|].
  pose proof (pow2_pos (Z.of_nat n)). lia.
Qed.

(** add and sub wrap modulo 2^(length a); the right operand may be longer, not shorter. *)
Lemma fadd_ok : forall mode a b c, ctx_ok c -> 0 < length a <= length b -> handles (cg c) TGgsw1 a -> handles (cg c) TGgsw1 b ->
  exists c' r, fadd lib mode a b c = Ok (c', r) /\ ctx_ok c' /\ grows (cg c) (cg c') /\ handles (cg c') (mode_ty mode) r /\ length r = length a /\
    forall deg cells x y, holds deg cells (cg c) TGgsw1 a x -> holds deg cells (cg c) TGgsw1 b y ->
      holds deg cells (cg c') (mode_ty mode) r (to_bits (length a) (uval x + uval y)).
Proof.
  intros mode a b c C LE Ha Hb. unfold fadd.
  destruct (binop_ok (BAdd (length a) (length a)) mode a b c (fun x y => to_bits (length a + 1) (uval x + uval y)) C) as (c' & r & E & C' & G & H & LR & V); auto; try lia.
  - intros x y LX LY. rewrite to_bits_length. split; [|lia]. cbn [builder]. pose proof (adder_adds None x y) as Q. cbn [is_some carry_z] in Q. unfold adder_inputs in Q. cbn [app] in Q.
    rewrite LY, LX, Nat.max_id in Q. rewrite (skipn_all2 x), (skipn_all2 y), !app_nil_r, Z.add_0_r in Q by lia. apply Q; lia.
  - exists c', r. split; [exact E|]. split; [exact C'|]. split; [exact G|]. split; [exact H|]. split; [exact LR|]. intros deg cells x y Wx Wy. pose proof (holds_length _ _ _ _ _ _ Wy) as LY. specialize (V deg cells x y Wx Wy).
    rewrite firstn_to_bits in V by lia. rewrite <- (uval_firstn_to_bits _ (length a)) by lia. exact V.
Qed.
Lemma fsub_ok : forall mode a b c, ctx_ok c -> 0 < length a <= length b -> handles (cg c) TGgsw1 a -> handles (cg c) TGgsw1 b ->
  exists c' r, fsub lib mode a b c = Ok (c', r) /\ ctx_ok c' /\ grows (cg c) (cg c') /\ handles (cg c') (mode_ty mode) r /\ length r = length a /\
    forall deg cells x y, holds deg cells (cg c) TGgsw1 a x -> holds deg cells (cg c) TGgsw1 b y ->
      holds deg cells (cg c') (mode_ty mode) r (to_bits (length a) (uval x - uval y)).
Proof.
  intros mode a b c C LE Ha Hb. unfold fsub.
  destruct (binop_ok (BSub (length a)) mode a b c (fun x y => to_bits (length a) (uval x - uval y) ++ [(uval x <? uval y)%Z]) C) as (c' & r & E & C' & G & H & LR & V); auto; try lia.
  - intros x y LX LY. rewrite app_length, to_bits_length. split; [|lia]. cbn [builder]. pose proof (subtractor_subtracts None x y) as Q. cbn [is_some carry_z opt_list app] in Q. rewrite LX in Q. rewrite Z.sub_0_r, Z.add_0_r in Q. apply Q; lia.
  - exists c', r. split; [exact E|]. split; [exact C'|]. split; [exact G|]. split; [exact H|]. split; [exact LR|]. intros deg cells x y Wx Wy. pose proof (holds_length _ _ _ _ _ _ Wy) as LY. specialize (V deg cells x y Wx Wy).
    rewrite firstn_app, to_bits_length, Nat.sub_diag in V. cbn [firstn] in V. rewrite app_nil_r, firstn_to_bits in V by lia.
    replace (to_bits (length a) (uval x - uval y)) with (to_bits (length a) (uval x - uval (firstn (length a) y))); [exact V|].
    rewrite <- to_bits_mod, <- (to_bits_mod (length a) (uval x - uval y)). f_equal. rewrite (firstn_uval (length a) y) by lia. set (P := (2 ^ Z.of_nat (length a))%Z). set (q := uval (skipn (length a) y)). set (w := uval (firstn (length a) y)).
    replace (uval x - (w + P * q))%Z with (uval x - w + (- q) * P)%Z by ring. rewrite Z.mod_add; [reflexivity|]. unfold P. pose proof (pow2_pos (Z.of_nat (length a))). lia.
Qed.
Lemma fand_ok : forall mode a b c, ctx_ok c -> length a <= length b -> (Z.of_nat (length a) < 2 ^ 16)%Z -> handles (cg c) TGgsw1 a -> handles (cg c) TGgsw1 b ->
  exists c' r, fand lib mode a b c = Ok (c', r) /\ ctx_ok c' /\ grows (cg c) (cg c') /\ handles (cg c') (mode_ty mode) r /\ length r = length a /\
    forall deg cells x y, holds deg cells (cg c) TGgsw1 a x -> holds deg cells (cg c) TGgsw1 b y ->
      holds deg cells (cg c') (mode_ty mode) r (to_bits (length a) (Z.land (uval x) (uval y))).
Proof.
  intros mode a b c C LE LT Ha Hb. unfold fand. rewrite Z.mod_small, Nat2Z.id by lia.
  destruct (binop_ok (BAnd (length a)) mode a b c (fun x y => to_bits (length a) (Z.land (uval x) (uval y))) C) as (c' & r & E & C' & G & H & LR & V); auto; try lia.
  - intros x y LX LY. rewrite to_bits_length. split; [|lia]. cbn [builder run_res bind]. destruct (logic_circuits x y LY) as (u & v & Ru & Vu & _). rewrite LX in Ru. rewrite Ru. f_equal. rewrite <- Vu.
    replace (length a) with (length u); [symmetry; apply to_bits_uval|]. unfold run_circuit in Ru. destruct (_ =? _); [|discriminate]. injection Ru as <-. cbn [make_and_circuit c_fn].
    rewrite ?map_length, ?seq_length. reflexivity.
  - exists c', r. split; [exact E|]. split; [exact C'|]. split; [exact G|]. split; [exact H|]. split; [exact LR|]. intros deg cells x y Wx Wy. pose proof (holds_length _ _ _ _ _ _ Wx) as LX. pose proof (holds_length _ _ _ _ _ _ Wy) as LY. specialize (V deg cells x y Wx Wy).
    rewrite firstn_to_bits in V by lia. replace (to_bits (length a) (Z.land (uval x) (uval y))) with (to_bits (length a) (Z.land (uval x) (uval (firstn (length a) y)))); [exact V|].
    apply (nth_ext _ _ false false); rewrite !to_bits_length; [reflexivity|]. intros i Hi. rewrite !to_bits_nth by auto. rewrite !Z.land_spec. f_equal. rewrite <- !uval_nth_testbit. now rewrite nth_first by auto.
Qed.
End Lib.
