(** Lemmas about the instruction model. *)
From Verif Require Import Base Spec BitsLemmas Combos Circuits CircuitsProofs ShiftProofs MulProofs MulRecProofs Alu SpecAlu.
From Coq Require Import ZifyBool ZifyNat Btauto.
Ltac Zify.zify_post_hook ::= Z.div_mod_to_equations.

Lemma umask_ok p w : 0 <= w < 128 -> umask p w = Ok (2 ^ w - 1).
Proof.
  intros H. unfold umask, ushl. destruct (Z.leb_spec 0 w) as [H1|H1]; [|lia]. destruct (Z.ltb_spec w 128) as [H2|H2]; [|lia].
  cbn [andb bind]. unfold uwrap. rewrite Z.mul_1_l.
  assert (2 ^ w < 2 ^ 128) by (apply Z.pow_lt_mono_r; lia). assert (0 < 2 ^ w) by (apply pow2_pos; lia).
  rewrite Z.mod_small by lia. unfold usub. destruct (Z.leb_spec 1 (2 ^ w)) as [Hq|Hq]; [reflexivity|lia].
Qed.

Lemma umask_128 p : umask p 128 = match p with Debug => Panic | Release => Ok 0 end.
Proof. destruct p; reflexivity. Qed.

Lemma mapM_ok {A B} (f : A -> res B) g l : (forall x, In x l -> f x = Ok (g x)) -> mapM f l = Ok (map g l).
Proof.
  induction l as [|x l IH]; intros H; [reflexivity|]. cbn [mapM map]. rewrite H by now left. cbn [bind].
  rewrite IH by (intros y Hy; apply H; now right). reflexivity.
Qed.

Lemma to_bits_map n z : to_bits n z = map (fun i => Z.odd (z / 2 ^ Z.of_nat i)) (seq 0 n).
Proof.
  revert z. induction n as [|n IH]; intros z; [reflexivity|]. cbn [to_bits seq map]. rewrite map_seq_shift.
  change (2 ^ Z.of_nat 0) with 1. rewrite Z.div_1_r. f_equal. rewrite IH. apply map_ext. intros i.
  rewrite pow2_S. rewrite Z.div_div by (try apply pow2_pos; lia). reflexivity.
Qed.

Lemma convert_ok p v w : 0 <= w <= 128 -> convert_value_to_bits p v w = Ok (to_bits (Z.to_nat w) v).
Proof.
  intros H. unfold convert_value_to_bits. rewrite to_bits_map. apply mapM_ok. intros i Hi. apply in_seq in Hi.
  unfold ushr. destruct (Z.leb_spec 0 (Z.of_nat i)) as [H1|H1]; [|lia]. destruct (Z.ltb_spec (Z.of_nat i) 128) as [H2|H2]; [|lia].
  reflexivity.
Qed.

Lemma lift_ok p r : reg_ok r -> exists c, lift p r = Ok c /\ length c = Z.to_nat (reg_width r) /\ uval c = reg_value r.
Proof.
  intros [Hw Hr]. destruct r as [v w|k d].
  - cbn [reg_width] in *. exists (to_bits (Z.to_nat w) v). cbn [lift reg_value]. rewrite convert_ok by lia.
    rewrite to_bits_length, uval_to_bits. rewrite Z2Nat.id by lia. rewrite Z.mod_small by lia. repeat split.
  - subst k. exists d. cbn [lift reg_width reg_value]. repeat split. lia.
Qed.

Lemma check_ok a b w : reg_width a = w -> reg_width b = w -> 1 <= w <= 128 -> check_register_width a b = Ok tt.
Proof.
  intros Ha Hb Hw. unfold check_register_width. rewrite Ha, Hb, Z.eqb_refl. cbn [negb].
  destruct (Z.ltb_spec w 1) as [H|H]; [lia|]. destruct (Z.ltb_spec 128 w) as [H'|H']; [lia|]. reflexivity.
Qed.

Lemma land_mask a w : 0 <= w -> Z.land a (2 ^ w - 1) = a mod 2 ^ w.
Proof. apply land_ones_mod. Qed.

Lemma land_1 a : Z.land a 1 = a mod 2.
Proof. change 1 with (2 ^ 1 - 1) at 1. rewrite land_mask by lia. reflexivity. Qed.

Lemma mod_mod_pow a w k : 0 <= w <= k -> (a mod 2 ^ k) mod 2 ^ w = a mod 2 ^ w.
Proof.
  intros H. replace (2 ^ k) with (2 ^ w * 2 ^ (k - w)) by (rewrite <- Z.pow_add_r by lia; f_equal; lia).
  assert (0 < 2 ^ w) by (apply pow2_pos; lia). assert (0 < 2 ^ (k - w)) by (apply pow2_pos; lia).
  rewrite Z.rem_mul_r by lia.
  rewrite Z.mul_comm, Z_mod_plus_full. apply Z.mod_mod. lia.
Qed.

Lemma land_range a b w : 0 <= w -> 0 <= a < 2 ^ w -> 0 <= b -> 0 <= Z.land a b < 2 ^ w.
Proof.
  intros Hw Ha Hb. split; [apply Z.land_nonneg; lia|].
  assert (Z.land a b = Z.land a b mod 2 ^ w) as ->; [|apply Z.mod_pos_bound; apply pow2_pos; lia].
  rewrite <- land_ones_mod by lia. rewrite <- Z.land_assoc, (Z.land_comm b), Z.land_assoc, land_ones_mod by lia.
  rewrite Z.mod_small by lia. reflexivity.
Qed.

Lemma lor_range a b w : 0 <= w -> 0 <= a < 2 ^ w -> 0 <= b < 2 ^ w -> 0 <= Z.lor a b < 2 ^ w.
Proof.
  intros Hw Ha Hb. split; [apply Z.lor_nonneg; lia|].
  assert (Z.lor a b = Z.lor a b mod 2 ^ w) as ->; [|apply Z.mod_pos_bound; apply pow2_pos; lia].
  rewrite <- land_ones_mod by lia. rewrite Z.land_lor_distr_l, !land_ones_mod by lia.
  rewrite !Z.mod_small by lia. reflexivity.
Qed.

Lemma lxor_range a b w : 0 <= w -> 0 <= a < 2 ^ w -> 0 <= b < 2 ^ w -> 0 <= Z.lxor a b < 2 ^ w.
Proof.
  intros Hw Ha Hb. split; [apply Z.lxor_nonneg; lia|].
  assert (Z.lxor a b = Z.lxor a b mod 2 ^ w) as ->; [|apply Z.mod_pos_bound; apply pow2_pos; lia].
  rewrite <- land_ones_mod by lia.
  assert (forall x y m, Z.land (Z.lxor x y) m = Z.lxor (Z.land x m) (Z.land y m)) as E.
  { intros x y m. apply Z.bits_inj'. intros i Hi. rewrite !Z.land_spec, !Z.lxor_spec, !Z.land_spec. btauto. }
  rewrite E, !land_ones_mod by lia. rewrite !Z.mod_small by lia. reflexivity.
Qed.

Lemma lor_shifted m v w : 0 <= w -> 0 <= v < 2 ^ w -> Z.lor (m * 2 ^ w) v = m * 2 ^ w + v.
Proof.
  intros Hw Hv.
  assert (E : Z.land (m * 2 ^ w) v = 0).
  { apply Z.bits_inj'. intros i Hi. rewrite Z.land_spec, Z.bits_0. destruct (Z.ltb_spec i w) as [H|H].
    - rewrite Z.mul_pow2_bits_low by lia. reflexivity.
    - replace (Z.testbit v i) with false; [apply andb_false_r|]. symmetry.
      rewrite <- (Z.mod_small v (2 ^ w)) by lia. apply Z.mod_pow2_bits_high. lia. }
  rewrite <- (Z.lxor_lor _ _ E). symmetry. apply Z.add_nocarry_lxor. exact E.
Qed.

Lemma land_pow2 v k : 0 <= k -> Z.land (2 ^ k) v = if Z.testbit v k then 2 ^ k else 0.
Proof.
  intros Hk. apply Z.bits_inj'. intros i Hi. rewrite Z.land_spec, Z.pow2_bits_eqb by lia.
  destruct (Z.eqb_spec k i) as [->|H].
  - destruct (Z.testbit v i); [|now rewrite Z.bits_0]. rewrite Z.pow2_bits_eqb by lia. now rewrite Z.eqb_refl.
  - destruct (Z.testbit v k); [|now rewrite Z.bits_0]. rewrite Z.pow2_bits_eqb by lia.
    destruct (Z.eqb_spec k i); [lia|reflexivity].
Qed.

Lemma testbit_top v w : 1 <= w -> 0 <= v < 2 ^ w -> Z.testbit v (w - 1) = (2 ^ (w - 1) <=? v).
Proof.
  intros Hw Hv. rewrite Z.testbit_eqb by lia.
  assert (E : 2 ^ w = 2 * 2 ^ (w - 1)) by (rewrite <- Z.pow_succ_r by lia; f_equal; lia).
  assert (0 < 2 ^ (w - 1)) by (apply pow2_pos; lia).
  destruct (Z.leb_spec (2 ^ (w - 1)) v) as [H1|H1].
  - replace (v / 2 ^ (w - 1)) with 1; [reflexivity|]. apply Z.div_unique with (r := v - 2 ^ (w - 1)); lia.
  - rewrite Z.div_small by lia. reflexivity.
Qed.

Lemma sign_test v w : 1 <= w -> 0 <= v < 2 ^ w -> (Z.land (2 ^ (w - 1)) v =? 0) = (v <? 2 ^ (w - 1)).
Proof.
  intros Hw Hv. rewrite land_pow2 by lia. rewrite testbit_top by lia.
  assert (0 < 2 ^ (w - 1)) by (apply pow2_pos; lia).
  destruct (Z.leb_spec (2 ^ (w - 1)) v) as [H1|H1]; destruct (Z.ltb_spec v (2 ^ (w - 1))) as [H2|H2]; try lia.
Qed.

Lemma ushl_1 p k : 0 <= k < 128 -> ushl p 128 1 k = Ok (2 ^ k).
Proof.
  intros H. unfold ushl. destruct (Z.leb_spec 0 k) as [H1|H1]; [|lia]. destruct (Z.ltb_spec k 128) as [H2|H2]; [|lia].
  cbn [andb]. unfold uwrap. rewrite Z.mul_1_l, Z.mod_small; [reflexivity|].
  split; [apply Z.pow_nonneg; lia|]. apply Z.pow_lt_mono_r; lia.
Qed.

Lemma usub_ok p w a b : b <= a -> usub p w a b = Ok (a - b).
Proof. intros H. unfold usub. destruct (Z.leb_spec b a) as [H1|H1]; [reflexivity|lia]. Qed.

Lemma ushr_ok p w a s : 0 <= s < w -> ushr p w a s = Ok (a / 2 ^ s).
Proof.
  intros H. unfold ushr. destruct (Z.leb_spec 0 s) as [H1|H1]; [|lia]. destruct (Z.ltb_spec s w) as [H2|H2]; [|lia]. reflexivity.
Qed.

Lemma ushl_ok p w a s : 0 <= s < w -> ushl p w a s = Ok ((a * 2 ^ s) mod 2 ^ w).
Proof.
  intros H. unfold ushl. destruct (Z.leb_spec 0 s) as [H1|H1]; [|lia]. destruct (Z.ltb_spec s w) as [H2|H2]; [|lia]. reflexivity.
Qed.

Lemma pow2_split w : 1 <= w -> 2 ^ w = 2 * 2 ^ (w - 1).
Proof. intros H. rewrite <- Z.pow_succ_r by lia. f_equal. lia. Qed.

Lemma sint_neg_range w v : 1 <= w -> 0 <= v < 2 ^ w -> - 2 ^ (w - 1) <= sint w v < 2 ^ (w - 1).
Proof.
  intros Hw Hv. unfold sint. pose proof (pow2_split w Hw). destruct (Z.ltb_spec v (2 ^ (w - 1))) as [H1|H1]; lia.
Qed.

Lemma to_signed_ok p v w : 1 <= w <= 127 -> 0 <= v < 2 ^ w -> to_signed p v w = Ok (sint w v).
Proof.
  intros Hw Hv. unfold to_signed. rewrite usub_ok by lia. cbn [bind]. rewrite ushl_1 by lia. cbn [bind].
  rewrite sign_test by lia.
  assert (Hp : 0 < 2 ^ (w - 1)) by (apply pow2_pos; lia).
  pose proof (pow2_split w ltac:(lia)) as Hs.
  assert (Hle : 2 ^ (w - 1) < 2 ^ 127) by (apply Z.pow_lt_mono_r; lia).
  assert (Hle2 : 2 ^ w <= 2 ^ 127) by (apply Z.pow_le_mono_r; lia).
  pose proof (pow2_split 128 ltac:(lia)) as H128. change (128 - 1) with 127 in H128.
  destruct (Z.ltb_spec v (2 ^ (w - 1))) as [H1|H1].
  - unfold sint. change (128 - 1) with 127. destruct (Z.ltb_spec v (2 ^ 127)) as [H2|H2]; [|lia].
    destruct (Z.ltb_spec v (2 ^ (w - 1))) as [H3|H3]; [reflexivity|lia].
  - rewrite ushl_ok by lia. cbn [bind]. change (2 ^ 1) with 2. rewrite Z.mul_comm, <- Hs.
    rewrite Z.mod_small by lia. rewrite usub_ok by lia. cbn [bind]. f_equal.
    unfold unot. replace (2 ^ 128 - 1 - (2 ^ w - 1)) with ((2 ^ (128 - w) - 1) * 2 ^ w).
    2: { rewrite Z.mul_sub_distr_r, <- Z.pow_add_r by lia. replace (128 - w + w) with 128 by lia. lia. }
    rewrite lor_shifted by lia. rewrite Z.mul_sub_distr_r, <- Z.pow_add_r by lia.
    replace (128 - w + w) with 128 by lia. unfold sint. change (128 - 1) with 127.
    destruct (Z.ltb_spec (2 ^ 128 - 1 * 2 ^ w + v) (2 ^ 127)) as [H2|H2]; [lia|].
    destruct (Z.ltb_spec v (2 ^ (w - 1))) as [H3|H3]; lia.
Qed.

Lemma plain_fits v w : 0 <= w <= 128 -> 0 <= v < 2 ^ w -> 0 <= v < 2 ^ 128.
Proof. intros Hw Hv. assert (2 ^ w <= 2 ^ 128) by (apply Z.pow_le_mono_r; lia). lia. Qed.

(** All two-operand instructions on plaintext registers. *)
Lemma binop_plain p op w a b :
  1 <= w <= 127 -> 0 <= a < 2 ^ w -> 0 <= b < 2 ^ w ->
  exec_binop p op (RPlain a w) (RPlain b w) = Ok (RPlain (binop_value op w a b) (binop_width op w)).
Proof.
  intros Hw Ha Hb.
  assert (Hc : check_register_width (RPlain a w) (RPlain b w) = Ok tt) by (apply check_ok with w; cbn; lia).
  assert (Hp : 0 < 2 ^ w) by (apply pow2_pos; lia).
  destruct op as [| | | | | |c]; cbn [exec_binop binop_value binop_width].
  - unfold op_add. rewrite Hc. cbn [bind]. rewrite umask_ok by lia. cbn [bind].
    rewrite land_mask by lia. unfold uwrap. rewrite mod_mod_pow by lia. reflexivity.
  - unfold op_sub. rewrite Hc. cbn [bind]. rewrite umask_ok by lia. cbn [bind].
    rewrite land_mask by lia. unfold uwrap. rewrite mod_mod_pow by lia. reflexivity.
  - unfold op_mul. rewrite Hc. cbn [bind reg_width]. destruct (Z.ltb_spec w 128) as [H|H]; [|lia].
    rewrite umask_ok by lia. cbn [bind]. rewrite land_mask by lia. unfold uwrap. rewrite mod_mod_pow by lia. reflexivity.
  - unfold op_and. rewrite Hc. cbn [bind]. rewrite umask_ok by lia. cbn [bind].
    rewrite land_mask by lia. rewrite Z.mod_small by (apply land_range; lia). reflexivity.
  - unfold op_or. rewrite Hc. cbn [bind]. rewrite umask_ok by lia. cbn [bind].
    rewrite land_mask by lia. rewrite Z.mod_small by (apply lor_range; lia). reflexivity.
  - unfold op_xor. rewrite Hc. cbn [bind]. rewrite umask_ok by lia. cbn [bind].
    rewrite land_mask by lia. rewrite Z.mod_small by lia. reflexivity.
  - unfold op_cmp. rewrite Hc. cbn [bind]. destruct c as [|[] g e]; cbn [cmp_plain bind].
    + reflexivity.
    + rewrite !to_signed_ok by lia. cbn [bind]. unfold rel. rewrite Z.gtb_ltb, Z.geb_leb. destruct g, e; reflexivity.
    + unfold rel. rewrite Z.gtb_ltb, Z.geb_leb. destruct g, e; reflexivity.
Qed.

Lemma pair_both_ok p a b w :
  reg_ok a -> reg_ok b -> reg_width a = w -> reg_width b = w ->
  exists c1 c2, lift p a = Ok c1 /\ lift p b = Ok c2 /\ length c1 = Z.to_nat w /\ length c2 = Z.to_nat w /\
    uval c1 = reg_value a /\ uval c2 = reg_value b.
Proof.
  intros Ha Hb Hwa Hwb. destruct (lift_ok p a Ha) as (c1 & E1 & L1 & U1). destruct (lift_ok p b Hb) as (c2 & E2 & L2 & U2).
  exists c1, c2. rewrite Hwa in L1. rewrite Hwb in L2. auto 10.
Qed.

Lemma removelast_snoc {A} (l : list A) x : removelast (l ++ [x]) = l.
Proof. apply removelast_last. Qed.

Lemma split_last_snoc l x : split_last (l ++ [x]) = Ok (l, x).
Proof. unfold split_last. rewrite removelast_last, last_last. destruct (l ++ [x]) eqn:E; [now destruct l|reflexivity]. Qed.

Lemma add_circuit_ok w c1 c2 carry : (0 < w)%nat -> length c1 = w -> length c2 = w ->
  (forall c, carry = Some c -> length c = 1%nat) ->
  add_circuit w c1 c2 carry =
  Ok (to_bits (w + 1) (uval c1 + uval c2 + match carry with Some c => uval c | None => 0 end)).
Proof.
  intros Hw L1 L2 Hc. unfold add_circuit.
  destruct carry as [c|].
  - specialize (Hc c eq_refl). destruct c as [|b [|]]; try discriminate.
    replace true with (is_some (Some b)) by reflexivity.
    rewrite (adder_correct' w w (Some b) c1 c2).
    + rewrite Nat.max_id. cbn [carry_z uval]. do 2 f_equal. lia.
    + assumption.
    + assumption.
    + lia.
    + lia.
    + unfold adder_inputs. rewrite !skipn_all2 by lia. rewrite app_nil_r. reflexivity.
  - replace false with (is_some (@None bool)) by reflexivity.
    rewrite (adder_correct' w w None c1 c2).
    + rewrite Nat.max_id. reflexivity.
    + assumption.
    + assumption.
    + lia.
    + lia.
    + unfold adder_inputs. rewrite !skipn_all2 by lia. rewrite app_nil_r. reflexivity.
Qed.

Lemma sub_circuit_ok w c1 c2 borrow : (0 < w)%nat -> length c1 = w -> length c2 = w ->
  (forall c, borrow = Some c -> length c = 1%nat) ->
  let k := match borrow with Some c => uval c | None => 0 end in
  sub_circuit w c1 c2 borrow = Ok (to_bits w (uval c1 - uval c2 - k) ++ [uval c1 <? uval c2 + k]).
Proof.
  intros Hw L1 L2 Hc k. unfold sub_circuit.
  destruct borrow as [c|].
  - specialize (Hc c eq_refl). destruct c as [|b [|]]; try discriminate.
    pose proof (subtractor_correct (Some b) c1 c2) as H. rewrite L1, L2 in H.
    specialize (H Hw eq_refl). cbn [is_some opt_list carry_z] in H. rewrite H.
    assert (Hk : k = b2z b) by (unfold k; cbn [uval]; lia). rewrite Hk. reflexivity.
  - pose proof (subtractor_correct None c1 c2) as H. rewrite L1, L2 in H.
    specialize (H Hw eq_refl). cbn [is_some opt_list carry_z] in H. rewrite app_nil_l. cbn [app] in H. rewrite H. reflexivity.
Qed.

Lemma to_bits_snoc n z : to_bits (n + 1) z = to_bits n z ++ [Z.odd (z / 2 ^ Z.of_nat n)].
Proof. rewrite to_bits_app. reflexivity. Qed.

Lemma binop_enc p op w a b :
  reg_ok a -> reg_ok b -> reg_width a = w -> reg_width b = w -> reg_enc a || reg_enc b = true ->
  ~ mul_gap op w ->
  exists bits, exec_binop p op a b = Ok (RCipher KL1Glwe bits) /\
    Z.of_nat (length bits) = binop_width op w /\ uval bits = binop_value op w (reg_value a) (reg_value b).
Proof.
  intros Ha Hb Hwa Hwb He Hg.
  assert (Hw : 1 <= w <= 128) by (destruct Ha; lia).
  pose proof (check_ok a b w Hwa Hwb Hw) as Hc.
  destruct (pair_both_ok p a b w Ha Hb Hwa Hwb) as (c1 & c2 & E1 & E2 & L1 & L2 & U1 & U2).
  assert (Hwn : (0 < Z.to_nat w)%nat) by lia.
  assert (Hzn : Z.of_nat (Z.to_nat w) = w) by lia.
  destruct op as [| | | | | |c]; cbn [exec_binop binop_value binop_width].
  - assert (E : op_add p a b = Ok (RCipher KL1Glwe (to_bits (Z.to_nat w) (uval c1 + uval c2 + 0)))).
    { unfold op_add. rewrite Hc. cbn [bind].
      destruct a as [va wa|ka da], b as [vb wb|kb db]; try discriminate He;
      rewrite E1; cbn [bind]; rewrite E2; cbn [bind]; rewrite Hwa, add_circuit_ok by (try assumption; discriminate);
      cbn [bind]; rewrite to_bits_snoc, split_last_snoc; reflexivity. }
    eexists. split; [exact E|]. rewrite to_bits_length, uval_to_bits, Hzn, U1, U2, Z.add_0_r. auto.
  - assert (E : op_sub p a b = Ok (RCipher KL1Glwe (to_bits (Z.to_nat w) (uval c1 - uval c2 - 0)))).
    { unfold op_sub. rewrite Hc. cbn [bind].
      destruct a as [va wa|ka da], b as [vb wb|kb db]; try discriminate He;
      rewrite E1; cbn [bind]; rewrite E2; cbn [bind]; rewrite Hwa, sub_circuit_ok by (try assumption; discriminate);
      cbn [bind]; rewrite split_last_snoc; reflexivity. }
    eexists. split; [exact E|]. rewrite to_bits_length, uval_to_bits, Hzn, U1, U2, Z.sub_0_r. auto.
  - assert (M : forall x y, length x = Z.to_nat w -> length y = Z.to_nat w ->
        mul_cipher_cipher x y w = Ok (RCipher KL1Glwe (to_bits (Z.to_nat w) (uval x * uval y)))).
    { intros x y Lx Ly. unfold mul_cipher_cipher. rewrite Lx, Ly, Nat.eqb_refl. cbn [negb].
      pose proof (uint_mul_total x y ltac:(lia) ltac:(lia)) as [_ Hm].
      destruct Hm as [Hm _]. rewrite Hm.
      - cbn [bind]. rewrite to_bits_length, Lx, Nat.eqb_refl. reflexivity.
      - intros (d & Hd & H1 & H2). rewrite Lx in H1, H2. apply Hg. cbn [mul_gap].
        assert (Hd2 : (d = 1 \/ d = 2 \/ 3 <= d)%nat) by lia. destruct Hd2 as [->|[->|Hd2]].
        + cbn [Nat.pow] in *. lia.
        + cbn [Nat.pow] in *. lia.
        + assert (2 ^ 3 <= 2 ^ d)%nat by (apply Nat.pow_le_mono_r; lia). cbn [Nat.pow] in *. lia. }
    assert (E : op_mul p a b = Ok (RCipher KL1Glwe (to_bits (Z.to_nat w) (uval c1 * uval c2)))).
    { unfold op_mul. rewrite Hc. cbn [bind]. rewrite Hwa.
      assert (exists m, (if w <? 128 then umask p w else Ok (2 ^ 128 - 1)) = Ok m) as [m ->].
      { destruct (Z.ltb_spec w 128) as [H|H]; [|eauto]. rewrite umask_ok by lia. eauto. }
      cbn [bind]. destruct Ha as [_ Hka], Hb as [_ Hkb].
      destruct a as [va wa|ka da], b as [vb wb|kb db]; try discriminate He; cbn [lift reg_width] in *; subst.
      - injection E2 as <-. rewrite E1. cbn [bind]. rewrite M by assumption. rewrite Z.mul_comm. reflexivity.
      - injection E1 as <-. rewrite E2. cbn [bind]. rewrite M by assumption. reflexivity.
      - injection E1 as <-. injection E2 as <-. rewrite M by assumption. reflexivity. }
    eexists. split; [exact E|]. rewrite to_bits_length, uval_to_bits, Hzn, U1, U2. auto.
  - assert (E : op_and p a b = Ok (RCipher KL1Glwe (zipwith andb c1 c2))).
    { unfold op_and. rewrite Hc. cbn [bind].
      destruct a as [va wa|ka da], b as [vb wb|kb db]; try discriminate He;
      rewrite E1; cbn [bind]; rewrite E2; cbn [bind]; rewrite Hwa, <- L1, and_correct by congruence; reflexivity. }
    eexists. split; [exact E|]. rewrite zipwith_length, uval_zipwith_and by congruence. rewrite L1, L2, Nat.min_id, U1, U2. auto.
  - assert (E : op_or p a b = Ok (RCipher KL1Glwe (zipwith orb c1 c2))).
    { unfold op_or. rewrite Hc. cbn [bind].
      destruct a as [va wa|ka da], b as [vb wb|kb db]; try discriminate He;
      rewrite E1; cbn [bind]; rewrite E2; cbn [bind]; rewrite Hwa, <- L1, or_correct by congruence; reflexivity. }
    eexists. split; [exact E|]. rewrite zipwith_length, uval_zipwith_or by congruence. rewrite L1, L2, Nat.min_id, U1, U2. auto.
  - assert (E : op_xor p a b = Ok (RCipher KL1Glwe (zipwith xorb c1 c2))).
    { unfold op_xor. rewrite Hc. cbn [bind].
      destruct a as [va wa|ka da], b as [vb wb|kb db]; try discriminate He;
      rewrite E1; cbn [bind]; rewrite E2; cbn [bind]; reflexivity. }
    eexists. split; [exact E|]. rewrite zipwith_length, uval_zipwith_xor by congruence. rewrite L1, L2, Nat.min_id, U1, U2. auto.
  - assert (E : op_cmp p c a b = (out <- run_res (cmp_gen c (Z.to_nat w)) (interleave c1 c2) ;; Ok (RCipher KL1Glwe out))).
    { unfold op_cmp. rewrite Hc. cbn [bind].
      destruct a as [va wa|ka da], b as [vb wb|kb db]; try discriminate He;
      rewrite E1; cbn [bind]; rewrite E2; cbn [bind]; rewrite Hwa; reflexivity. }
    rewrite E. rewrite <- L1.
    destruct c as [|[] g e]; cbn [cmp_gen].
    + rewrite eqb_correct by (try congruence; lia). cbn [bind]. eexists. split; [reflexivity|]. rewrite U1, U2.
      cbn [length uval]. split; [reflexivity|lia].
    + rewrite cmp_signed_correct by (try congruence; lia). cbn [bind]. eexists. split; [reflexivity|].
      rewrite !sval_sint by lia. rewrite L1, L2, Hzn, U1, U2. cbn [length uval]. split; [reflexivity|lia].
    + rewrite cmp_correct by (try congruence; lia). cbn [bind]. eexists. split; [reflexivity|]. rewrite U1, U2.
      cbn [length uval]. split; [reflexivity|lia].
Qed.

Lemma reg_ok_cipher bits : (1 <= length bits <= 128)%nat -> reg_ok (RCipher KL1Glwe bits).
Proof. intros H. split; [cbn [reg_width]; lia|reflexivity]. Qed.

Lemma reg_value_range r : reg_ok r -> 0 <= reg_value r < 2 ^ reg_width r.
Proof. intros [Hw H]. destruct r as [v w|k d]; cbn [reg_value reg_width] in *; [exact H|apply uval_range]. Qed.

Lemma add_carry_ok p a b cin w :
  reg_ok a -> reg_ok b -> reg_ok cin -> reg_width a = w -> reg_width b = w -> reg_width cin = 1 ->
  w <= 127 \/ reg_enc a || reg_enc b || reg_enc cin = true ->
  exists d c, op_add_carry p a b cin = Ok (d, c) /\ reg_ok d /\ reg_ok c /\ reg_width d = w /\ reg_width c = 1 /\
    reg_enc d = reg_enc a || reg_enc b || reg_enc cin /\ reg_enc c = reg_enc d /\
    reg_value d + 2 ^ w * reg_value c = reg_value a + reg_value b + reg_value cin.
Proof.
  intros Ha Hb Hci Hwa Hwb Hwc He.
  assert (Hw : 1 <= w <= 128) by (destruct Ha; lia).
  pose proof (check_ok a b w Hwa Hwb Hw) as Hc.
  pose proof (reg_value_range a Ha) as Ra. pose proof (reg_value_range b Hb) as Rb. pose proof (reg_value_range cin Hci) as Rc.
  rewrite Hwa in Ra. rewrite Hwb in Rb. rewrite Hwc in Rc. change (2 ^ 1) with 2 in Rc.
  assert (Hp : 0 < 2 ^ w) by (apply pow2_pos; lia).
  unfold op_add_carry. rewrite Hc, Hwc, Z.eqb_refl. cbn [bind negb].
  assert (Hcase : (exists va vb vc wb wc, a = RPlain va w /\ b = RPlain vb wb /\ cin = RPlain vc wc) \/
                  reg_enc a || reg_enc b || reg_enc cin = true).
  { destruct a as [va wa|ka da], b as [vb wb|kb db], cin as [vc wc|kc dc]; cbn [reg_enc orb]; auto.
    left. cbn [reg_width] in Hwa. subst wa. eauto 10. }
  destruct Hcase as [(va & vb & vc & wb & wc & -> & -> & ->)|Henc].
  - cbn [reg_value reg_width reg_enc orb] in *. assert (Hw' : w <= 127) by (destruct He; [assumption|discriminate]).
    unfold add_with_carry. rewrite umask_ok by lia. cbn [bind]. rewrite land_mask by lia. unfold uwrap.
    rewrite Zplus_mod_idemp_l.
    assert (Hs : va + vb + vc < 2 ^ 128).
    { assert (2 * 2 ^ w <= 2 ^ 128); [|lia]. rewrite <- Z.pow_succ_r by lia. apply Z.pow_le_mono_r; lia. }
    rewrite (Z.mod_small (va + vb + vc)) by lia. rewrite ushr_ok by lia. cbn [bind].
    rewrite land_1.
    assert (Hq : 0 <= (va + vb + vc) / 2 ^ w < 2) by (split; [apply Z.div_pos; lia|apply Z.div_lt_upper_bound; lia]).
    rewrite (Z.mod_small _ 2) by lia.
    eexists. eexists. split; [reflexivity|]. cbn [reg_value reg_width reg_enc].
    pose proof (Z.mod_pos_bound (va + vb + vc) (2 ^ w) Hp) as Hm.
    repeat split; cbn [reg_width]; try lia.
  - destruct (pair_both_ok p a b w Ha Hb Hwa Hwb) as (c1 & c2 & E1 & E2 & L1 & L2 & U1 & U2).
    destruct (lift_ok p cin Hci) as (cc & E3 & L3 & U3). rewrite Hwc in L3. change (Z.to_nat 1) with 1%nat in L3.
    assert (E : (c1 <- lift p a ;; c2 <- lift p b ;; cc <- lift p cin ;;
      out <- add_circuit (Z.to_nat (reg_width a)) c1 c2 (Some cc) ;;
      ' (d, c) <- split_last out ;;
      Ok (RCipher KL1Glwe d, RCipher KL1Glwe [c])) =
      Ok (RCipher KL1Glwe (to_bits (Z.to_nat w) (uval c1 + uval c2 + uval cc)),
          RCipher KL1Glwe [Z.odd ((uval c1 + uval c2 + uval cc) / 2 ^ w)])).
    { rewrite E1, E2, E3. cbn [bind]. rewrite Hwa, add_circuit_ok; try lia; [|intros c Hcc; injection Hcc as <-; exact L3].
      cbn [bind]. rewrite to_bits_snoc, split_last_snoc. cbn [bind]. rewrite Z2Nat.id by lia. reflexivity. }
    exists (RCipher KL1Glwe (to_bits (Z.to_nat w) (uval c1 + uval c2 + uval cc))),
      (RCipher KL1Glwe [Z.odd ((uval c1 + uval c2 + uval cc) / 2 ^ w)]).
    split.
    { rewrite <- E. destruct a as [va wa|ka da], b as [vb wb|kb db], cin as [vc wc|kc dc]; try discriminate Henc; reflexivity. }
    split; [apply reg_ok_cipher; rewrite to_bits_length; lia|]. split; [apply reg_ok_cipher; cbn; lia|].
    cbn [reg_width reg_enc reg_value]. rewrite to_bits_length, Henc, uval_to_bits. cbn [length].
    repeat split; try lia. rewrite Z2Nat.id by lia. rewrite U1, U2, U3.
    set (S := reg_value a + reg_value b + reg_value cin) in *.
    assert (Hq : 0 <= S / 2 ^ w < 2) by (split; [apply Z.div_pos; lia|apply Z.div_lt_upper_bound; lia]).
    assert (Ho : uval [Z.odd (S / 2 ^ w)] = S / 2 ^ w).
    { cbn [uval]. assert (Hcs : S / 2 ^ w = 0 \/ S / 2 ^ w = 1) by lia. destruct Hcs as [-> | ->]; reflexivity. }
    rewrite Ho. rewrite (Z.div_mod S (2 ^ w)) at 3 by lia. lia.
Qed.

Lemma sub_borrow_ok p a b bin w :
  reg_ok a -> reg_ok b -> reg_ok bin -> reg_width a = w -> reg_width b = w -> reg_width bin = 1 ->
  w <= 127 \/ reg_enc a || reg_enc b || reg_enc bin = true ->
  exists d c, op_sub_borrow p a b bin = Ok (d, c) /\ reg_ok d /\ reg_ok c /\ reg_width d = w /\ reg_width c = 1 /\
    reg_enc d = reg_enc a || reg_enc b || reg_enc bin /\ reg_enc c = reg_enc d /\
    reg_value d - 2 ^ w * reg_value c = reg_value a - reg_value b - reg_value bin.
Proof.
  intros Ha Hb Hci Hwa Hwb Hwc He.
  assert (Hw : 1 <= w <= 128) by (destruct Ha; lia).
  pose proof (check_ok a b w Hwa Hwb Hw) as Hc.
  pose proof (reg_value_range a Ha) as Ra. pose proof (reg_value_range b Hb) as Rb. pose proof (reg_value_range bin Hci) as Rc.
  rewrite Hwa in Ra. rewrite Hwb in Rb. rewrite Hwc in Rc. change (2 ^ 1) with 2 in Rc.
  assert (Hp : 0 < 2 ^ w) by (apply pow2_pos; lia).
  assert (Hfin : forall A B C, 0 <= A < 2 ^ w -> 0 <= B < 2 ^ w -> 0 <= C < 2 ->
     (A - B - C) mod 2 ^ w - 2 ^ w * b2z (A <? B + C) = A - B - C).
  { intros A B C HA HB HC. destruct (Z.ltb_spec A (B + C)) as [H|H]; cbn [b2z].
    - rewrite <- (Z_mod_plus_full _ 1). rewrite Z.mod_small by lia. lia.
    - rewrite Z.mod_small by lia. lia. }
  unfold op_sub_borrow. rewrite Hc, Hwc, Z.eqb_refl. cbn [bind negb].
  assert (Hcase : (exists va vb vc wb wc, a = RPlain va w /\ b = RPlain vb wb /\ bin = RPlain vc wc) \/
                  reg_enc a || reg_enc b || reg_enc bin = true).
  { destruct a as [va wa|ka da], b as [vb wb|kb db], bin as [vc wc|kc dc]; cbn [reg_enc orb]; auto.
    left. cbn [reg_width] in Hwa. subst wa. eauto 10. }
  destruct Hcase as [(va & vb & vc & wb & wc & -> & -> & ->)|Henc].
  - cbn [reg_value reg_width reg_enc orb] in *. assert (Hw' : w <= 127) by (destruct He; [assumption|discriminate]).
    unfold arbitrary_width_borrowing_sub. rewrite umask_ok by lia. cbn [bind]. unfold borrowing_sub, uwrap.
    assert (Hbz : b2z (negb (vc =? 0)) = vc).
    { destruct (Z.eqb_spec vc 0) as [->|Hn]; cbn [negb b2z]; lia. }
    rewrite Hbz, Zminus_mod_idemp_l. cbn [bind].
    assert (Hbo : (va <? vb) || ((va - vb) mod 2 ^ 128 <? vc) = (va <? vb + vc)).
    { destruct (Z.ltb_spec va vb) as [H1|H1]; cbn [orb].
      - destruct (Z.ltb_spec va (vb + vc)) as [H2|H2]; [reflexivity|lia].
      - assert (2 ^ w <= 2 ^ 128) by (apply Z.pow_le_mono_r; lia). rewrite Z.mod_small by lia.
        destruct (Z.ltb_spec (va - vb) vc) as [H2|H2]; destruct (Z.ltb_spec va (vb + vc)) as [H3|H3]; try lia; reflexivity. }
    rewrite Hbo, land_mask, mod_mod_pow by lia.
    eexists. eexists. split; [reflexivity|]. cbn [reg_value reg_width reg_enc].
    pose proof (Z.mod_pos_bound (va - vb - vc) (2 ^ w) Hp) as Hm. pose proof (b2z_range (va <? vb + vc)) as Hbr.
    repeat split; cbn [reg_width]; try (change (2 ^ 1) with 2); try lia. apply Hfin; assumption.
  - destruct (pair_both_ok p a b w Ha Hb Hwa Hwb) as (c1 & c2 & E1 & E2 & L1 & L2 & U1 & U2).
    destruct (lift_ok p bin Hci) as (cc & E3 & L3 & U3). rewrite Hwc in L3. change (Z.to_nat 1) with 1%nat in L3.
    assert (E : (c1 <- lift p a ;; c2 <- lift p b ;; cc <- lift p bin ;;
      out <- sub_circuit (Z.to_nat (reg_width a)) c1 c2 (Some cc) ;;
      ' (d, c) <- split_last out ;;
      Ok (RCipher KL1Glwe d, RCipher KL1Glwe [c])) =
      Ok (RCipher KL1Glwe (to_bits (Z.to_nat w) (uval c1 - uval c2 - uval cc)),
          RCipher KL1Glwe [uval c1 <? uval c2 + uval cc])).
    { rewrite E1, E2, E3. cbn [bind]. rewrite Hwa, sub_circuit_ok; try lia; [|intros c Hcc; injection Hcc as <-; exact L3].
      cbn [bind]. rewrite split_last_snoc. reflexivity. }
    eexists. eexists. split.
    { etransitivity; [|exact E]. destruct a as [va wa|ka da], b as [vb wb|kb db], bin as [vc wc|kc dc]; try discriminate Henc; reflexivity. }
    split; [apply reg_ok_cipher; rewrite to_bits_length; lia|]. split; [apply reg_ok_cipher; cbn; lia|].
    cbn [reg_width reg_enc reg_value]. rewrite to_bits_length, Henc, uval_to_bits. cbn [length].
    repeat split; try lia. rewrite Z2Nat.id by lia. rewrite U1, U2, U3. cbn [uval]. rewrite Z.mul_0_r, Z.add_0_r. apply Hfin; lia.
Qed.

Lemma not_ok p a : reg_ok a -> reg_width a <= 127 \/ reg_enc a = true ->
  exists d, op_not p a = Ok d /\ reg_ok d /\ reg_width d = reg_width a /\ reg_enc d = reg_enc a /\
    forall i, 0 <= i < reg_width a -> Z.testbit (reg_value d) i = negb (Z.testbit (reg_value a) i).
Proof.
  intros [Hw Ha] He. destruct a as [v w|k d]; cbn [reg_width reg_value reg_enc] in *.
  - assert (Hw' : w <= 127) by (destruct He; [assumption|discriminate]).
    unfold op_not. rewrite umask_ok by lia. cbn [bind]. rewrite land_mask by lia.
    assert (E : unot 128 v mod 2 ^ w = 2 ^ w - 1 - v).
    { unfold unot. replace (2 ^ 128 - 1 - v) with (2 ^ w - 1 - v + (2 ^ (128 - w) - 1) * 2 ^ w).
      2: { rewrite Z.mul_sub_distr_r, <- Z.pow_add_r by lia. replace (128 - w + w) with 128 by lia. lia. }
      rewrite Z_mod_plus_full. apply Z.mod_small. lia. }
    rewrite E. eexists. split; [reflexivity|]. cbn [reg_width reg_value reg_enc].
    split; [split; cbn [reg_width]; lia|]. do 2 (split; [reflexivity|]). intros i Hi.
    replace (2 ^ w - 1 - v) with ((Z.lnot v) mod 2 ^ w).
    2: { unfold Z.lnot. rewrite <- (Z_mod_plus_full _ 1). rewrite Z.mod_small; lia. }
    rewrite Z.mod_pow2_bits_low by lia. apply Z.lnot_spec. lia.
  - subst k. cbn [op_not]. eexists. split; [reflexivity|]. split; [apply reg_ok_cipher; rewrite map_length; lia|].
    cbn [reg_width reg_value reg_enc]. rewrite map_length. do 2 (split; [reflexivity|]). intros i Hi.
    rewrite <- (Z2Nat.id i) by lia. rewrite <- !uval_nth_testbit.
    rewrite (nth_indep (map negb d) false (negb false)) by (rewrite map_length; lia). apply map_nth.
Qed.

Lemma neg_ok p v w : 1 <= w <= 127 -> 0 <= v < 2 ^ w -> op_neg p (RPlain v w) = Ok (RPlain ((- v) mod 2 ^ w) w).
Proof.
  intros Hw Hv. unfold op_neg. rewrite umask_ok by lia. cbn [bind]. rewrite land_mask by lia. unfold uwrap.
  rewrite mod_mod_pow by lia. reflexivity.
Qed.
