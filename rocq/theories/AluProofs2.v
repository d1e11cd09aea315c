(** Lemmas about casts, selection, shifts and load-immediate. *)
From Verif Require Import Base Spec BitsLemmas Combos Circuits CircuitsProofs ShiftProofs MulProofs MulRecProofs Alu SpecAlu AluProofs.
From Coq Require Import ZifyBool ZifyNat.
Ltac Zify.zify_post_hook ::= Z.div_mod_to_equations.

Lemma uval_firstn l k : (k <= length l)%nat -> uval (firstn k l) = uval l mod 2 ^ Z.of_nat k.
Proof.
  intros H. rewrite (uval_split l k H). rewrite Z.mul_comm, Z_mod_plus_full.
  symmetry. apply Z.mod_small. pose proof (uval_range (firstn k l)) as R. rewrite firstn_length in R.
  replace (Nat.min k (length l)) with k in R by lia. exact R.
Qed.

Lemma uval_skipn l k : (k <= length l)%nat -> uval (skipn k l) = uval l / 2 ^ Z.of_nat k.
Proof.
  intros H. rewrite (uval_split l k H). rewrite Z.mul_comm, Z.div_add by (apply Z.pow_nonzero; lia).
  rewrite Z.div_small; [lia|]. pose proof (uval_range (firstn k l)) as R. rewrite firstn_length in R.
  replace (Nat.min k (length l)) with k in R by lia. exact R.
Qed.

Lemma trunc_ok p src nw : reg_ok src -> 1 <= nw <= reg_width src -> nw <= 127 \/ reg_enc src = true ->
  exists d, op_trunc p src nw = Ok d /\ reg_ok d /\ reg_width d = nw /\ reg_enc d = reg_enc src /\
    reg_value d = reg_value src mod 2 ^ nw.
Proof.
  intros [Hw Hs] Hn He. unfold op_trunc. destruct (Z.ltb_spec (reg_width src) nw) as [H|H]; [lia|].
  assert (Hp : 0 < 2 ^ nw) by (apply pow2_pos; lia).
  destruct src as [v w|k d]; cbn [reg_width reg_enc reg_value] in *.
  - assert (nw <= 127) by (destruct He; [assumption|discriminate]). rewrite umask_ok by lia. cbn [bind].
    rewrite land_mask by lia. eexists. split; [reflexivity|]. cbn [reg_width reg_enc reg_value].
    pose proof (Z.mod_pos_bound v (2 ^ nw) Hp) as Hm. split; [|auto]. split; cbn [reg_width]; [lia|exact Hm].
  - subst k. eexists. split; [reflexivity|]. cbn [reg_width reg_enc reg_value].
    rewrite uval_firstn by lia. rewrite Z2Nat.id by lia.
    split; [apply reg_ok_cipher; rewrite firstn_length; lia|]. rewrite firstn_length. repeat split. lia.
Qed.

Lemma zext_ok p src nw : reg_ok src -> reg_width src <= nw <= 128 ->
  exists d, op_ext p false src nw = Ok d /\ reg_ok d /\ reg_width d = nw /\ reg_enc d = reg_enc src /\
    reg_value d = reg_value src.
Proof.
  intros [Hw Hs] Hn. unfold op_ext. destruct (Z.ltb_spec nw (reg_width src)) as [H|H]; [lia|].
  destruct src as [v w|k d]; cbn [reg_width reg_enc reg_value] in *.
  - eexists. split; [reflexivity|]. cbn [reg_width reg_enc reg_value]. split; [|auto].
    assert (2 ^ w <= 2 ^ nw) by (apply Z.pow_le_mono_r; lia). split; cbn [reg_width]; lia.
  - subst k. cbn [andb]. eexists. split; [reflexivity|]. cbn [reg_width reg_enc reg_value].
    split; [apply reg_ok_cipher; rewrite app_length, repeat_length; lia|].
    rewrite app_length, repeat_length, uval_app, uval_repeat_false. lia.
Qed.

Lemma sext_ok p src nw : reg_ok src -> reg_width src <= nw <= 128 ->
  nw <= 127 \/ reg_enc src = true \/ reg_value src < 2 ^ (reg_width src - 1) ->
  exists d, op_ext p true src nw = Ok d /\ reg_ok d /\ reg_width d = nw /\ reg_enc d = reg_enc src /\
    sint nw (reg_value d) = sint (reg_width src) (reg_value src).
Proof.
  intros [Hw Hs] Hn He. unfold op_ext. destruct (Z.ltb_spec nw (reg_width src)) as [H|H]; [lia|].
  destruct src as [v w|k d]; cbn [reg_width reg_enc reg_value] in *.
  - rewrite usub_ok by lia. cbn [bind]. rewrite ushr_ok by lia. cbn [bind].
    assert (Hp : 0 < 2 ^ (w - 1)) by (apply pow2_pos; lia). pose proof (pow2_split w ltac:(lia)) as H2.
    pose proof (pow2_split nw ltac:(lia)) as H3.
    assert (Hle : 2 ^ (w - 1) <= 2 ^ (nw - 1)) by (apply Z.pow_le_mono_r; lia).
    destruct (Z.eqb_spec (v / 2 ^ (w - 1)) 0) as [Hz|Hz].
    + assert (Hv : v < 2 ^ (w - 1)) by (apply Z.div_small_iff in Hz; lia).
      eexists. split; [reflexivity|]. cbn [reg_width reg_enc reg_value]. split; [split; cbn [reg_width]; lia|].
      do 2 (split; [reflexivity|]). unfold sint.
      destruct (Z.ltb_spec v (2 ^ (nw - 1))) as [Ha|Ha]; [|lia]. destruct (Z.ltb_spec v (2 ^ (w - 1))) as [Hb|Hb]; lia.
    + assert (Hv : 2 ^ (w - 1) <= v).
      { destruct (Z.le_gt_cases (2 ^ (w - 1)) v) as [Hc|Hc]; [assumption|]. rewrite Z.div_small in Hz; lia. }
      assert (Hnw : nw <= 127) by (destruct He as [?|[?|?]]; [assumption|discriminate|lia]).
      rewrite !umask_ok by lia. cbn [bind].
      assert (E : Z.land (Z.lor v (unot 128 (2 ^ w - 1))) (2 ^ nw - 1) = v + 2 ^ nw - 2 ^ w).
      { unfold unot. replace (2 ^ 128 - 1 - (2 ^ w - 1)) with ((2 ^ (128 - w) - 1) * 2 ^ w).
        2: { rewrite Z.mul_sub_distr_r, <- Z.pow_add_r by lia. replace (128 - w + w) with 128 by lia. lia. }
        rewrite Z.lor_comm, lor_shifted by lia. rewrite land_mask by lia.
        replace ((2 ^ (128 - w) - 1) * 2 ^ w + v) with (v + 2 ^ nw - 2 ^ w + (2 ^ (128 - nw) - 1) * 2 ^ nw).
        2: { rewrite !Z.mul_sub_distr_r, <- !Z.pow_add_r by lia. replace (128 - w + w) with 128 by lia.
             replace (128 - nw + nw) with 128 by lia. lia. }
        rewrite Z_mod_plus_full. apply Z.mod_small. lia. }
      rewrite E. eexists. split; [reflexivity|]. cbn [reg_width reg_enc reg_value]. split; [split; cbn [reg_width]; lia|].
      do 2 (split; [reflexivity|]). unfold sint.
      destruct (Z.ltb_spec (v + 2 ^ nw - 2 ^ w) (2 ^ (nw - 1))) as [Ha|Ha]; [lia|].
      destruct (Z.ltb_spec v (2 ^ (w - 1))) as [Hb|Hb]; lia.
  - subst k. destruct (Nat.eqb_spec (length d) 0) as [Hz|Hz]; [lia|]. cbn [andb].
    eexists. split; [reflexivity|]. cbn [reg_width reg_enc reg_value].
    set (m := (Z.to_nat nw - length d)%nat).
    assert (Hl : length (d ++ repeat (last d false) m) = Z.to_nat nw).
    { rewrite app_length, repeat_length. unfold m. lia. }
    split; [apply reg_ok_cipher; rewrite Hl; lia|]. split; [rewrite Hl; lia|]. split; [reflexivity|].
    rewrite <- (Z2Nat.id nw) by lia. rewrite <- Hl at 1. rewrite <- !sval_sint by lia.
    unfold sval. rewrite uval_app, Hl.
    assert (Hlast : last (d ++ repeat (last d false) m) false = last d false).
    { destruct m as [|m']; [now rewrite app_nil_r|].
      replace (repeat (last d false) (S m')) with (repeat (last d false) m' ++ [last d false]).
      - rewrite app_assoc. apply last_last.
      - symmetry. apply repeat_cons. }
    rewrite Hlast. destruct (last d false).
    + rewrite uval_repeat_true. rewrite Z.mul_sub_distr_l, <- Z.pow_add_r by lia.
      replace (Z.of_nat (length d) + Z.of_nat m) with (Z.of_nat (Z.to_nat nw)) by (unfold m; lia). lia.
    + rewrite uval_repeat_false. lia.
Qed.

Lemma cmux_ok p sel a b w :
  reg_ok sel -> reg_ok a -> reg_ok b -> reg_width sel = 1 -> reg_width a = w -> reg_width b = w ->
  exists d, op_cmux p sel a b = Ok d /\ reg_ok d /\ reg_width d = w /\
    reg_enc d = reg_enc sel || reg_enc a || reg_enc b /\
    reg_value d = if reg_value sel =? 0 then reg_value b else reg_value a.
Proof.
  intros Hs Ha Hb Hws Hwa Hwb.
  assert (Hw : 1 <= w <= 128) by (destruct Ha; lia).
  pose proof (check_ok a b w Hwa Hwb Hw) as Hc.
  destruct (pair_both_ok p a b w Ha Hb Hwa Hwb) as (c1 & c2 & E1 & E2 & L1 & L2 & U1 & U2).
  unfold op_cmux. rewrite Hc, Hws, Z.eqb_refl. cbn [bind negb].
  destruct sel as [v ws|k ds].
  - cbn [reg_value reg_enc orb].
    assert (Hcase : (exists va vb wb, a = RPlain va w /\ b = RPlain vb wb) \/ reg_enc a || reg_enc b = true).
    { destruct a as [va wa|ka da], b as [vb wb|kb db]; cbn [reg_enc orb]; auto. left. cbn in Hwa. subst wa. eauto. }
    destruct Hcase as [(va & vb & wb & -> & ->)|Henc].
    + cbn [reg_value reg_width reg_enc orb] in *. subst wb. eexists. split; [reflexivity|]. cbn [reg_width reg_value reg_enc].
      destruct Ha as [Ha0 Ha], Hb as [Hb0 Hb]. cbn [reg_width] in Ha0.
      split; [|split; [reflexivity|split; [reflexivity|destruct (Z.eqb_spec v 0); reflexivity]]].
      split; [exact Ha0|]. destruct (v =? 0); cbn [negb]; lia.
    + exists (RCipher KL1Glwe (if negb (v =? 0) then c1 else c2)). split.
      { destruct a as [va wa|ka da], b as [vb wb|kb db]; try discriminate Henc; rewrite E1, E2; reflexivity. }
      rewrite Henc. split; [apply reg_ok_cipher; destruct (v =? 0); cbn [negb]; lia|].
      cbn [reg_width reg_enc reg_value]. split; [destruct (v =? 0); cbn [negb]; lia|]. split; [reflexivity|].
      destruct (v =? 0); cbn [negb]; assumption.
  - destruct Hs as [_ Hk]. subst k. rewrite E1, E2. cbn [bind reg_enc orb reg_value reg_width] in *.
    destruct ds as [|s0 [|]]; cbn [length] in Hws; try lia.
    set (c := if s0 then c1 else c2).
    assert (Ez : zipwith (fun hi lo => cmux (nth 0 [s0] false) lo hi) c1 c2 = c).
    { unfold c. assert (Hl : length c1 = length c2) by lia. clear - Hl. revert c2 Hl.
      induction c1 as [|x c1 IH]; intros [|y c2] Hl; try discriminate Hl; cbn [zipwith].
      - now destruct s0.
      - rewrite IH by (cbn [length] in Hl; lia). cbn [nth cmux]. now destruct s0. }
    rewrite Ez. eexists. split; [reflexivity|].
    split; [apply reg_ok_cipher; unfold c; destruct s0; lia|]. cbn [reg_width reg_enc reg_value].
    split; [unfold c; destruct s0; lia|]. split; [reflexivity|].
    unfold c. destruct s0; cbn [uval b2z Z.eqb Z.add Z.mul]; assumption.
Qed.

Lemma loadi_ok p imm w : 1 <= w <= 32 -> 0 <= imm < 2 ^ 32 ->
  op_loadi p imm w =
    (if (imm <? 2 ^ w) || (2 ^ 32 - 2 ^ (w - 1) <=? imm) then Ok (RPlain (imm mod 2 ^ w) w) else Err EOutOfRange).
Proof.
  intros Hw Hi. unfold op_loadi. rewrite ushl_ok by lia. cbn [bind]. rewrite usub_ok by lia. cbn [bind].
  rewrite ushl_ok by lia. cbn [bind]. rewrite umask_ok by lia. cbn [bind]. rewrite land_mask by lia.
  rewrite Z.mul_1_l. rewrite (Z.mod_small (2 ^ w)).
  2: { split; [apply Z.pow_nonneg; lia|]. apply Z.pow_lt_mono_r; lia. }
  replace ((2 ^ 32 - 1) * 2 ^ (w - 1)) with (2 ^ 32 - 2 ^ (w - 1) + (2 ^ (w - 1) - 1) * 2 ^ 32) by ring.
  rewrite Z_mod_plus_full. rewrite (Z.mod_small (2 ^ 32 - _)).
  2: { assert (0 < 2 ^ (w - 1)) by (apply pow2_pos; lia). assert (2 ^ (w - 1) <= 2 ^ 31) by (apply Z.pow_le_mono_r; lia). lia. }
  destruct (imm <? 2 ^ w), (2 ^ 32 - 2 ^ (w - 1) <=? imm); reflexivity.
Qed.

(** ** Shifts *)

Lemma rot_combine v s w : 0 <= s <= w -> 0 <= v < 2 ^ w ->
  (v * 2 ^ s) mod 2 ^ w = (v mod 2 ^ (w - s)) * 2 ^ s /\ 0 <= v / 2 ^ (w - s) < 2 ^ s.
Proof.
  intros Hs Hv. assert (H1 : 0 < 2 ^ s) by (apply pow2_pos; lia). assert (H2 : 0 < 2 ^ (w - s)) by (apply pow2_pos; lia).
  assert (E : 2 ^ w = 2 ^ (w - s) * 2 ^ s) by (rewrite <- Z.pow_add_r by lia; f_equal; lia).
  split.
  - rewrite E. rewrite Z.mul_mod_distr_r by lia. reflexivity.
  - split; [apply Z.div_pos; lia|]. apply Z.div_lt_upper_bound; lia.
Qed.

Lemma mul_add_bound a b A B C : 0 <= a < A -> 0 <= b < B -> C = A * B -> 0 <= a * B + b < C.
Proof. intros Ha Hb ->. nia. Qed.

(** (x mod 2^128 | y) & mask, y < 2^w *)
Lemma lor_mask x y w : 0 <= w <= 128 -> 0 <= y < 2 ^ w ->
  Z.land (Z.lor (x mod 2 ^ 128) y) (2 ^ w - 1) = Z.lor (x mod 2 ^ w) y.
Proof.
  intros Hw Hy. rewrite Z.land_lor_distr_l, !land_mask, mod_mod_pow by lia. rewrite (Z.mod_small y) by lia. reflexivity.
Qed.

Lemma rot_s_mod w s : 1 <= w -> 0 <= s <= w -> s mod w = s /\ s < w \/ s mod w = 0 /\ s = w.
Proof.
  intros Hw Hs. destruct (Z.eq_dec s w) as [->|Hne]; [right|left]; [rewrite Z.mod_same; lia|rewrite Z.mod_small; lia].
Qed.

Lemma shift_plain_ok p op w ws v s : 1 <= w <= 127 -> 0 <= v < 2 ^ w -> 0 <= s <= w -> s < 127 ->
  exists r, op_shift p op (RPlain v w) (RPlain s ws) = Ok (RPlain r w) /\
    r mod 2 ^ w = shift_value op w v s /\
    (~ shift_unmasked op w v s -> r = shift_value op w v s) /\
    (shift_unmasked op w v s -> 2 ^ w <= r).
Proof.
  intros Hw Hv Hs Hs'.
  assert (H1 : 0 < 2 ^ s) by (apply pow2_pos; lia). assert (H2 : 0 < 2 ^ (w - s)) by (apply pow2_pos; lia).
  assert (Hp : 0 < 2 ^ w) by (apply pow2_pos; lia).
  assert (E : 2 ^ w = 2 ^ (w - s) * 2 ^ s) by (rewrite <- Z.pow_add_r by lia; f_equal; lia).
  assert (Hdiv : 0 <= v / 2 ^ s < 2 ^ w).
  { split; [apply Z.div_pos; lia|]. apply Z.div_lt_upper_bound; nia. }
  assert (H127 : 2 ^ w <= 2 ^ 127) by (apply Z.pow_le_mono_r; lia).
  pose proof (pow2_split 128 ltac:(lia)) as H128. change (128 - 1) with 127 in H128.
  unfold op_shift.
  destruct op; cbn [plain_shift shift_value shift_unmasked].
  - rewrite ushl_ok by lia. cbn [bind]. eexists. split; [reflexivity|]. rewrite mod_mod_pow by lia. split; [reflexivity|]. split.
    + intros Hn. pose proof (Z.mod_pos_bound (v * 2 ^ s) (2 ^ 128) ltac:(lia)) as Hb.
      rewrite <- (mod_mod_pow (v * 2 ^ s) w 128) by lia. rewrite (Z.mod_small (_ mod 2 ^ 128)) by lia. reflexivity.
    + auto.
  - rewrite ushr_ok by lia. cbn [bind]. eexists. split; [reflexivity|]. rewrite Z.mod_small by lia. tauto.
  - unfold plain_shra. rewrite ushr_ok by lia. cbn [bind]. rewrite usub_ok by lia. cbn [bind]. rewrite ushl_1 by lia. cbn [bind].
    rewrite sign_test by lia. unfold sint. destruct (Z.ltb_spec v (2 ^ (w - 1))) as [Hlt|Hge]; cbn [bind].
    + eexists. split; [reflexivity|]. rewrite Z.mod_small by lia. repeat split; lia.
    + unfold uadd. destruct (Z.ltb_spec (s + 1) (2 ^ 128)) as [Ha|Ha]; [|lia]. cbn [bind]. rewrite ushl_1 by lia. cbn [bind].
      assert (Hps : 2 ^ (s + 1) = 2 * 2 ^ s) by (rewrite Z.pow_add_r by lia; lia).
      rewrite usub_ok by lia. cbn [bind]. rewrite usub_ok by lia. cbn [bind]. rewrite ushl_ok by lia. cbn [bind].
      assert (Hdv : 0 <= v / 2 ^ s < 2 ^ (w - s)) by (split; [lia|apply Z.div_lt_upper_bound; lia]).
      rewrite (Z.mod_small ((2 ^ (s + 1) - 1) * 2 ^ (w - s))) by (rewrite Hps; nia).
      rewrite lor_shifted by lia. eexists. split; [reflexivity|].
      assert (Ed : (v - 2 ^ w) / 2 ^ s = v / 2 ^ s - 2 ^ (w - s)).
      { rewrite E. replace (v - 2 ^ (w - s) * 2 ^ s) with (v + (- 2 ^ (w - s)) * 2 ^ s) by ring. rewrite Z.div_add by lia. lia. }
      rewrite Ed.
      assert (Er : (2 ^ (s + 1) - 1) * 2 ^ (w - s) + v / 2 ^ s = v / 2 ^ s - 2 ^ (w - s) + 2 * 2 ^ w) by (rewrite Hps, E; ring).
      rewrite Er. rewrite Z_mod_plus_full. split; [reflexivity|]. split; [lia|]. intros _.
      assert (2 ^ (w - s) <= 2 ^ w) by nia. lia.
  - unfold plain_rotl. rewrite umask_ok by lia. cbn [bind]. rewrite ushl_ok by lia. cbn [bind]. rewrite usub_ok by lia. cbn [bind].
    rewrite ushr_ok by lia. cbn [bind].
    destruct (rot_combine v s w Hs Hv) as [Ec Hr].
    assert (2 ^ s <= 2 ^ w) by (apply Z.pow_le_mono_r; lia).
    rewrite lor_mask, Ec by lia. rewrite lor_shifted by lia. eexists. split; [reflexivity|].
    set (r := v mod 2 ^ (w - s) * 2 ^ s + v / 2 ^ (w - s)).
    assert (Er : r = (v * 2 ^ (s mod w)) mod 2 ^ w + v / 2 ^ (w - s mod w)).
    { destruct (rot_s_mod w s ltac:(lia) Hs) as [[Hm _]|[Hm ->]]; rewrite Hm; unfold r.
      - rewrite <- Ec. reflexivity.
      - rewrite Z.sub_diag, Z.sub_0_r. change (2 ^ 0) with 1. rewrite Z.mod_1_r, Z.mul_1_r, Z.div_1_r, Z.mod_small, Z.div_small by lia. lia. }
    rewrite Er. split; [|tauto]. rewrite <- Er. apply Z.mod_small. unfold r.
    apply mul_add_bound with (A := 2 ^ (w - s)); [apply Z.mod_pos_bound; assumption|assumption|assumption].
  - unfold plain_rotr. rewrite umask_ok by lia. cbn [bind]. rewrite usub_ok by lia. cbn [bind].
    assert (exists t, s = w - t /\ 0 <= t <= w) as (t & -> & Ht) by (exists (w - s); lia).
    replace (w - (w - t)) with t by lia.
    destruct (rot_combine v t w Ht Hv) as [Ec Hr].
    assert (2 ^ t <= 2 ^ w) by (apply Z.pow_le_mono_r; lia).
    rewrite ushl_ok by lia. cbn [bind]. rewrite ushr_ok by lia. cbn [bind].
    rewrite lor_mask, Ec by lia. rewrite lor_shifted by lia. eexists. split; [reflexivity|].
    set (r := v mod 2 ^ (w - t) * 2 ^ t + v / 2 ^ (w - t)).
    assert (Er : r = v / 2 ^ ((w - t) mod w) + (v * 2 ^ (w - (w - t) mod w)) mod 2 ^ w).
    { destruct (rot_s_mod w (w - t) ltac:(lia) Hs) as [[Hm _]|[Hm Hz]]; rewrite Hm; unfold r.
      - replace (w - (w - t)) with t by lia. rewrite Ec. apply Z.add_comm.
      - assert (t = 0) by lia. subst t. rewrite !Z.sub_0_r. change (2 ^ 0) with 1.
        rewrite Z.mul_1_r, Z.div_1_r, Z.mod_mul, (Z.mod_small v), Z.div_small by lia. reflexivity. }
    rewrite Er. split; [|tauto]. rewrite <- Er. apply Z.mod_small. unfold r.
    apply mul_add_bound with (A := 2 ^ (w - t)); [apply Z.mod_pos_bound; apply pow2_pos; lia|assumption|].
    rewrite <- Z.pow_add_r by lia. f_equal. lia.
Qed.

Lemma rotate_left_length {A} k (l : list A) : length (rotate_left k l) = length l.
Proof. unfold rotate_left. rewrite app_length, skipn_length, firstn_length. lia. Qed.

Lemma rotate_right_eq {A} k (l : list A) : rotate_right k l = rotate_left (length l - k) l.
Proof. reflexivity. Qed.

Lemma uval_rotate_left l k : (k <= length l)%nat ->
  uval (rotate_left k l) = uval l / 2 ^ Z.of_nat k + 2 ^ (Z.of_nat (length l) - Z.of_nat k) * (uval l mod 2 ^ Z.of_nat k).
Proof.
  intros H. unfold rotate_left. rewrite uval_app, uval_skipn, uval_firstn, skipn_length by lia.
  rewrite Nat2Z.inj_sub by lia. reflexivity.
Qed.

Lemma rotl_value l s : (s <= length l)%nat -> (0 < length l)%nat ->
  uval (rotate_left (length l - s) l) = shift_value SRotl (Z.of_nat (length l)) (uval l) (Z.of_nat s).
Proof.
  intros Hs Hl. rewrite uval_rotate_left by lia. cbn [shift_value].
  pose proof (uval_range l) as R. set (n := Z.of_nat (length l)) in *.
  replace (Z.of_nat (length l - s)) with (n - Z.of_nat s) by (unfold n; lia).
  replace (n - (n - Z.of_nat s)) with (Z.of_nat s) by lia.
  destruct (rot_s_mod n (Z.of_nat s) ltac:(lia) ltac:(lia)) as [[Hm _]|[Hm Hz]]; rewrite Hm.
  - destruct (rot_combine (uval l) (Z.of_nat s) n ltac:(lia) R) as [-> _]. rewrite Z.add_comm. f_equal. apply Z.mul_comm.
  - rewrite Hz, Z.sub_diag, Z.sub_0_r. change (2 ^ 0) with 1. rewrite Z.mod_1_r, Z.mul_1_r, Z.div_1_r, Z.mod_small, Z.div_small by lia. lia.
Qed.

Lemma rotr_value l s : (s <= length l)%nat -> (0 < length l)%nat ->
  uval (rotate_left s l) = shift_value SRotr (Z.of_nat (length l)) (uval l) (Z.of_nat s).
Proof.
  intros Hs Hl. rewrite uval_rotate_left by lia. cbn [shift_value].
  pose proof (uval_range l) as R. set (n := Z.of_nat (length l)) in *.
  destruct (rot_s_mod n (Z.of_nat s) ltac:(lia) ltac:(lia)) as [[Hm _]|[Hm Hz]]; rewrite Hm.
  - destruct (rot_combine (uval l) (n - Z.of_nat s) n ltac:(lia) R) as [-> _].
    replace (n - (n - Z.of_nat s)) with (Z.of_nat s) by lia. f_equal. apply Z.mul_comm.
  - rewrite Hz, Z.sub_diag, Z.sub_0_r. change (2 ^ 0) with 1. rewrite Z.mul_1_l, Z.div_1_r, Z.mod_mul, Z.mod_small, Z.div_small by lia. lia.
Qed.

Lemma firstn_app_exact {A} (l1 l2 : list A) n : n = length l1 -> firstn n (l1 ++ l2) = l1.
Proof. intros ->. rewrite firstn_app, Nat.sub_diag, firstn_O, app_nil_r. apply firstn_all. Qed.

Lemma skipn_app_exact {A} (l1 l2 : list A) n : n = length l1 -> skipn n (l1 ++ l2) = l2.
Proof. intros ->. rewrite skipn_app, Nat.sub_diag, skipn_all. reflexivity. Qed.

Lemma evps_ok op c s : (1 <= length c)%nat -> (s <= length c)%nat ->
  exists out, encrypted_value_plain_shift c s op = Ok out /\ length out = length c /\
    uval out = shift_value op (Z.of_nat (length c)) (uval c) (Z.of_nat s).
Proof.
  intros Hc Hs. unfold encrypted_value_plain_shift.
  assert (Hne : forall X : res (list bool), match c with [] => Panic | _ :: _ => X end = X).
  { intros X. destruct c; [cbn in Hc; lia|reflexivity]. }
  rewrite Hne. clear Hne.
  destruct (Nat.ltb_spec (length c) s) as [H|H]; [lia|].
  pose proof (uval_range c) as R.
  assert (H1 : 0 < 2 ^ Z.of_nat s) by (apply pow2_pos; lia).
  assert (H2 : 0 < 2 ^ (Z.of_nat (length c) - Z.of_nat s)) by (apply pow2_pos; lia).
  assert (E : 2 ^ Z.of_nat (length c) = 2 ^ (Z.of_nat (length c) - Z.of_nat s) * 2 ^ Z.of_nat s) by (rewrite <- Z.pow_add_r by lia; f_equal; lia).
  destruct op; cbn [shift_dm]; (eexists; split; [reflexivity|]).
  - rewrite rotate_right_eq. unfold rotate_left.
    rewrite skipn_app_exact by (rewrite skipn_length; lia). split.
    { rewrite app_length, repeat_length, firstn_length. lia. }
    rewrite uval_app, uval_repeat_false, repeat_length, uval_firstn by lia. cbn [shift_value].
    destruct (rot_combine (uval c) (Z.of_nat s) (Z.of_nat (length c)) ltac:(lia) R) as [-> _].
    rewrite Nat2Z.inj_sub by lia. rewrite Z.add_0_l. apply Z.mul_comm.
  - unfold rotate_left. rewrite firstn_app_exact by (rewrite app_length, skipn_length, firstn_length; lia). split.
    { rewrite app_length, repeat_length, skipn_length. lia. }
    rewrite uval_app, uval_repeat_false, uval_skipn by lia. rewrite Z.mul_0_r, Z.add_0_r. reflexivity.
  - unfold rotate_left. rewrite firstn_app_exact by (rewrite app_length, skipn_length, firstn_length; lia). split.
    { rewrite app_length, repeat_length, skipn_length. lia. }
    rewrite uval_app, uval_skipn, skipn_length by lia. rewrite Nat2Z.inj_sub by lia. cbn [shift_value].
    rewrite <- sval_sint by lia. unfold sval.
    assert (Hd : 0 <= uval c / 2 ^ Z.of_nat s < 2 ^ (Z.of_nat (length c) - Z.of_nat s)).
    { split; [apply Z.div_pos; lia|apply Z.div_lt_upper_bound; lia]. }
    destruct (last c false).
    + rewrite uval_repeat_true.
      replace (uval c - 2 ^ Z.of_nat (length c)) with (uval c + (- 2 ^ (Z.of_nat (length c) - Z.of_nat s)) * 2 ^ Z.of_nat s) by (rewrite E; ring).
      rewrite Z.div_add by lia. symmetry. rewrite <- (Z_mod_plus_full _ 1). rewrite Z.mul_1_l, E, Z.mod_small; [ring|].
      generalize dependent (uval c / 2 ^ Z.of_nat s). generalize dependent (2 ^ Z.of_nat s).
      generalize dependent (2 ^ (Z.of_nat (length c) - Z.of_nat s)). clear. intros. nia.
    + rewrite uval_repeat_false, Z.sub_0_r, Z.mul_0_r, Z.add_0_r. symmetry. apply Z.mod_small. rewrite E.
      generalize dependent (uval c / 2 ^ Z.of_nat s). generalize dependent (2 ^ Z.of_nat s).
      generalize dependent (2 ^ (Z.of_nat (length c) - Z.of_nat s)). clear. intros. nia.
  - rewrite rotate_right_eq, rotate_left_length. split; [reflexivity|]. apply rotl_value; lia.
  - rewrite rotate_left_length. split; [reflexivity|]. apply rotr_value; lia.
Qed.

Lemma rot_mod_value op w v s : op = SRotl \/ op = SRotr -> 1 <= w -> shift_value op w v (s mod w) = shift_value op w v s.
Proof. intros [-> | ->] Hw; cbn [shift_value]; rewrite Z.mod_mod by lia; reflexivity. Qed.

Lemma shift_circuit_value op a k :
  (0 < length a)%nat -> (0 < length k)%nat -> (length a <= 2 ^ length k)%nat -> rot_width_ok op (length a) ->
  exists out, run_res (bitshift (length a) (length k) (fst (shift_dm op)) (snd (shift_dm op))) (rev a ++ rev k) = Ok (rev out) /\
    length out = length a /\ uval out = shift_value op (Z.of_nat (length a)) (uval a) (uval k).
Proof.
  intros Ha Hk Hle Hr. pose proof (uval_range a) as R. pose proof (uval_range k) as Rk.
  destruct op; cbn [shift_dm fst snd rot_width_ok] in *.
  - rewrite shl_circuit_correct by assumption. eexists. split; [reflexivity|]. rewrite to_bits_length, uval_to_bits. auto.
  - rewrite shr_circuit_correct by assumption. eexists. split; [reflexivity|]. rewrite to_bits_length, uval_to_bits. split; [reflexivity|].
    cbn [shift_value]. assert (H1 : 0 < 2 ^ uval k) by (apply pow2_pos; lia).
    apply Z.mod_small. split; [apply Z.div_pos; lia|]. apply Z.div_lt_upper_bound; [lia|]. nia.
  - rewrite shra_circuit_correct by assumption. eexists. split; [reflexivity|]. rewrite to_bits_length, uval_to_bits. split; [reflexivity|].
    cbn [shift_value]. rewrite <- sval_sint by lia. reflexivity.
  - destruct Hr as [e He]. destruct (rotl_circuit_correct a k e He Hk Hle) as (out & Hrun & Hlen & Hn).
    exists out. split; [exact Hrun|]. split; [exact Hlen|].
    set (n := length a) in *. set (j := (Z.to_nat (uval k) mod n)%nat).
    assert (Hj : (j < n)%nat) by (apply Nat.mod_upper_bound; lia).
    assert (Eo : out = rotate_left (n - j) a).
    { apply nth_ext with (d := false) (d' := false); [rewrite rotate_left_length; exact Hlen|]. intros i Hi.
      rewrite nth_rotate_left by (fold n; lia). fold n.
      set (q := ((i + (n - j)) mod n)%nat).
      assert (Hq : (q < n)%nat) by (apply Nat.mod_upper_bound; lia).
      rewrite <- (Hn q Hq). f_equal. unfold q. rewrite Nat.add_mod_idemp_l by lia.
      rewrite <- Nat.add_mod_idemp_r by lia. fold j. replace (i + (n - j) + j)%nat with (i + 1 * n)%nat by lia.
      rewrite Nat.mod_add, Nat.mod_small by lia. reflexivity. }
    rewrite Eo. unfold n. rewrite rotl_value by (fold n; lia). fold n.
    rewrite <- (rot_mod_value SRotl _ _ (uval k)) by (auto; lia). f_equal. unfold j. rewrite Nat2Z.inj_mod, Z2Nat.id by lia. reflexivity.
  - destruct Hr as [e He]. destruct (rotr_circuit_correct a k e He Hk Hle) as (out & Hrun & Hlen & Hn).
    exists out. split; [exact Hrun|]. split; [exact Hlen|].
    set (n := length a) in *. set (j := (Z.to_nat (uval k) mod n)%nat).
    assert (Hj : (j < n)%nat) by (apply Nat.mod_upper_bound; lia).
    assert (Eo : out = rotate_left j a).
    { apply nth_ext with (d := false) (d' := false); [rewrite rotate_left_length; exact Hlen|]. intros i Hi.
      rewrite nth_rotate_left by (fold n; lia). fold n. rewrite Hn by lia. unfold j. rewrite Nat.add_mod_idemp_r by lia. reflexivity. }
    rewrite Eo. unfold n. rewrite rotr_value by (fold n; lia). fold n.
    rewrite <- (rot_mod_value SRotr _ _ (uval k)) by (auto; lia). f_equal. unfold j. rewrite Nat2Z.inj_mod, Z2Nat.id by lia. reflexivity.
Qed.

Lemma shift_enc_plain_amount p op src s ws w :
  reg_ok src -> reg_enc src = true -> reg_width src = w -> 0 <= s <= w ->
  exists d, op_shift p op src (RPlain s ws) = Ok d /\ reg_ok d /\ reg_enc d = true /\ reg_width d = w /\
    reg_value d = shift_value op w (reg_value src) s.
Proof.
  intros [Hw Hk] He Hwd Hs. destruct src as [v w'|k c]; [discriminate|]. subst k. cbn [reg_width reg_value] in *.
  cbn [op_shift]. unfold uwrap. rewrite Z.mod_small by lia.
  destruct (evps_ok op c (Z.to_nat s)) as (out & E & L & U); [lia|lia|].
  rewrite E. cbn [bind]. eexists. split; [reflexivity|]. split; [apply reg_ok_cipher; lia|]. cbn [reg_enc reg_width reg_value].
  split; [reflexivity|]. split; [lia|]. rewrite U, Hwd, Z2Nat.id by lia. reflexivity.
Qed.

Lemma shift_enc_amount p op src k w :
  reg_ok src -> reg_width src = w -> (0 < length k)%nat -> w <= 2 ^ Z.of_nat (length k) -> rot_width_ok op (Z.to_nat w) ->
  exists d, op_shift p op src (RCipher KL1Glwe k) = Ok d /\ reg_ok d /\ reg_enc d = true /\ reg_width d = w /\
    reg_value d = shift_value op w (reg_value src) (uval k).
Proof.
  intros Hs Hwd Hk Hle Hr. destruct (lift_ok p src Hs) as (c & El & L & U). rewrite Hwd in L.
  assert (Hw : 1 <= w <= 128) by (destruct Hs; lia).
  destruct (shift_circuit_value op c k) as (out & Hrun & Hlen & Hv).
  - lia.
  - exact Hk.
  - rewrite L. apply Nat2Z.inj_le. rewrite Nat2Z.inj_pow. lia.
  - rewrite L. exact Hr.
  - assert (E : op_shift p op src (RCipher KL1Glwe k) = Ok (RCipher KL1Glwe out)).
    { assert (E0 : op_shift p op src (RCipher KL1Glwe k) =
        (c <- lift p src ;; let '(dir, mode) := shift_dm op in
         out <- run_res (bitshift (length c) (length k) dir mode) (rev c ++ rev k) ;; Ok (RCipher KL1Glwe (rev out)))).
      { destruct src as [v w'|kk cc]; [reflexivity|destruct kk; reflexivity]. }
      rewrite E0, El. cbn [bind]. destruct (shift_dm op) as [dir mode]. cbn [fst snd] in Hrun. rewrite Hrun. cbn [bind].
      rewrite rev_involutive. reflexivity. }
    exists (RCipher KL1Glwe out). split; [exact E|]. split; [apply reg_ok_cipher; lia|]. cbn [reg_enc reg_width reg_value].
    split; [reflexivity|]. split; [lia|]. rewrite Hv, L, U, Z2Nat.id by lia. reflexivity.
Qed.

Lemma ushl_big w a s : w <= s -> 0 < w -> ushl Debug w a s = Panic.
Proof. intros H Hw. unfold ushl. destruct (Z.ltb_spec s w) as [H1|H1]; [lia|]. rewrite andb_false_r. reflexivity. Qed.
Lemma ushr_big w a s : w <= s -> 0 < w -> ushr Debug w a s = Panic.
Proof. intros H Hw. unfold ushr. destruct (Z.ltb_spec s w) as [H1|H1]; [lia|]. rewrite andb_false_r. reflexivity. Qed.
Lemma usub_under w a b : a < b -> usub Debug w a b = Panic.
Proof. intros H. unfold usub. destruct (Z.leb_spec b a) as [H1|H1]; [lia|]. reflexivity. Qed.

(** A plaintext shift amount of 128 or more aborts a debug build, whatever the instruction. *)
Lemma shift_plain_big op v w s ws : 0 <= w <= 127 -> 128 <= s -> op_shift Debug op (RPlain v w) (RPlain s ws) = Panic.
Proof.
  intros Hw Hs. unfold op_shift. destruct op; cbn [plain_shift].
  - rewrite ushl_big by lia. reflexivity.
  - rewrite ushr_big by lia. reflexivity.
  - unfold plain_shra. rewrite ushr_big by lia. reflexivity.
  - unfold plain_rotl. rewrite umask_ok by lia. cbn [bind]. rewrite ushl_big by lia. reflexivity.
  - unfold plain_rotr. rewrite umask_ok by lia. cbn [bind]. rewrite usub_under by lia. reflexivity.
Qed.

Lemma shift_enc_big p op c s ws : (1 <= length c)%nat -> Z.of_nat (length c) < s < 2 ^ 32 ->
  op_shift p op (RCipher KL1Glwe c) (RPlain s ws) = Panic.
Proof.
  intros Hc Hs. cbn [op_shift]. unfold uwrap. rewrite Z.mod_small by lia. unfold encrypted_value_plain_shift.
  destruct c as [|x c]; [reflexivity|]. destruct (Nat.ltb_spec (length (x :: c)) (Z.to_nat s)) as [H|H]; [reflexivity|lia].
Qed.
