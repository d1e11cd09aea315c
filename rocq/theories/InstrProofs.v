(** Proofs that the sequential machine gives every instruction its documented meaning. *)
From Coq Require Import ZifyBool ZifyNat.
From Verif Require Import Base Spec BitsLemmas Combos Circuits CircuitsProofs ShiftProofs MulRecProofs Alu SpecAlu AluProofs AluProofs2
  Memory SpecMem MemoryProofs MemoryProofs4 MemoryProofs6 Isa SpecIsa IsaProofs Processor SpecCpu SpecInstr.
Open Scope Z_scope.

Lemma fetch_at s i : instr_at s i -> fetch (m_mem s) (m_pc s) = Ok i.
Proof.
  intros (Ha & H0 & H8 & Hwf & bs & L & B & E & H). unfold fetch, try_load_plaintext_dword. rewrite Ha. cbn [Z.eqb negb].
  rewrite (load_plain_from_ok 8 (m_pc s) 0 (m_mem s) bs); try lia.
  - cbn [bind]. destruct (decode_encode Release i Hwf) as (v & Ev & _ & D). rewrite E in Ev. apply Ok_inj in Ev. subst v. exact D.
  - rewrite Z.add_0_r. exact H.
Qed.

Lemma seq_pc p s i : instr_at s i -> uadd p 32 (m_pc s) 8 = Ok (m_pc s + 8).
Proof. intros (_ & H0 & H8 & _). unfold uadd. destruct (Z.ltb_spec (m_pc s + 8) (2 ^ 32)); [reflexivity|lia]. Qed.

(** One-destination instructions. *)
Lemma step_one p s i d srcs f r' : instr_at s i -> dst_regs i = [d] -> src_regs i = srcs ->
  exec_instr p i (map (m_regs s) srcs) = one_dst f -> f = Ok r' ->
  next_pc p i (map (m_regs s) srcs) (m_pc s) = (x <- uadd p 32 (m_pc s) 8 ;; Ok (NGoto x)) ->
  exists s', seq_step p s = Ok (s', false) /\ m_pc s' = m_pc s + 8 /\ m_mem s' = m_mem s /\ m_regs s' d = r' /\
    forall r, r <> d -> m_regs s' r = m_regs s r.
Proof.
  intros Hi Hd Hs Hx Hf Hn. unfold seq_step. rewrite (fetch_at s i Hi). cbn [bind]. rewrite Hs, Hx, Hf, Hn, Hd.
  rewrite (seq_pc p s i Hi). cbn [one_dst mres bind].
  eexists. split; [reflexivity|]. cbn [m_pc m_mem m_regs write_regs hd tl]. split; [reflexivity|]. split; [reflexivity|].
  split; [rewrite Z.eqb_refl; reflexivity|]. intros r Hr. apply Z.eqb_neq in Hr. rewrite Hr. reflexivity.
Qed.

Definition as_binop (o : opcode) : option binop :=
  match o with
  | OAdd => Some BAdd | OSub => Some BSub | OMul => Some BMul | OAnd => Some BAnd | OOr => Some BOr | OXor => Some BXor
  | OCmpEq => Some (BCmp CEq)
  | OCmpGt => Some (BCmp (COrd false true false)) | OCmpGe => Some (BCmp (COrd false true true))
  | OCmpLt => Some (BCmp (COrd false false false)) | OCmpLe => Some (BCmp (COrd false false true))
  | OCmpGtS => Some (BCmp (COrd true true false)) | OCmpGeS => Some (BCmp (COrd true true true))
  | OCmpLtS => Some (BCmp (COrd true false false)) | OCmpLeS => Some (BCmp (COrd true false true))
  | _ => None
  end.

Lemma doc_binop o w a b v w' : doc_binary o w a b = Some (v, w') ->
  exists bo, as_binop o = Some bo /\ v = binop_value bo w a b /\ w' = binop_width bo w.
Proof.
  destruct o; cbn [doc_binary]; try discriminate; intros E; injection E as <- <-;
    (eexists; split; [reflexivity|]; split; [|reflexivity]); cbn [binop_value]; unfold rel, b2z;
    rewrite ?Z.gtb_ltb, ?Z.geb_leb; reflexivity.
Qed.

Lemma exec_binop_dispatch p o bo d a b ra rb : as_binop o = Some bo ->
  exec_instr p (ins o [d; a; b]) [ra; rb] = one_dst (exec_binop p bo ra rb) /\
  dst_regs (ins o [d; a; b]) = [d] /\ src_regs (ins o [d; a; b]) = [a; b] /\
  forall srcs pc, next_pc p (ins o [d; a; b]) srcs pc = (x <- uadd p 32 pc 8 ;; Ok (NGoto x)).
Proof.
  destruct o; cbn [as_binop]; try discriminate; intros E; injection E as <-; (split; [reflexivity|]);
    (split; [reflexivity|]); (split; [reflexivity|]); intros srcs pc; unfold next_pc; reflexivity.
Qed.

Lemma binop_any p bo w ra rb : reg_ok ra -> reg_ok rb -> reg_width ra = w -> reg_width rb = w ->
  w <= 127 \/ reg_enc ra || reg_enc rb = true -> (reg_enc ra || reg_enc rb = true -> ~ mul_gap bo w) ->
  exists r, exec_binop p bo ra rb = Ok r /\
    has r (binop_value bo w (reg_value ra) (reg_value rb)) (binop_width bo w) (reg_enc ra || reg_enc rb).
Proof.
  intros Ha Hb Wa Wb Hw Hg. destruct (reg_enc ra || reg_enc rb) eqn:E.
  - destruct (binop_enc p bo w ra rb Ha Hb Wa Wb E (Hg eq_refl)) as (bits & X & L & V). eexists. split; [exact X|].
    assert (Hw1 : 1 <= w <= 128) by (rewrite <- Wa; apply Ha).
    split; [|split; [exact V|split; [exact L|reflexivity]]]. split; [|reflexivity]. cbn [reg_width]. rewrite L. destruct bo; cbn [binop_width]; lia.
  - destruct ra as [va wa|]; [|discriminate]. destruct rb as [vb wb|]; [|discriminate]. cbn [reg_width reg_value] in *. subst wa wb.
    destruct Ha as [Wr Va], Hb as [_ Vb]. cbn [reg_width] in Wr. destruct Hw as [Hw|Hw]; [|discriminate].
    rewrite binop_plain by lia. eexists. split; [reflexivity|]. split; [|split; [reflexivity|split; reflexivity]].
    assert (P : 0 < 2 ^ w) by (apply Z.pow_pos_nonneg; lia).
    split; cbn [reg_width]; [destruct bo; cbn [binop_width]; lia|].
    assert (B2 : forall c : bool, 0 <= b2z c < 2 ^ 1) by (intros []; cbn; lia).
    destruct bo as [| | | | | |[|[] ? ?]]; cbn [binop_value binop_width]; try (apply Z.mod_pos_bound; exact P); try apply B2.
    + apply land_range; lia.
    + apply lor_range; lia.
    + apply lxor_range; lia.
Qed.

Lemma two_operand p s o d a b w v w' :
  instr_at s (ins o [d; a; b]) -> binary_ok o w (m_regs s a) (m_regs s b) ->
  doc_binary o w (reg_value (m_regs s a)) (reg_value (m_regs s b)) = Some (v, w') ->
  exists s', seq_step p s = Ok (s', false) /\ sets s s' d v w' (reg_enc (m_regs s a) || reg_enc (m_regs s b)).
Proof.
  intros Hi (Ha & Hb & Wa & Wb & Hw & Hg) Hd. destruct (doc_binop _ _ _ _ _ _ Hd) as (bo & Eo & -> & ->).
  destruct (binop_any p bo w _ _ Ha Hb Wa Wb Hw) as (r & Er & Hr).
  { intros E. assert (G : bo = BMul -> o = OMul) by (destruct o; cbn [as_binop] in Eo; congruence).
    destruct bo; cbn [mul_gap]; tauto. }
  destruct (exec_binop_dispatch p o bo d a b (m_regs s a) (m_regs s b) Eo) as (X1 & X2 & X3 & X4).
  destruct (step_one p s _ d _ _ r Hi X2 X3 X1 Er (X4 _ _)) as (s' & E & P1 & P2 & P3 & P4).
  exists s'. split; [exact E|]. split; [exact P1|]. split; [exact P2|]. split; [rewrite P3; exact Hr|exact P4].
Qed.

(** One-operand instructions. *)
Lemma one_operand p s o d a ms f v w e r :
  instr_at s (ins o (d :: a :: ms)) ->
  dst_regs (ins o (d :: a :: ms)) = [d] -> src_regs (ins o (d :: a :: ms)) = [a] ->
  exec_instr p (ins o (d :: a :: ms)) [m_regs s a] = one_dst f ->
  (forall srcs pc, next_pc p (ins o (d :: a :: ms)) srcs pc = (x <- uadd p 32 pc 8 ;; Ok (NGoto x))) ->
  f = Ok r -> has r v w e ->
  exists s', seq_step p s = Ok (s', false) /\ sets s s' d v w e.
Proof.
  intros Hi Hd Hs Hx Hn Hf Hr. destruct (step_one p s _ d _ _ r Hi Hd Hs Hx Hf (Hn _ _)) as (s' & E & P1 & P2 & P3 & P4).
  exists s'. split; [exact E|]. split; [exact P1|]. split; [exact P2|]. split; [rewrite P3; exact Hr|exact P4].
Qed.

Lemma complement_value w v r : 1 <= w -> 0 <= v < 2 ^ w -> 0 <= r < 2 ^ w ->
  (forall i, 0 <= i < w -> Z.testbit r i = negb (Z.testbit v i)) -> r = 2 ^ w - 1 - v.
Proof.
  intros Hw Hv Hr H.
  assert (Hi : forall x i, 0 <= x < 2 ^ w -> w <= i -> Z.testbit x i = false).
  { intros x i Hx Hwi. apply Z.testbit_false; [lia|]. rewrite Z.div_small; [reflexivity|]. split; [lia|].
    eapply Z.lt_le_trans; [apply Hx|]. apply Z.pow_le_mono_r; lia. }
  rewrite Z.sub_1_r, <- Z.ones_equiv, Z.sub_nocarry_ldiff.
  - apply Z.bits_inj'. intros i Hi0. rewrite Z.ldiff_spec. destruct (Z.lt_ge_cases i w) as [L|L].
    + rewrite H, Z.ones_spec_low by lia. reflexivity.
    + rewrite (Hi r), Z.ones_spec_high by lia. reflexivity.
  - apply Z.bits_inj'. intros i Hi0. rewrite Z.ldiff_spec, Z.bits_0. destruct (Z.lt_ge_cases i w) as [L|L].
    + rewrite Z.ones_spec_low by lia. apply andb_false_r.
    + rewrite (Hi v) by lia. reflexivity.
Qed.

Lemma loadi_accepts p imm w v : 1 <= w <= 32 -> - 2 ^ (w - 1) <= v < 2 ^ w -> imm = v mod 2 ^ 32 ->
  op_loadi p imm w = Ok (RPlain (v mod 2 ^ w) w).
Proof.
  intros Hw Hv E.
  assert (Hi : 0 <= imm < 2 ^ 32) by (rewrite E; apply Z.mod_pos_bound; lia).
  rewrite loadi_ok by assumption.
  assert (Hp : 0 < 2 ^ (w - 1)) by (apply pow2_pos; lia). pose proof (pow2_split w ltac:(lia)) as H2.
  assert (H31 : 2 ^ (w - 1) <= 2 ^ 31) by (apply Z.pow_le_mono_r; lia).
  assert (H32 : 2 ^ w <= 2 ^ 32) by (apply Z.pow_le_mono_r; lia).
  assert (E32 : 2 ^ 32 = 2 * 2 ^ 31) by reflexivity.
  destruct (Z.lt_ge_cases v 0) as [Hn|Hn].
  - assert (Ei : imm = v + 2 ^ 32) by (rewrite E, <- (Z_mod_plus_full v 1), Z.mod_small; lia).
    destruct (Z.leb_spec (2 ^ 32 - 2 ^ (w - 1)) imm) as [H|H]; [|lia]. rewrite orb_true_r.
    rewrite Ei. replace (2 ^ 32) with (2 ^ (32 - w) * 2 ^ w) by (rewrite <- Z.pow_add_r by lia; f_equal; lia).
    rewrite Z_mod_plus_full. reflexivity.
  - assert (Ei : imm = v) by (rewrite E, Z.mod_small; lia). rewrite Ei.
    destruct (Z.ltb_spec v (2 ^ w)) as [H|H]; [reflexivity|lia].
Qed.

Lemma step_two p s i d c srcs f r k : instr_at s i -> dst_regs i = [d; c] -> src_regs i = srcs ->
  exec_instr p i (map (m_regs s) srcs) = two_dst f -> f = Ok (r, k) ->
  next_pc p i (map (m_regs s) srcs) (m_pc s) = (x <- uadd p 32 (m_pc s) 8 ;; Ok (NGoto x)) -> d <> c ->
  exists s', seq_step p s = Ok (s', false) /\ m_pc s' = m_pc s + 8 /\ m_mem s' = m_mem s /\ m_regs s' d = r /\ m_regs s' c = k /\
    forall x, x <> d -> x <> c -> m_regs s' x = m_regs s x.
Proof.
  intros Hi Hd Hs Hx Hf Hn Hne. unfold seq_step. rewrite (fetch_at s i Hi). cbn [bind]. rewrite Hs, Hx, Hf, Hn, Hd.
  rewrite (seq_pc p s i Hi). cbn [two_dst mres bind].
  eexists. split; [reflexivity|]. cbn [m_pc m_mem m_regs write_regs hd tl]. split; [reflexivity|]. split; [reflexivity|].
  rewrite !Z.eqb_refl, (proj2 (Z.eqb_neq d c) Hne). split; [reflexivity|]. split; [reflexivity|].
  intros x H1 H2. rewrite (proj2 (Z.eqb_neq x c) H2), (proj2 (Z.eqb_neq x d) H1). reflexivity.
Qed.

Definition as_shift (o : opcode) : option shiftop :=
  match o with OShl => Some SShl | OShr => Some SShr | OShra => Some SShra | ORotl => Some SRotl | ORotr => Some SRotr | _ => None end.
Lemma doc_shiftop o w a k v : doc_shift o w a k = Some v -> exists so, as_shift o = Some so /\ v = shift_value so w a k.
Proof. destruct o; cbn [doc_shift]; try discriminate; intros E; injection E as <-; eexists; split; reflexivity. Qed.
Lemma shift_dispatch p o so d a b ra rb : as_shift o = Some so ->
  exec_instr p (ins o [d; a; b]) [ra; rb] = one_dst (op_shift p so ra rb) /\
  dst_regs (ins o [d; a; b]) = [d] /\ src_regs (ins o [d; a; b]) = [a; b] /\
  forall srcs pc, next_pc p (ins o [d; a; b]) srcs pc = (x <- uadd p 32 pc 8 ;; Ok (NGoto x)).
Proof.
  destruct o; cbn [as_shift]; try discriminate; intros E; injection E as <-; (split; [reflexivity|]);
    (split; [reflexivity|]); (split; [reflexivity|]); intros srcs pc; unfold next_pc; reflexivity.
Qed.

Lemma sint_small w v : 1 <= w -> 0 <= v < 2 ^ (w - 1) -> sint w v = v.
Proof. intros Hw Hv. unfold sint. destruct (Z.ltb_spec v (2 ^ (w - 1))); lia. Qed.

Lemma shift_range so w v k : 1 <= w -> 0 <= v < 2 ^ w -> 0 <= k -> 0 <= shift_value so w v k < 2 ^ w.
Proof.
  intros Hw Hv Hk. assert (P : 0 < 2 ^ w) by (apply Z.pow_pos_nonneg; lia).
  assert (Hm : 0 <= k mod w < w) by (apply Z.mod_pos_bound; lia).
  destruct so; cbn [shift_value]; try (apply Z.mod_pos_bound; exact P).
  - assert (0 < 2 ^ k) by (apply Z.pow_pos_nonneg; lia).
    split; [apply Z.div_pos; lia|]. apply Z.div_lt_upper_bound; [lia|]. nia.
  - set (j := k mod w) in *. assert (E : 2 ^ w = 2 ^ j * 2 ^ (w - j)) by (rewrite <- Z.pow_add_r by lia; f_equal; lia).
    assert (0 < 2 ^ j) by (apply Z.pow_pos_nonneg; lia). assert (0 < 2 ^ (w - j)) by (apply Z.pow_pos_nonneg; lia).
    rewrite E, (Z.mul_comm (2 ^ j)), Z.mul_mod_distr_r by lia.
    pose proof (Z.mod_pos_bound v (2 ^ (w - j)) ltac:(lia)).
    assert (0 <= v / 2 ^ (w - j) < 2 ^ j) by (split; [apply Z.div_pos; lia|apply Z.div_lt_upper_bound; lia]). nia.
  - set (j := k mod w) in *. assert (E : 2 ^ w = 2 ^ j * 2 ^ (w - j)) by (rewrite <- Z.pow_add_r by lia; f_equal; lia).
    assert (0 < 2 ^ j) by (apply Z.pow_pos_nonneg; lia). assert (0 < 2 ^ (w - j)) by (apply Z.pow_pos_nonneg; lia).
    rewrite E, Z.mul_mod_distr_r by lia.
    pose proof (Z.mod_pos_bound v (2 ^ j) ltac:(lia)).
    assert (0 <= v / 2 ^ j < 2 ^ (w - j)) by (split; [apply Z.div_pos; lia|apply Z.div_lt_upper_bound; lia]). nia.
Qed.

Lemma shift_by_plain p s o d a b w k wk v :
  instr_at s (ins o [d; a; b]) -> reg_ok (m_regs s a) -> reg_width (m_regs s a) = w -> m_regs s b = RPlain k wk ->
  0 <= k <= w -> k < 127 -> w <= 127 \/ reg_enc (m_regs s a) = true ->
  (reg_enc (m_regs s a) = false -> o = OShl -> reg_value (m_regs s a) * 2 ^ k < 2 ^ w) ->
  (reg_enc (m_regs s a) = false -> o = OShra -> reg_value (m_regs s a) < 2 ^ (w - 1)) ->
  doc_shift o w (reg_value (m_regs s a)) k = Some v ->
  exists s', seq_step p s = Ok (s', false) /\ sets s s' d v w (reg_enc (m_regs s a)).
Proof.
  intros Hi Ha Wa Eb Hk Hk2 Hw H1 H2 Hd. destruct (doc_shiftop _ _ _ _ _ Hd) as (so & Eo & ->).
  assert (R : exists r, op_shift p so (m_regs s a) (m_regs s b) = Ok r /\
            has r (shift_value so w (reg_value (m_regs s a)) k) w (reg_enc (m_regs s a))).
  { rewrite Eb. destruct (reg_enc (m_regs s a)) eqn:E.
    - destruct (shift_enc_plain_amount p so (m_regs s a) k wk w Ha E Wa Hk) as (r & X & O & En & W & V).
      exists r. split; [exact X|]. split; [exact O|]. split; [exact V|]. split; assumption.
    - destruct (m_regs s a) as [va wa|] eqn:Er; [|discriminate]. cbn [reg_width reg_value] in *. subst wa.
      destruct Ha as [W0 Va]. cbn in W0. destruct Hw as [Hw|]; [|discriminate].
      destruct (shift_plain_ok p so w wk va k ltac:(lia) Va Hk Hk2) as (r & X & _ & N & _).
      exists (RPlain r w). split; [exact X|]. rewrite N.
      + split; [|split; [reflexivity|split; reflexivity]]. split; [cbn; lia|]. cbn. apply shift_range; lia.
      + assert (P : 0 <= va * 2 ^ k) by (apply Z.mul_nonneg_nonneg; [lia|]; apply Z.pow_nonneg; lia).
        assert (P128 : 2 ^ w <= 2 ^ 128) by (apply Z.pow_le_mono_r; lia).
        destruct so; cbn [shift_unmasked]; try tauto.
        * assert (o = OShl) by (destruct o; cbn in Eo; congruence). specialize (H1 eq_refl H). rewrite Z.mod_small; lia.
        * assert (o = OShra) by (destruct o; cbn in Eo; congruence). specialize (H2 eq_refl H). lia. }
  destruct R as (r & Er & Hr).
  destruct (shift_dispatch p o so d a b (m_regs s a) (m_regs s b) Eo) as (X1 & X2 & X3 & X4).
  destruct (step_one p s _ d _ _ r Hi X2 X3 X1 Er (X4 _ _)) as (s' & E & P1 & P2 & P3 & P4).
  exists s'. split; [exact E|]. split; [exact P1|]. split; [exact P2|]. split; [rewrite P3; exact Hr|exact P4].
Qed.

Lemma shift_by_encrypted p s o d a b w k v :
  instr_at s (ins o [d; a; b]) -> reg_ok (m_regs s a) -> reg_width (m_regs s a) = w -> m_regs s b = RCipher KL1Glwe k ->
  (0 < length k)%nat -> w <= 2 ^ Z.of_nat (length k) ->
  (o = ORotl \/ o = ORotr -> exists e, w = 2 ^ Z.of_nat e) ->
  doc_shift o w (reg_value (m_regs s a)) (uval k) = Some v ->
  exists s', seq_step p s = Ok (s', false) /\ sets s s' d v w true.
Proof.
  intros Hi Ha Wa Eb Hk Hk2 Hrot Hd. destruct (doc_shiftop _ _ _ _ _ Hd) as (so & Eo & ->).
  assert (Hro : rot_width_ok so (Z.to_nat w)).
  { assert (G : o = ORotl \/ o = ORotr -> exists e, Z.to_nat w = (2 ^ e)%nat).
    { intros Ho. destruct (Hrot Ho) as (e & ->). exists e. rewrite <- (Nat2Z.id (2 ^ e)). f_equal. rewrite Nat2Z.inj_pow. reflexivity. }
    destruct so; cbn [rot_width_ok]; try exact Logic.I; apply G; destruct o; cbn in Eo; try congruence; auto. }
  destruct (shift_enc_amount p so (m_regs s a) k w Ha Wa Hk Hk2 Hro) as (r & X & O & En & W & V). rewrite <- Eb in X.
  destruct (shift_dispatch p o so d a b (m_regs s a) (m_regs s b) Eo) as (X1 & X2 & X3 & X4).
  destruct (step_one p s _ d _ _ r Hi X2 X3 X1 X (X4 _ _)) as (s' & E & P1 & P2 & P3 & P4).
  exists s'. split; [exact E|]. split; [exact P1|]. split; [exact P2|]. split; [|exact P4]. rewrite P3.
  split; [exact O|]. split; [exact V|]. split; assumption.
Qed.

Lemma bytes_value_range bs : Forall byte_ok bs -> 0 <= bytes_value bs < 2 ^ (8 * Z.of_nat (length bs)).
Proof.
  induction 1 as [|b bs Hb _ IH]; [cbn; lia|]. unfold bytes_value in *. cbn [map le_value length].
  assert (B : 0 <= byte_num b < 256).
  { destruct b as [v|c]; cbn [byte_ok byte_num] in *; [exact Hb|]. pose proof (uval_range c) as R. rewrite Hb in R. exact R. }
  replace (8 * Z.of_nat (S (length bs))) with (8 * Z.of_nat (length bs) + 8) by lia. rewrite Z.pow_add_r by lia.
  change (2 ^ 8) with 256. lia.
Qed.

Lemma load_meaning p s d a w off ptr w0 bs e :
  instr_at s (ins OLoad [d; a; w; off]) -> m_regs s a = RPlain ptr w0 -> 0 <= ptr < 2 ^ 32 -> access_width w ->
  addr_ok (ptr + off) -> (ptr + off) mod (w / 8) = 0 -> Z.of_nat (length bs) = w / 8 -> Forall byte_ok bs ->
  holds (m_mem s) (ptr + off) bs -> (if e : bool then all_cipher bs else all_plain bs) ->
  exists s', seq_step p s = Ok (s', false) /\ sets s s' d (bytes_value bs) w e.
Proof.
  intros Hi Ea Hp Hw Ho Hal L B H He. destruct (access_width_size w Hw) as (Hn & Hw8 & Hw1).
  destruct (op_load_ok ptr w0 off w (ptr + off) bs (m_mem s)) as [L1 L2]; auto.
  { rewrite Z.mod_small by lia. reflexivity. }
  assert (R : exists r, op_load (RPlain ptr w0) off w (m_mem s) = Ok r /\ has r (bytes_value bs) w e).
  { destruct e.
    - destruct (L2 He) as (dd & E & Ld & V). exists (RCipher KL1Glwe dd). split; [exact E|].
      split; [|split; [exact V|split; [cbn; lia|reflexivity]]]. split; [cbn; lia|reflexivity].
    - exists (RPlain (bytes_value bs) w). split; [apply L1; exact He|]. split; [|split; [reflexivity|split; reflexivity]].
      split; [cbn; lia|]. cbn. pose proof (bytes_value_range bs B). rewrite L, Hw8 in *. lia. }
  destruct R as (r & E & Hr). rewrite <- Ea in E.
  unfold seq_step. rewrite (fetch_at _ _ Hi). cbn [bind].
  change (src_regs (ins OLoad [d; a; w; off])) with [a]. change (dst_regs (ins OLoad [d; a; w; off])) with [d].
  change (map (m_regs s) [a]) with [m_regs s a].
  change (exec_instr p (ins OLoad [d; a; w; off]) [m_regs s a] (m_mem s)) with
    ((x <-- mread (op_load (m_regs s a) off w) ;; mret [x]) (m_mem s)).
  unfold mbind, mread. rewrite E. cbn [mret bind].
  change (next_pc p (ins OLoad [d; a; w; off]) [m_regs s a] (m_pc s)) with (x <- uadd p 32 (m_pc s) 8 ;; Ok (NGoto x)).
  rewrite (seq_pc _ _ _ Hi). cbn [bind].
  eexists. split; [reflexivity|]. split; [reflexivity|]. split; [reflexivity|]. cbn [m_regs write_regs hd tl]. rewrite Z.eqb_refl.
  split; [exact Hr|]. intros x Hx. rewrite (proj2 (Z.eqb_neq x d) Hx). reflexivity.
Qed.

Lemma store_meaning p s a b w off ptr w0 :
  instr_at s (ins OStore [a; b; w; off]) -> a <> b -> m_regs s a = RPlain ptr w0 -> 0 <= ptr < 2 ^ 32 -> access_width w ->
  addr_ok (ptr + off) -> (ptr + off) mod (w / 8) = 0 -> reg_ok (m_regs s b) ->
  (reg_enc (m_regs s b) = true -> w <= reg_width (m_regs s b)) -> range_mapped (m_mem s) (ptr + off) (w / 8) ->
  exists s' bs, seq_step p s = Ok (s', false) /\ m_pc s' = m_pc s + 8 /\ (forall r, m_regs s' r = m_regs s r) /\
    holds (m_mem s') (ptr + off) bs /\ Z.of_nat (length bs) = w / 8 /\ Forall byte_ok bs /\
    bytes_value bs = reg_value (m_regs s b) mod 2 ^ w /\
    (if reg_enc (m_regs s b) then all_cipher bs else all_plain bs) /\
    same_outside (m_mem s) (m_mem s') (ptr + off) (w / 8).
Proof.
  intros Hi Hne Ea Hp Hw Ho Hal Hb He Hm. destruct (access_width_size w Hw) as (Hn & Hw8 & Hw1).
  destruct (op_store_ok p (m_regs s b) ptr w0 off w (ptr + off) (m_mem s)) as (m' & S1 & S2 & S3 & S4); auto.
  { rewrite Z.mod_small by lia. reflexivity. }
  { intros E. specialize (He E). lia. }
  destruct (store_image_value (m_regs s b) (Z.to_nat (w / 8)) Hb) as (I1 & I2 & I3 & I4).
  { intros E. specialize (He E). lia. }
  rewrite Z2Nat.id, Hw8 in I3 by lia. rewrite <- Ea in S1.
  unfold seq_step. rewrite (fetch_at _ _ Hi). cbn [bind].
  change (src_regs (ins OStore [a; b; w; off])) with [a; b]. change (dst_regs (ins OStore [a; b; w; off])) with (@nil Z).
  change (map (m_regs s) [a; b]) with [m_regs s a; m_regs s b].
  change (exec_instr p (ins OStore [a; b; w; off]) [m_regs s a; m_regs s b] (m_mem s)) with
    ((if a =? b then mres Panic else _ <-- op_store p (m_regs s b) (m_regs s a) off w ;; mret []) (m_mem s) : mem * res (list reg)).
  rewrite (proj2 (Z.eqb_neq a b) Hne). unfold mbind. rewrite S1. cbn [mret bind].
  change (next_pc p (ins OStore [a; b; w; off]) [m_regs s a; m_regs s b] (m_pc s)) with (x <- uadd p 32 (m_pc s) 8 ;; Ok (NGoto x)).
  rewrite (seq_pc _ _ _ Hi). cbn [bind].
  eexists. exists (store_image (m_regs s b) (Z.to_nat (w / 8))). split; [reflexivity|]. cbn [m_pc m_regs m_mem write_regs].
  split; [reflexivity|]. split; [reflexivity|]. split; [exact S3|]. split; [lia|]. split; [exact I2|]. split; [exact I3|].
  split; [exact I4|exact S4].
Qed.

Lemma control_flow p s :
  (forall off, instr_at s (ins OBranch [off]) ->
     exists s', seq_step p s = Ok (s', false) /\ goes s s' ((m_pc s + off) mod 2 ^ 32)) /\
  (forall a off v w, instr_at s (ins OBranchNonZero [a; off]) -> m_regs s a = RPlain v w ->
     exists s', seq_step p s = Ok (s', false) /\ goes s s' (if v =? 0 then m_pc s + 8 else (m_pc s + off) mod 2 ^ 32)) /\
  (forall a off v w, instr_at s (ins OBranchZero [a; off]) -> m_regs s a = RPlain v w ->
     exists s', seq_step p s = Ok (s', false) /\ goes s s' (if v =? 0 then (m_pc s + off) mod 2 ^ 32 else m_pc s + 8)) /\
  (forall a off c bits, instr_at s (ins OBranchNonZero [a; off]) \/ instr_at s (ins OBranchZero [a; off]) ->
     m_regs s a = RCipher c bits -> seq_step p s = Err EBranchOnCiphertext) /\
  (instr_at s (ins ORet []) -> exists s', seq_step p s = Ok (s', true) /\ goes s s' (m_pc s)) /\
  (forall a h, instr_at s (ins ODbg [a; h]) -> exists s', seq_step p s = Ok (s', false) /\ goes s s' (m_pc s + 8)).
Proof.
  assert (G : forall (s0 : mach) pc, goes s0 {| m_pc := pc; m_regs := m_regs s0; m_mem := m_mem s0 |} pc) by (repeat split).
  split; [|split; [|split; [|split; [|split]]]].
  - intros off Hi. unfold seq_step. rewrite (fetch_at _ _ Hi). eexists. split; [reflexivity|]. apply G.
  - intros a off v w Hi Ea. unfold seq_step. rewrite (fetch_at _ _ Hi). cbn [bind].
    change (src_regs (ins OBranchNonZero [a; off])) with [a]. cbn [map]. rewrite Ea. cbn [exec_instr op ins metas]. 
    change (metas (ins OBranchNonZero [a; off])) with [off].
    unfold exec_instr, next_pc. change (metas (ins OBranchNonZero [a; off])) with [off]. cbn [op ins mret bind].
    rewrite (seq_pc _ _ _ Hi). cbn [bind]. destruct (v =? 0); cbn [negb]; eexists; (split; [reflexivity|]); apply G.
  - intros a off v w Hi Ea. unfold seq_step. rewrite (fetch_at _ _ Hi). cbn [bind].
    change (src_regs (ins OBranchZero [a; off])) with [a]. cbn [map]. rewrite Ea.
    unfold exec_instr, next_pc. change (metas (ins OBranchZero [a; off])) with [off]. cbn [op ins mret bind].
    rewrite (seq_pc _ _ _ Hi). cbn [bind]. destruct (v =? 0); eexists; (split; [reflexivity|]); apply G.
  - intros a off c bits [Hi|Hi] Ea; unfold seq_step; rewrite (fetch_at _ _ Hi); cbn [bind].
    + change (src_regs (ins OBranchNonZero [a; off])) with [a]. cbn [map]. rewrite Ea. reflexivity.
    + change (src_regs (ins OBranchZero [a; off])) with [a]. cbn [map]. rewrite Ea. reflexivity.
  - intros Hi. unfold seq_step. rewrite (fetch_at _ _ Hi). eexists. split; [reflexivity|]. repeat split.
  - intros a h Hi. unfold seq_step. rewrite (fetch_at _ _ Hi). cbn [bind].
    change (src_regs (ins ODbg [a; h])) with [a]. cbn [map].
    change (next_pc p (ins ODbg [a; h]) [m_regs s a] (m_pc s)) with (x <- uadd p 32 (m_pc s) 8 ;; Ok (NGoto x)).
    rewrite (seq_pc _ _ _ Hi). eexists. split; [reflexivity|]. apply G.
Qed.

Lemma wf_inv i : instr_wf i -> length (operands i) = length (filter is_operand (shape (op i))).
Proof. unfold instr_wf. intros H. induction H; cbn [length]; auto. Qed.

Lemma gas_table s i : instr_at s i -> seq_gas s = doc_gas (op i) (map (fun r => reg_enc (m_regs s r)) (src_regs i)).
Proof.
  intros Hi. unfold seq_gas. rewrite (fetch_at _ _ Hi). destruct Hi as (_ & _ & _ & Hwf & _). apply wf_inv in Hwf.
  assert (X : forall l, existsb is_cipher_reg (map (m_regs s) l) = existsb (fun e => e) (map (fun r => reg_enc (m_regs s r)) l)).
  { intros l. induction l as [|x l IH]; [reflexivity|]. cbn [map existsb]. rewrite IH. destruct (m_regs s x); reflexivity. }
  destruct i as [o l]. cbn [op operands] in *.
  destruct o; cbn in Hwf; unfold compute_gas, doc_gas; cbn [op]; rewrite ?X; try reflexivity.
  all: destruct l as [|x0 [|x1 [|x2 [|]]]]; try discriminate Hwf; cbn; destruct (m_regs s x2); reflexivity.
Qed.
