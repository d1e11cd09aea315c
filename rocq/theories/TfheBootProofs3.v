(** Bootstrapping: lookup tables and correctness of programmable bootstrapping. *)
From Verif Require Import Base Alu AluProofs PolyRing Tfhe TfheGlwe TfheBoot SpecTfhe SpecGlwe SpecBoot FluentIntProofs TfheProofs TfheProofs2 TfheProofs3 TfheGlweProofs TfheGlweProofs2 TfheGlweProofs3 TfheGlweProofs4 TfheBootProofs TfheBootProofs2.
Require Import Setoid Morphisms Ring.
Ltac Zify.zify_post_hook ::= idtac.
Open Scope Z_scope.

Lemma pow2_log2 N : is_pow2 N = true -> N = (2 ^ Nat.log2 N)%nat /\ (0 < N)%nat.
Proof.
  unfold is_pow2. intros H. apply andb_prop in H as (A & B). apply Nat.eqb_eq in B. split; [congruence|].
  destruct N; [discriminate|lia].
Qed.
Lemma pow2_Z n : Z.of_nat (2 ^ n) = 2 ^ Z.of_nat n.
Proof. rewrite Nat2Z.inj_pow. reflexivity. Qed.

Lemma lut_slots_ok v : (1 <= v)%nat -> lut_slots v = Ok (2 ^ log_slots v)%nat.
Proof.
  intros H. unfold lut_slots, log_slots. destruct (Nat.eqb_spec v 0); [lia|]. do 2 f_equal.
  unfold is_pow2. destruct (Nat.eqb_spec v 0); [lia|]. cbn [negb andb].
  destruct (Nat.eqb_spec (2 ^ Nat.log2 v) v) as [E|E].
  - rewrite <- E at 2. symmetry. now rewrite Nat.log2_up_pow2 by lia.
  - destruct (Nat.le_gt_cases v 1); [assert (v = 1)%nat by lia; subst; now exfalso|].
    symmetry. apply Nat.log2_up_unique; [lia|]. pose proof (Nat.log2_spec v ltac:(lia)) as (A & B).
    replace (Nat.pred (Nat.log2 v + 1)) with (Nat.log2 v) by lia. replace (Nat.log2 v + 1)%nat with (S (Nat.log2 v)) by lia. lia.
Qed.

Lemma shl_i32_ok pr p : 0 <= p <= 30 -> shl_i32 pr p = Ok (2 ^ p).
Proof.
  intros H. unfold shl_i32. rewrite ushl_ok by lia. cbn [bind]. rewrite Z.mul_1_l.
  assert (0 < 2 ^ p) by (apply pow_pos'; lia). assert (2 ^ p < 2 ^ 31) by (apply Z.pow_lt_mono_r; lia).
  assert (2 ^ 31 < 2 ^ 32) by reflexivity.
  rewrite uwrap_small by (unfold torus; lia). destruct (Z.ltb_spec (2 ^ p) (2 ^ 31)); [reflexivity|lia].
Qed.

Section P.
Context (N : nat) (w : Z).
Local Notation "f == g" := (peq N (2 ^ w) f g) (at level 70).
Add Ring poly_ring_w7 : (poly_ring N (2 ^ w)) (setoid (peq_equiv N (2 ^ w)) (poly_ring_ext N (2 ^ w))).
Local Notation pn := (pnear N w).

(** The table before the half-window rotation. *)
Definition lut_poly (p : Z) (vals : list (Z -> Z)) (stride : nat) : poly :=
  fun i => slot vals ((i mod stride) mod (2 ^ log_slots (length vals))) (Z.of_nat (i / stride)) * 2 ^ (w - p).

Lemma maps_slot p maps vals i j : 0 <= p -> maps_ok p maps vals -> 0 <= j < 2 ^ p ->
  match nth_error maps i with Some f => f j | None => Ok 0 end = Ok (slot vals i j) /\ 0 <= slot vals i j < 2 ^ p.
Proof.
  intros Hp H Hj. unfold slot. revert i. induction H as [|f g maps vals Hfg H IH]; intros [|i]; cbn [nth_error nth].
  - split; [reflexivity|]. pose proof (pow_pos' p Hp). lia.
  - split; [reflexivity|]. pose proof (pow_pos' p Hp). lia.
  - now apply Hfg.
  - apply IH.
Qed.

Lemma half_rot l hs : length l = N -> (hs <= N)%nat ->
  coef (rot_left hs (neg_range w l 0 hs)) == pmono N (- Z.of_nat hs) (coef l).
Proof.
  intros Hl Hh k Hk. unfold coef. rewrite rot_left_nth by (rewrite neg_range_len; lia). rewrite neg_range_len, Hl.
  destruct (Nat.ltb_spec (k + hs) N).
  - rewrite neg_range_nth by lia. destruct (Nat.leb_spec 0 (k + hs)); [|lia]. destruct (Nat.ltb_spec (k + hs) hs); [lia|]. cbn [andb].
    rewrite (pmono_at N _ _ k 0 (k + hs)%nat) by lia. reflexivity.
  - rewrite neg_range_nth by lia. destruct (Nat.leb_spec 0 (k + hs - N)); [|lia]. destruct (Nat.ltb_spec (k + hs - N) hs); [|lia]. cbn [andb].
    rewrite (pmono_at N _ _ k 1 (k + hs - N)%nat) by lia. apply uwrap_congr.
Qed.

Lemma generate_lut_ok pr out maps vals p : word w -> is_pow2 N = true -> 1 <= p <= 30 -> 2 ^ p <= Z.of_nat N -> p < w ->
  (1 <= length maps)%nat -> maps_ok p maps vals ->
  exists T, generate_lut pr w N out maps p = Ok T /\ poly_wf w N T /\
    coef T == pmono N (- Z.of_nat (N / 2 ^ Z.to_nat p / 2)) (lut_poly p vals (N / 2 ^ Z.to_nat p)).
Proof.
  intros Hw HP Hp HpN Hpw Hm Hmap. pose proof (word_pos w Hw) as Wp. pose proof (word_le w Hw) as Wl.
  destruct (pow2_log2 N HP) as (EN & HN0). unfold generate_lut. rewrite shl_i32_ok by lia. cbn [bind]. rewrite lut_slots_ok by assumption. cbn [bind].
  destruct (Z.leb_spec (2 ^ p) (Z.of_nat N)); [|lia].
  assert (EP : Z.to_nat (2 ^ p) = (2 ^ Z.to_nat p)%nat). { apply Nat2Z.inj. rewrite pow2_Z. rewrite Z2Nat.id by (pose proof (pow_pos' p ltac:(lia)); lia). now rewrite Z2Nat.id by lia. }
  rewrite EP. set (stride := (N / 2 ^ Z.to_nat p)%nat).
  assert (Hpl : (Z.to_nat p <= Nat.log2 N)%nat).
  { rewrite EN, pow2_Z in HpN. apply Z.pow_le_mono_r_iff in HpN; lia. }
  assert (Hst : (stride * 2 ^ Z.to_nat p = N)%nat).
  { unfold stride. rewrite EN at 1. replace (Nat.log2 N) with (Nat.log2 N - Z.to_nat p + Z.to_nat p)%nat by lia. rewrite Nat.pow_add_r, Nat.div_mul by (apply Nat.pow_nonzero; lia).
    rewrite <- Nat.pow_add_r. rewrite EN at 2. f_equal. lia. }
  assert (Hs0 : (0 < stride)%nat) by (destruct stride; lia).
  rewrite (mapM_ok _ (fun i => uwrap w (lut_poly p vals stride i))).
  2:{ intros i Hi. apply in_seq in Hi. destruct (Nat.ltb_spec i (stride * 2 ^ Z.to_nat p)); [|lia]. unfold lut_entry.
      assert (Hj : 0 <= Z.of_nat (i / stride) < 2 ^ p).
      { split; [apply Nat2Z.is_nonneg|]. assert (Q : (i / stride < 2 ^ Z.to_nat p)%nat) by (apply Nat.div_lt_upper_bound; [lia|rewrite Nat.mul_comm in Hst; lia]). apply Nat2Z.inj_lt in Q. rewrite pow2_Z, Z2Nat.id in Q by lia. exact Q. }
      destruct (maps_slot p maps vals ((i mod stride) mod 2 ^ log_slots (length maps))%nat (Z.of_nat (i / stride)) ltac:(lia) Hmap Hj) as (A & B).
      rewrite A. cbn [bind]. destruct (Z.ltb_spec (slot vals ((i mod stride) mod 2 ^ log_slots (length maps))%nat (Z.of_nat (i / stride))) (2 ^ p)); [|lia].
      rewrite usub_ok by lia. cbn [bind]. rewrite ushl_ok by lia. cbn [bind]. f_equal.
      unfold lut_poly. rewrite <- (Forall2_len _ _ _ Hmap).
      apply uwrap_eq. set (x := _ * _). unfold uwrap. apply zeq_iff; [lia|].
      exists (- (x / 2 ^ 64) * 2 ^ (64 - w)). rewrite <- Z.mul_assoc, <- Z.pow_add_r by lia. replace (64 - w + w) with 64 by lia.
      pose proof (Z.div_mod x (2 ^ 64) ltac:(lia)). lia. }
  cbn [bind]. eexists. split; [reflexivity|]. set (l := map _ _).
  assert (Ll : length l = N) by (unfold l; rewrite map_length; apply seq_length).
  assert (Hh : (stride / 2 <= N)%nat). { apply (Nat.le_trans _ stride); [apply Nat.div_le_upper_bound; lia|]. rewrite <- Hst. nia. }
  split.
  - split; [rewrite rot_left_len, neg_range_len; assumption|]. apply toruses_rot. apply toruses_neg_range; [lia|].
    apply Forall_forall. intros x Hx. apply in_map_iff in Hx as (i & <- & _). apply uwrap_torus; lia.
  - rewrite (half_rot l _ Ll Hh). apply pmono_mor. intros k Hk. unfold coef, l. rewrite nth_map_seq by assumption. apply uwrap_congr.
Qed.

Lemma pow_sum a b c : 0 <= b -> 0 <= c -> a = b + c -> 2 ^ a = 2 ^ b * 2 ^ c.
Proof. intros Hb Hc ->. now apply Z.pow_add_r. Qed.

(** The arithmetic of the window: [H] half a window, [P] windows per half turn, [Q] the rounding step. *)
Lemma window_arith H Q G P NN y idx m t e ii : 0 < H -> 0 < Q -> 0 < G -> 0 < P -> NN = P * (2 * H) -> H = y * G ->
  (G | idx) -> idx * Q = m * (2 * H * Q) + e + t * (2 * NN * Q) -> Z.abs e < H * Q -> 0 <= m < 2 * P -> 0 <= ii < G ->
  exists kp, 0 <= kp < 2 * H /\ kp mod G = ii /\
    idx + H + ii = (2 * t + (if m <? P then 0 else 1)) * NN + ((m mod P) * (2 * H) + kp).
Proof.
  intros PH PQ PG PP EN EH (x & Hx) Ht He Hm Hi.
  set (dl := idx - m * (2 * H) - t * (2 * NN)).
  assert (Ee : e = dl * Q) by (unfold dl; lia).
  assert (Hdl : - H < dl < H) by (clearbody dl; clear - Ee He PQ; nia).
  assert (Ddl : dl = (x - m * (2 * y) - t * (2 * (P * (2 * y)))) * G) by (unfold dl; rewrite Hx, EN, EH; ring).
  set (z := x - m * (2 * y) - t * (2 * (P * (2 * y)))) in *. exists (dl + H + ii).
  split; [|split].
  - clearbody z. clear - Ddl Hdl EH PG Hi. assert (- y < z < y) by nia. assert (z + y <= 2 * y - 1) by lia. nia.
  - rewrite Ddl, EH. replace (z * G + y * G + ii) with (ii + (z + y) * G) by ring. rewrite Z.mod_add by lia. now apply Z.mod_small.
  - unfold dl. assert (Em : m = P * (if m <? P then 0 else 1) + m mod P).
    { rewrite (Z.div_mod m P) at 1 by lia. f_equal. f_equal. destruct (Z.ltb_spec m P); [apply Z.div_small; lia|].
      symmetry. apply (Z.div_unique m P 1 (m - P)); lia. }
    clear - Em EN. set (b := if m <? P then 0 else 1) in *. set (r := m mod P) in *. clearbody b r. rewrite Em, EN. ring.
Qed.

(** The rotated table's i-th coefficient is the i-th function at the input message (negated when the padding
    bit is set). *)
Lemma lut_index p vals v L idx m i T : word w -> is_pow2 N = true -> L = Z.of_nat (Nat.log2 N) + 1 -> L < w -> 1 <= p ->
  v = Z.of_nat (log_slots (length vals)) -> (2 ^ v | idx) -> near w T (idx * 2 ^ (w - L)) (m * 2 ^ (w - p - 1)) ->
  p + v + 2 <= L -> T < 2 ^ (w - p - 2) -> 0 <= m < 2 ^ (p + 1) -> (i < 2 ^ log_slots (length vals))%nat ->
  pmono N (- idx) (pmono N (- Z.of_nat (N / 2 ^ Z.to_nat p / 2)) (lut_poly p vals (N / 2 ^ Z.to_nat p))) i
  = (if m <? 2 ^ p then 1 else -1) * (slot vals i (m mod 2 ^ p) * 2 ^ (w - p)).
Proof.
  intros Hw HP EL HLw Hp Ev Hd (e & He & Hc) HpL HT Hm Hi. destruct (pow2_log2 N HP) as (EN & HN0).
  remember (Nat.log2 N) as ln. remember (log_slots (length vals)) as lv. clear Heqln.
  assert (A1 : 0 <= L - 2 - p) by (clear - HpL Ev; lia). assert (A2 : 0 <= w - L) by (clear - HLw; lia). assert (A3 : 0 <= v) by (clear - Ev; lia).
  assert (A4 : 0 <= p) by (clear - Hp; lia). assert (A5 : 0 <= L - 2 - p - v) by (clear - HpL; lia). assert (A6 : 0 <= 1) by discriminate.
  assert (A7 : 0 <= L - 2 - p + (w - L)) by (clear - A1 A2; lia). assert (A8 : 0 <= 1 + (L - 2 - p)) by (clear - A1; lia).
  assert (A9 : 0 <= p + (1 + (L - 2 - p))) by (clear - A8 A4; lia). assert (A10 : 0 <= 1 + (p + (1 + (L - 2 - p)))) by (clear - A9; lia).
  assert (W : 2 ^ w <> 0) by (apply Z.pow_nonzero; destruct Hw; lia).
  assert (Hlv : (lv <= ln)%nat) by (clear - EL Ev HpL Hp; lia).
  assert (HiN : (i < N)%nat). { apply (Nat.lt_le_trans _ _ _ Hi). rewrite EN. apply Nat.pow_le_mono_r; [discriminate|assumption]. }
  apply zeq_iff in Hc as (t & Ht); [|assumption].
  assert (ES : (N / 2 ^ Z.to_nat p = 2 ^ (ln - Z.to_nat p))%nat).
  { rewrite EN. replace ln with (ln - Z.to_nat p + Z.to_nat p)%nat at 1 by (clear - EL Ev HpL Hp; lia). rewrite Nat.pow_add_r, Nat.div_mul by (apply Nat.pow_nonzero; discriminate). reflexivity. }
  rewrite ES. remember (2 ^ (ln - Z.to_nat p))%nat as stride eqn:Es.
  assert (EZS : Z.of_nat stride = 2 * 2 ^ (L - 2 - p)).
  { rewrite Es, pow2_Z. change 2 with (2 ^ 1) at 2. rewrite <- Z.pow_add_r by assumption. f_equal. clear - EL Ev HpL Hp; lia. }
  assert (EH : Z.of_nat (stride / 2) = 2 ^ (L - 2 - p)).
  { rewrite Nat2Z.inj_div, EZS. change (Z.of_nat 2) with 2. rewrite Z.mul_comm, Z.div_mul by discriminate. reflexivity. }
  assert (EZN : Z.of_nat N = 2 ^ p * (2 * 2 ^ (L - 2 - p))).
  { rewrite EN, pow2_Z. change 2 with (2 ^ 1) at 3. rewrite <- !Z.pow_add_r by assumption. f_equal. clear - EL Ev HpL Hp; lia. }
  assert (E2 : 2 ^ (w - p - 1) = 2 * 2 ^ (L - 2 - p) * 2 ^ (w - L)).
  { change 2 with (2 ^ 1) at 2. rewrite <- !Z.pow_add_r by assumption. f_equal. clear - EL Ev HpL Hp; lia. }
  assert (E3 : 2 ^ (w - p - 2) = 2 ^ (L - 2 - p) * 2 ^ (w - L)) by (apply pow_sum; [assumption|assumption|clear; lia]).
  assert (E4 : 2 ^ w = 2 * (2 ^ p * (2 * 2 ^ (L - 2 - p))) * 2 ^ (w - L)).
  { change 2 with (2 ^ 1) at 2 4. rewrite <- !Z.pow_add_r by assumption. f_equal. clear - EL Ev HpL Hp; lia. }
  assert (E5 : 2 ^ (p + 1) = 2 * 2 ^ p) by (rewrite Z.pow_add_r by assumption; change (2 ^ 1) with 2; ring).
  assert (E6 : 2 ^ (L - 2 - p) = 2 ^ (L - 2 - p - v) * 2 ^ v) by (apply pow_sum; [assumption|assumption|clear; lia]).
  assert (Hi' : 0 <= Z.of_nat i < 2 ^ v). { split; [apply Nat2Z.is_nonneg|]. rewrite Ev, <- pow2_Z. now apply Nat2Z.inj_lt. }
  assert (PH : 0 < 2 ^ (L - 2 - p)) by (apply pow_pos'; assumption). assert (PQ : 0 < 2 ^ (w - L)) by (apply pow_pos'; assumption). assert (PG : 0 < 2 ^ v) by (apply pow_pos'; assumption).
  assert (PP : 0 < 2 ^ p) by (apply pow_pos'; assumption).
  assert (EG : Z.of_nat (2 ^ lv) = 2 ^ v) by (rewrite pow2_Z, Ev; reflexivity).
  assert (He' : Z.abs e < 2 ^ (w - p - 2)) by (clear - He HT; lia).
  rewrite E5 in Hm. rewrite E2, E4 in Ht. rewrite E3 in He'.
  clear E2 E3 E4 E5 W HT He ES Es.
  generalize dependent (2 ^ (L - 2 - p)). intros H. intros. generalize dependent (2 ^ (w - L)). intros Q. intros.
  generalize dependent (2 ^ v). intros G. intros. generalize dependent (2 ^ p). intros P. intros.
  destruct (window_arith H Q G P _ _ idx m t e (Z.of_nat i) PH PQ PG PP eq_refl E6 Hd Ht He' Hm Hi') as (kp & Hkp & Mkp & Eq).
  pose proof (Z.mod_pos_bound m P PP) as MB.
  set (r := Z.to_nat ((m mod P) * (2 * H) + kp)).
  assert (Hr : Z.of_nat r = (m mod P) * (2 * H) + kp) by (unfold r; rewrite Z2Nat.id; [reflexivity|clear - MB Hkp PH; nia]).
  clearbody r. rewrite pmono_add by assumption.
  rewrite (pmono_at N _ _ i (2 * t + (if m <? P then 0 else 1)) r).
  - assert (Sr : (r / stride)%nat = Z.to_nat (m mod P)).
    { apply Nat2Z.inj. rewrite Nat2Z.inj_div, Hr, EZS, Z2Nat.id by apply MB. symmetry. apply (Z.div_unique _ _ _ kp); [left; assumption|ring]. }
    assert (Mr : ((r mod stride) mod 2 ^ lv)%nat = i).
    { apply Nat2Z.inj. rewrite !Nat2Z.inj_mod, Hr, EZS, EG.
      rewrite (Z.add_comm (_ * _)), Z.mod_add by (clear - PH; lia). rewrite (Z.mod_small kp) by assumption. assumption. }
    unfold lut_poly. rewrite <- Heqlv. rewrite Sr, Mr, Z2Nat.id by apply MB.
    destruct (m <? P).
    + rewrite Z.add_0_r, Z.even_mul. change (Z.even 2) with true. cbn [orb]. ring.
    + rewrite Z.even_add, Z.even_mul. change (Z.even 1) with false. change (Z.even 2) with true. cbn [orb Bool.eqb]. ring.
  - apply Nat2Z.inj_lt. rewrite Hr, EZN. clear - MB Hkp PH. nia.
  - rewrite EZN, Hr, EH. rewrite <- Eq. ring.
Qed.
End P.
