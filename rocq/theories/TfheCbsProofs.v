(** Lemmas about circuit bootstrapping. *)
From Verif Require Import Base Alu AluProofs MuxGraph MuxGraphProofs PolyRing Tfhe TfheGlwe TfheBoot TfheTrace TfheSwitch TfheCbs SpecTfhe SpecGlwe SpecBoot SpecTrace SpecSwitch SpecCbs FluentIntProofs TfheProofs TfheProofs2 TfheProofs3 TfheGlweProofs TfheGlweProofs2 TfheGlweProofs3 TfheGlweProofs4 TfheBootProofs TfheBootProofs2 TfheBootProofs3 TfheBootProofs4 TfheTraceProofs TfheTraceProofs2 TfheSwitchProofs Props_Trace Props_Switch.
Require Import Setoid Morphisms Ring.
Ltac Zify.zify_post_hook ::= idtac.
Open Scope Z_scope.

Lemma cbs_log_v_ok v : (1 <= v)%nat -> cbs_log_v v = Ok (log_slots v).
Proof.
  intros H. unfold cbs_log_v, log_slots. destruct (Nat.eqb_spec v 0); [lia|]. f_equal.
  unfold is_pow2. destruct (Nat.eqb_spec v 0); [lia|]. cbn [negb andb].
  destruct (Nat.eqb_spec (2 ^ Nat.log2 v) v) as [E|E].
  - rewrite <- E at 2. symmetry. now rewrite Nat.log2_up_pow2 by lia.
  - destruct (Nat.le_gt_cases v 1); [assert (v = 1)%nat by lia; subst; now exfalso|].
    symmetry. apply Nat.log2_up_unique; [lia|]. pose proof (Nat.log2_spec v ltac:(lia)) as (A & B).
    replace (Nat.pred (Nat.log2 v + 1)) with (Nat.log2 v) by lia. replace (Nat.log2 v + 1)%nat with (S (Nat.log2 v)) by lia. lia.
Qed.
Lemma count_le_slots v : (1 <= v)%nat -> (v <= 2 ^ log_slots v)%nat.
Proof. intros H. unfold log_slots. destruct (Nat.le_gt_cases v 1); [assert (v = 1)%nat by lia; subst; cbn; lia|]. apply Nat.log2_up_spec. lia. Qed.

Definition cbs_val (w log : Z) (i : nat) : Z := if cbs_bits log i <? w then ((2 ^ cbs_bits log i - 1) * 2 ^ (w - cbs_bits log i)) mod 2 ^ w else 0.
Lemma cbs_level_ok pr w log i : word w -> 1 <= log -> cbs_level pr w log i = Ok (cbs_val w log i).
Proof.
  intros Hw Hl. unfold cbs_level, cbs_val. set (b := cbs_bits log i). assert (Hb : 2 <= b) by (unfold b, cbs_bits; nia).
  destruct (Z.ltb_spec b w); [|reflexivity]. rewrite ushl_ok by lia. cbn [bind]. rewrite Z.mul_1_l.
  assert (0 < 2 ^ b) by (apply pow_pos'; lia). assert (2 ^ b < 2 ^ w) by (apply Z.pow_lt_mono_r; lia).
  rewrite uwrap_small by (unfold torus; lia). rewrite usub_ok by lia. cbn [bind]. now rewrite t_encode_ok by (assumption || lia).
Qed.
Lemma cbs_val_torus w log i : word w -> torus w (cbs_val w log i).
Proof.
  intros Hw. pose proof (word_pos w Hw). pose proof (pow_pos' w ltac:(lia)). unfold cbs_val, torus. destruct (_ <? _); [apply Z.mod_pos_bound; lia|lia].
Qed.
Lemma cbs_val_congr w log i : 1 <= log -> cbs_bits log i < w -> congr w (cbs_val w log i) (- 2 ^ (w - cbs_bits log i)).
Proof.
  intros Hl Hb. unfold cbs_val. destruct (Z.ltb_spec (cbs_bits log i) w); [|lia]. transitivity ((2 ^ cbs_bits log i - 1) * 2 ^ (w - cbs_bits log i)); [apply zeq_mod|].
  assert (0 <= cbs_bits log i) by (unfold cbs_bits; nia).
  apply zeq_iff; [apply Z.pow_nonzero; lia|]. exists 1. rewrite (pow_sum w (cbs_bits log i) (w - cbs_bits log i)) by lia. ring.
Qed.

Section P.
Context (N : nat) (w : Z).
Local Notation "f == g" := (peq N (2 ^ w) f g) (at level 70).
Local Notation pn := (pnear N w).

Definition cbs_tab (log : Z) (count : nat) : list Z :=
  map (fun i => let f := (i mod 2 ^ log_slots count)%nat in if (f <? count)%nat then cbs_val w log f else 0) (seq 0 N).
Lemma cbs_lut_ok pr log count k : word w -> 1 <= log -> (1 <= count < 16)%nat ->
  exists T, cbs_lut pr w log count N k = Ok T /\ glwe_wf w N k T /\ gb T = cbs_tab log count /\ forall sk, glwe_phase N sk T == coef (cbs_tab log count).
Proof.
  intros Hw Hl Hc. pose proof (word_pos w Hw). pose proof (pow_pos' w ltac:(lia)). unfold cbs_lut. destruct (Nat.ltb_spec count 16); [|lia].
  rewrite (mapM_ok _ (cbs_val w log)) by (intros; now apply cbs_level_ok). cbn [bind]. rewrite cbs_log_v_ok by lia. cbn [bind].
  assert (Eb : map (fun i => let f := (i mod 2 ^ log_slots count)%nat in if (f <? count)%nat then nth f (map (cbs_val w log) (seq 0 16)) 0 else 0) (seq 0 N) = cbs_tab log count).
  { apply map_ext. intros i. cbv zeta. destruct (Nat.ltb_spec (i mod 2 ^ log_slots count)%nat count); [|reflexivity].
    rewrite (nth_indep _ 0 (cbs_val w log 0)) by (rewrite map_length, seq_length; lia). rewrite (map_nth (cbs_val w log)). now rewrite seq_nth by lia. }
  cbv zeta in *. rewrite Eb.
  assert (Tt : toruses w (cbs_tab log count)). { apply Forall_forall. intros x Hx. apply in_map_iff in Hx as (i & <- & _). cbv zeta. destruct (_ <? _)%nat; [now apply cbs_val_torus|unfold torus; lia]. }
  destruct (glwe_new_wf N w k ltac:(lia)) as (((A1 & A2) & A3) & A4 & A5). cbn [ga gb glwe_new] in *.
  eexists. split; [reflexivity|]. split; [|split; [reflexivity|]].
  - split; [split; [split; assumption|]|split; [assumption|assumption]]. cbn [gb]. unfold cbs_tab. now rewrite map_length, seq_length.
  - intros sk. unfold glwe_phase. cbn [ga gb]. intros j Hj. unfold psub.
    assert (Q : pdots N (repeat (zpoly N) k) sk == p0). { apply pdots_zero. apply Forall_forall. intros x Hx. apply repeat_spec in Hx. subst. apply repeat_0. }
    transitivity (coef (cbs_tab log count) j - p0 j); [apply zeq_sub; [reflexivity|exact (Q j Hj)]|]. apply zeq_refl'. unfold p0. ring.
Qed.
Lemma cbs_tab_at log count i : (i < N)%nat -> coef (cbs_tab log count) i = if (i mod 2 ^ log_slots count <? count)%nat then cbs_val w log (i mod 2 ^ log_slots count)%nat else 0.
Proof.
  intros Hi. unfold coef, cbs_tab. rewrite nth_map_seq by lia. reflexivity.
Qed.

(** The rotated table holds, in coefficient i, level i with the sign of the message. *)
Lemma cbs_select log count L v idx m i T : word w -> is_pow2 N = true -> L = Z.of_nat (Nat.log2 N) + 1 -> L < w -> 1 <= log -> (1 <= count)%nat ->
  v = Z.of_nat (log_slots count) -> v + 2 <= L -> (2 ^ v | idx) -> near w T (idx * 2 ^ (w - L)) (m * 2 ^ (w - 1) + 2 ^ (w - 2)) -> T < 2 ^ (w - 2) -> 0 <= m < 2 ->
  (i < count)%nat -> cbs_bits log i < w ->
  congr w (pmono N (- idx) (coef (cbs_tab log count)) i + 2 ^ (w - cbs_bits log i)) (m * 2 ^ (w - log * (Z.of_nat i + 1))).
Proof.
  intros Hw HP EL HLw Hl Hc Ev Hv Hd (e & He & Hcg) HT Hm Hi Hb. destruct (pow2_log2 N HP) as (EN & HN0).
  pose proof (word_pos w Hw) as Wp. assert (W0 : 2 ^ w <> 0) by (apply Z.pow_nonzero; lia).
  apply zeq_iff in Hcg as (t & Ht); [|assumption].
  assert (E1 : Z.of_nat N = 1 * (2 * 2 ^ (L - 2))). { rewrite EN at 1. rewrite pow2_Z. rewrite (pow_sum _ 1 (L - 2)) by lia. change (2 ^ 1) with 2. ring. }
  assert (E2 : 2 ^ (w - 2) = 2 ^ (L - 2) * 2 ^ (w - L)) by (apply pow_sum; lia).
  assert (E3 : 2 ^ (w - 1) = 2 * 2 ^ (L - 2) * 2 ^ (w - L)). { rewrite <- Z.mul_assoc, <- E2. rewrite (pow_sum (w - 1) 1 (w - 2)) by lia. reflexivity. }
  assert (E4 : 2 ^ w = 2 * Z.of_nat N * 2 ^ (w - L)). { rewrite E1. rewrite (pow_sum w 1 (w - 1)) by lia. rewrite E3. change (2 ^ 1) with 2. ring. }
  assert (E5 : 2 ^ (L - 2) = 2 ^ (L - 2 - v) * 2 ^ v) by (apply pow_sum; lia).
  assert (PH : 0 < 2 ^ (L - 2)) by (apply pow_pos'; lia). assert (PQ : 0 < 2 ^ (w - L)) by (apply pow_pos'; lia). assert (PG : 0 < 2 ^ v) by (apply pow_pos'; lia).
  assert (HiV : (i < 2 ^ log_slots count)%nat) by (pose proof (count_le_slots count Hc); lia).
  assert (HiZ : 0 <= Z.of_nat i < 2 ^ v) by (rewrite Ev, <- pow2_Z; lia).
  destruct (window_arith (2 ^ (L - 2)) (2 ^ (w - L)) (2 ^ v) 1 (Z.of_nat N) (2 ^ (L - 2 - v)) (idx - 2 ^ (L - 2)) m t e (Z.of_nat i)) as (kp & Hkp & Hkm & Hkq); try assumption; try lia.
  { apply Z.divide_sub_r; [assumption|]. exists (2 ^ (L - 2 - v)). assumption. }
  rewrite (pmono_at N (- idx) _ i (2 * t + (if m <? 1 then 0 else 1)) (Z.to_nat kp)).
  2:{ lia. } 2:{ rewrite Z2Nat.id by lia. rewrite Z.mod_1_r in Hkq. lia. }
  assert (Ekp : (Z.to_nat kp mod 2 ^ log_slots count)%nat = i).
  { apply Nat2Z.inj. rewrite Nat2Z.inj_mod, Z2Nat.id by lia. rewrite pow2_Z, <- Ev. assumption. }
  rewrite cbs_tab_at by lia. rewrite Ekp. destruct (Nat.ltb_spec i count); [|lia].
  assert (Eev : Z.even (2 * t + (if m <? 1 then 0 else 1)) = (m <? 1)). { rewrite Z.even_add, Z.even_mul. cbn [Z.even orb]. now destruct (m <? 1). }
  rewrite Eev. pose proof (cbs_val_congr w log i Hl Hb) as Q.
  assert (E6 : 2 ^ (w - log * (Z.of_nat i + 1)) = 2 * 2 ^ (w - cbs_bits log i)). { rewrite (pow_sum _ 1 (w - cbs_bits log i)) by (unfold cbs_bits in *; lia). reflexivity. }
  rewrite E6. destruct (Z.ltb_spec m 1).
  - rewrite Q. replace m with 0 by lia. apply zeq_refl'. ring.
  - assert (Q2 : congr w (- cbs_val w log i) (2 ^ (w - cbs_bits log i))) by (rewrite Q; apply zeq_refl'; ring).
    rewrite Q2. replace m with 1 by lia. apply zeq_refl'. ring.
Qed.

Lemma add_at_ok k c i x b : word w -> glwe_wf w N k c -> (i < N)%nat -> torus w x -> add_at w (gb c) i x = Ok b ->
  glwe_wf w N k {| ga := ga c; gb := b |} /\
  forall sk j, (j < N)%nat -> congr w (glwe_phase N sk {| ga := ga c; gb := b |} j) (glwe_phase N sk c j + if (j =? i)%nat then x else 0).
Proof.
  intros Hw ((Sa & Lb) & Ta & Tb) Hi Hx E. unfold add_at in E. destruct (Nat.ltb_spec i (length (gb c))); [|lia]. injection E as <-.
  pose proof (word_pos w Hw). split.
  - split; [split; [assumption|cbn [gb]; now rewrite upd_len]|]. split; [assumption|]. cbn [gb]. apply toruses_upd; [assumption|]. intros y. unfold tadd. apply uwrap_torus. lia.
  - intros sk j Hj. unfold glwe_phase, psub. cbn [ga gb]. unfold coef at 1. rewrite upd_nth by lia. fold (coef (gb c)). change (nth j (gb c) 0) with (coef (gb c) j).
    destruct (j =? i)%nat; [rewrite (tadd_congr w (coef (gb c) j) x)|]; apply zeq_refl'; ring.
Qed.
Lemma add_at_total c i x : (i < length (gb c))%nat -> exists b, add_at w (gb c) i x = Ok b.
Proof. intros H. unfold add_at. destruct (Nat.ltb_spec i (length (gb c))); [eauto|lia]. Qed.

Lemma cbs_trace_loop_ok h pr lt log ct k D sk Ea ak m E0 count : word w -> glwe_dim_valid N k = true -> sub_exact h pr w -> (2 <= N)%nat -> Z.of_nat (Nat.log2 N) < w ->
  1 <= lt -> (1 <= ct)%nat -> lt * Z.of_nat ct < w -> 0 <= D -> 0 <= Ea -> polys_shape N k sk -> binary_polys sk -> ak_enc N k ct w lt Ea sk ak ->
  1 <= log -> log * Z.of_nat count + 1 < w -> (count <= N)%nat ->
  forall glev rot perm ks gk i ds, (i + length glev = count)%nat -> Forall (glwe_shape N k) glev -> glwe_wf w N k rot -> glwe_shape N k perm -> glwe_shape N k ks -> glwe_shape N k gk ->
  (forall a b, fft_err N k D (ds a b)) ->
  (forall j, (i <= j < count)%nat -> near w E0 (glwe_phase N sk rot j + 2 ^ (w - cbs_bits log j)) (m * 2 ^ (w - log * (Z.of_nat j + 1)))) ->
  exists gs, cbs_trace_loop h pr w lt log ct N k glev rot perm ks gk ak i ds = Ok gs /\ length gs = length glev /\ Forall (glwe_wf w N k) gs /\
    forall t c, nth_error gs t = Some c ->
      pn (E0 + 2 ^ (Z.of_nat (Nat.log2 N) - 1) * (1 + Z.of_nat k * Z.of_nat N) + (Z.of_nat N - 1) * fft_ks_noise N k ct w lt Ea D)
        (glwe_phase N sk c) (pscale (2 ^ (w - log * (Z.of_nat (i + t) + 1))) (pconst m)).
Proof.
  intros Hw Hdim Hx HN2 HLw Hlt Hct Hlct HD HEa Hsk Hbin Hak Hl Hlc HcN. destruct (dim_valid N k Hdim) as (HP & HN0 & Hk). destruct (pow2_log2 N HP) as (EN & _).
  assert (Hlg : (1 <= Nat.log2 N)%nat) by (apply Nat.log2_le_pow2; cbn; lia).
  induction glev as [|g glev IH]; intros rot perm ks gk i ds Hlen Fg Hrot Hperm Hks Hgk Hds Hinv; cbn [cbs_trace_loop].
  - exists []. split; [reflexivity|]. split; [reflexivity|]. split; [constructor|]. intros [|t] c Hc; discriminate.
  - cbn [length] in Hlen. apply Forall_cons_iff in Fg as [Hg Fg].
    assert (Hbw : 0 < cbs_bits log i < w). { assert (log * (Z.of_nat i + 1) <= log * Z.of_nat count) by (apply Z.mul_le_mono_nonneg_l; lia). unfold cbs_bits. nia. }
    rewrite t_encode_ok by assumption. cbn [bind]. set (e := (1 * 2 ^ (w - cbs_bits log i)) mod 2 ^ w).
    assert (Te : torus w e) by (apply Z.mod_pos_bound; apply pow_pos'; lia).
    assert (Ee : congr w e (2 ^ (w - cbs_bits log i))). { unfold e. rewrite Z.mul_1_l. apply zeq_mod. }
    destruct (add_at_total rot i e) as (b & Eb). { destruct Hrot as ((_ & Lb) & _). lia. }
    rewrite Eb. cbn [bind]. destruct (add_at_ok k rot i e b Hw Hrot ltac:(lia) Te Eb) as (Wr & Pr). set (rot' := {| ga := ga rot; gb := b |}) in *.
    destruct (glwe_rot_ok N w k perm rot' (- Z.of_nat i) Hw HN0 Hperm Wr) as (Wp & Pp). set (perm' := glwe_rot w perm rot' (- Z.of_nat i)) in *.
    destruct (glwe_shr_ok N w pr k perm' (Z.of_nat (Nat.log2 N)) Hw Wp ltac:(lia)) as (sh & Es & Ws & Ps). rewrite Es. cbn [bind].
    destruct (trace_correct h pr w lt ct N k g sh ks gk ak (ds i) D sk Ea) as (g' & Et & Wg & Pg); try assumption. { intros j. apply Hds. }
    rewrite Et. cbn [bind].
    destruct (IH rot' perm' ks gk (S i) ds) as (gs & E1 & L1 & W1 & P1); try assumption; try lia.
    { apply Wp. }
    { intros j Hj. eapply near_congr; [|reflexivity|apply (Hinv j); lia]. symmetry. rewrite (Pr sk j) by lia. rewrite (proj2 (Nat.eqb_neq j i)) by lia. apply zeq_refl'. ring. }
    rewrite E1. cbn [bind]. exists (g' :: gs). split; [reflexivity|]. split; [cbn [length]; now rewrite L1|]. split; [now constructor|].
    intros [|t] c Hc.
    + cbn [nth_error] in Hc. injection Hc as <-. rewrite Nat.add_0_r. eapply pnear_weaken; [|eapply pnear_trans; [exact Pg|]]; [rewrite Z.add_comm; apply Z.le_refl|].
      assert (Hn : near w (E0 + 2 ^ (Z.of_nat (Nat.log2 N) - 1) * (1 + Z.of_nat k * Z.of_nat N)) (Z.of_nat N * glwe_phase N sk sh 0%nat) (m * 2 ^ (w - log * (Z.of_nat i + 1)))).
      { pose proof (pnear_coef N w _ _ _ 0%nat HN0 (Ps sk Hsk Hbin)) as Q. unfold pscale in Q. rewrite <- pow2_Z, <- EN in Q.
        rewrite Z.add_comm. eapply near_trans; [exact Q|]. eapply near_congr; [|reflexivity|apply (Hinv i); lia].
        symmetry. rewrite (Pp sk 0%nat HN0). rewrite (pmono_at N (- Z.of_nat i) _ 0%nat 0 i) by lia. cbn [Z.even]. rewrite (Pr sk i) by lia. rewrite Nat.eqb_refl, Ee. reflexivity. }
      destruct Hn as (x & Bx & Cx). exists (fun j => if (j =? 0)%nat then x else 0). split.
      * intros j Hj. destruct (j =? 0)%nat; [assumption|]. change (Z.abs 0) with 0. eapply Z.le_trans; [apply (Z.abs_nonneg x)|exact Bx].
      * intros j Hj. unfold pconst, padd, pscale. destruct (j =? 0)%nat; [|apply zeq_refl'; ring]. rewrite (Z.mul_comm _ m). exact Cx.
    + cbn [nth_error] in Hc. replace (i + S t)%nat with (S i + t)%nat by lia. now apply P1.
Qed.
End P.
