(** Bootstrapping: the whole procedure. *)
From Verif Require Import Base Alu AluProofs PolyRing Tfhe TfheGlwe TfheBoot SpecTfhe SpecGlwe SpecBoot FluentIntProofs TfheProofs TfheProofs2 TfheProofs3 TfheGlweProofs TfheGlweProofs2 TfheGlweProofs3 TfheGlweProofs4 TfheBootProofs TfheBootProofs2 TfheBootProofs3.
Require Import Setoid Morphisms Ring.
Ltac Zify.zify_post_hook ::= idtac.
Open Scope Z_scope.

Lemma bsk_valid_iff n N k count bsk : bsk_valid n N k count bsk = true <-> length bsk = n /\ Forall (fun g => ggsw_valid N k count g = true) bsk.
Proof.
  unfold bsk_valid. rewrite Bool.andb_true_iff, Nat.eqb_eq, forallb_forall, Forall_forall. reflexivity.
Qed.
Lemma bsk_enc_valid N k count w log E sk s bsk : bsk_enc N k count w log E sk s bsk -> bsk_valid (length s) N k count bsk = true.
Proof.
  intros H. apply bsk_valid_iff. split; [symmetry; eapply Forall2_len; exact H|].
  induction H as [|x g s bsk (A & _) H IH]; constructor; assumption.
Qed.
Lemma near_word_pow w : word w -> 0 < w <= 64. Proof. intros [-> | ->]; lia. Qed.

Section P.
Context (N : nat) (w : Z).
Local Notation "f == g" := (peq N (2 ^ w) f g) (at level 70).
Local Notation pn := (pnear N w).
Context (h : hw) (pr : profile) (log : Z) (count k : nat) (D : Z).
Context (Hw : word w) (Hdim : glwe_dim_valid N k = true) (Hadd : add_exact h pr w) (Hsub : sub_exact h pr w).
Context (Hlog : 1 <= log) (Hcnt : (1 <= count)%nat) (Hlc : log * Z.of_nat count < w) (HD : 0 <= D).
Let L : Z := Z.of_nat (Nat.log2 N) + 1.

Lemma generalized_pbs_ok n out input lut bsk chi v ds : (1 <= n)%nat -> lwe_wf w n input -> bsk_valid n N k count bsk = true ->
  glwe_shape N k out -> glwe_wf w N k lut -> 0 <= chi < w -> 0 <= v < L -> L < w -> (forall i, fft_err N k D (ds i)) ->
  exists r, generalized_pbs h pr w log count n N k out input lut bsk chi v ds = Ok r /\ glwe_wf w N k r /\
    forall sk s E, polys_shape N k sk -> binary_polys sk -> binary s -> 0 <= E -> bsk_enc N k count w log E sk s bsk ->
      exists idx, (2 ^ v | idx) /\
        near w ((Z.of_nat n + 1) * 2 ^ (w - L + v - 1)) (idx * 2 ^ (w - L)) (lwe_phase s input * 2 ^ chi) /\
        pn (Z.of_nat n * cmux_noise N k count w log E D) (glwe_phase N sk r) (pmono N (- idx) (glwe_phase N sk lut)).
Proof.
  intros Hn Hin Hb Ho Hlut Hchi Hv HL Hds. destruct (dim_valid N k Hdim) as (HP & HN0 & Hk).
  unfold generalized_pbs. rewrite Hdim, Hb. rewrite (proj2 (radix_valid_iff w log count)) by lia.
  rewrite (proj2 (glwe_valid_iff N k lut) (proj1 Hlut)), (proj2 (glwe_valid_iff N k out) Ho).
  unfold lwe_dim_valid, lwe_valid. rewrite (proj2 (Nat.eqb_eq _ _) (proj1 Hin)). rewrite (proj2 (Nat.eqb_neq n 0)) by lia. cbn [negb andb].
  fold L. destruct (lwe_mod_switch_ok pr w n input chi v L Hw Hin Hchi Hv HL) as (ct & E1 & (La & Ta & Tb) & P1).
  rewrite E1. cbn [bind]. apply bsk_valid_iff in Hb as (Lb & Fb).
  destruct (glwe_rot_ok N w k out lut (- lwe_b ct) Hw HN0 Ho Hlut) as (Wr & Pr).
  destruct (pbs_loop_ok N w h pr log count k D Hw Hdim Hadd Hsub Hlog Hcnt Hlc HD (lwe_a ct) bsk ds _ ltac:(congruence) Wr Fb Hds) as (r & E2 & W2 & P2).
  exists r. split; [assumption|]. split; [assumption|]. intros sk s E Hs Hbin Hbs HE Henc.
  assert (Ls : length s = n) by (rewrite (Forall2_len _ _ _ Henc); assumption).
  destruct (P1 s Hbs Ls) as (Dv & Nv). exists (lwe_phase s ct). split; [assumption|]. split; [assumption|].
  rewrite <- La. eapply pnear_peq; [reflexivity| |exact (P2 sk s E Hs Hbin Hbs HE Henc)].
  transitivity (pmono N (dotz (lwe_a ct) s) (pmono N (- lwe_b ct) (glwe_phase N sk lut))); [apply pmono_mor, Pr|].
  rewrite (pmono_add' N w). apply pmono_ext. unfold lwe_phase. ring.
Qed.

Lemma fill_lut_ok out lut maps vals p : 1 <= p <= 30 -> 2 ^ p <= Z.of_nat N -> p < w -> (1 <= length maps)%nat -> maps_ok p maps vals ->
  glwe_shape N k lut ->
  exists T, fill_lut pr w N k out lut maps p = Ok T /\ glwe_wf w N k T /\
    forall sk, glwe_phase N sk T == pmono N (- Z.of_nat (N / 2 ^ Z.to_nat p / 2)) (lut_poly w p vals (N / 2 ^ Z.to_nat p)).
Proof.
  intros Hp HpN Hpw Hm Hmap Hl. destruct (dim_valid N k Hdim) as (HP & HN0 & Hk). pose proof (near_word_pow w Hw).
  destruct (generate_lut_ok N w pr out maps vals p Hw HP Hp HpN Hpw Hm Hmap) as (T & E1 & (L1 & T1) & P1).
  unfold fill_lut. rewrite E1. cbn [bind]. destruct (glwe_trivial_ok N w k lut T Hl L1) as (A & B & C & Ph).
  eexists. split; [reflexivity|]. split; [apply C; [lia|assumption]|]. intros sk. rewrite (Ph sk). exact P1.
Qed.

(** Multi-function bootstrapping. *)
Lemma pbs_multi_ok n out lout sc input bsk maps vals p chi ds B m :
  (1 <= n)%nat -> lwe_wf w n input -> bsk_valid n N k count bsk = true -> glwe_shape N k out -> glwe_shape N k lout ->
  0 <= chi < w -> L < w -> 1 <= p <= 30 -> (1 <= length maps)%nat -> maps_ok p maps vals -> (forall i, fft_err N k D (ds i)) ->
  0 <= B -> B + (Z.of_nat n + 1) * 2 ^ (w - L + Z.of_nat (log_slots (length maps)) - 1) < 2 ^ (w - p - 2) -> p + 2 <= L -> 0 <= m < 2 ^ (p + 1) ->
  exists lut r, fill_lut pr w N k sc lout maps p = Ok lut /\
    generalized_pbs h pr w log count n N k out input lut bsk chi (Z.of_nat (log_slots (length maps))) ds = Ok r /\ glwe_wf w N k r /\
    forall sk s E, polys_shape N k sk -> binary_polys sk -> binary s -> 0 <= E -> bsk_enc N k count w log E sk s bsk ->
      near w B (lwe_phase s input * 2 ^ chi) (m * 2 ^ (w - p - 1)) ->
      forall i, (i < 2 ^ log_slots (length maps))%nat ->
        near w (Z.of_nat n * cmux_noise N k count w log E D) (glwe_phase N sk r i)
          ((if m <? 2 ^ p then 1 else -1) * (slot vals i (m mod 2 ^ p) * 2 ^ (w - p))).
Proof.
  intros Hn Hin Hb Ho Hlo Hchi HL Hp Hm Hmap Hds HB HBn HpL Hmm. destruct (dim_valid N k Hdim) as (HP & HN0 & Hk).
  destruct (pow2_log2 N HP) as (EN & _). pose proof (near_word_pow w Hw) as Wp.
  set (v := Z.of_nat (log_slots (length maps))) in *.
  assert (Hv : p + v + 2 <= L).
  { destruct (Z_lt_le_dec L (p + v + 2)); [exfalso|lia].
    assert (2 ^ (w - p - 2) <= 2 ^ (w - L + v - 1)) by (apply Z.pow_le_mono_r; unfold v in *; lia).
    assert (0 < 2 ^ (w - L + v - 1)) by (apply pow_pos'; unfold v in *; lia). nia. }
  assert (HpN : 2 ^ p <= Z.of_nat N). { rewrite EN, pow2_Z. apply Z.pow_le_mono_r; unfold L, v in *; lia. }
  destruct (fill_lut_ok sc lout maps vals p Hp HpN ltac:(unfold v in *; lia) Hm Hmap Hlo) as (T & E1 & W1 & P1).
  destruct (generalized_pbs_ok n out input T bsk chi v ds Hn Hin Hb Ho W1 Hchi ltac:(unfold v in *; lia) HL Hds) as (r & E2 & W2 & P2).
  exists T, r. split; [assumption|]. split; [assumption|]. split; [assumption|]. intros sk s E Hs Hbin Hbs HE Henc Hnear i Hi.
  destruct (P2 sk s E Hs Hbin Hbs HE Henc) as (idx & Dv & Nv & Pv).
  assert (Hlm : length maps = length vals) by exact (Forall2_len _ _ _ Hmap).
  assert (HiN : (i < N)%nat). { apply (Nat.lt_le_trans _ _ _ Hi). rewrite EN. apply Nat.pow_le_mono_r; [lia|]. unfold L, v in *. lia. }
  apply (pnear_coef N w _ _ _ i HiN) in Pv. eapply near_congr; [reflexivity| |exact Pv].
  transitivity (pmono N (- idx) (pmono N (- Z.of_nat (N / 2 ^ Z.to_nat p / 2)) (lut_poly w p vals (N / 2 ^ Z.to_nat p))) i).
  { apply (pmono_mor N (2 ^ w) (- idx) _ _ (P1 sk) i HiN). }
  apply zeq_refl'. apply (lut_index N w p vals v L idx m i (B + (Z.of_nat n + 1) * 2 ^ (w - L + v - 1))); try assumption; try lia; try reflexivity.
  - unfold v. now rewrite Hlm.
  - rewrite Z.add_comm. eapply near_trans; [exact Nv|exact Hnear].
  - now rewrite <- Hlm.
Qed.

(** Univariate bootstrapping. *)
Lemma pbs_univariate_ok n out sc input bsk f g p ds B m :
  (1 <= n)%nat -> lwe_wf w n input -> bsk_valid n N k count bsk = true -> length (lwe_a out) = (k * N)%nat ->
  L < w -> 1 <= p <= 30 -> (forall j, 0 <= j < 2 ^ p -> f j = Ok (g j) /\ 0 <= g j < 2 ^ p) -> (forall i, fft_err N k D (ds i)) ->
  0 <= B -> B + (Z.of_nat n + 1) * 2 ^ (w - L - 1) < 2 ^ (w - p - 2) -> p + 2 <= L -> 0 <= m < 2 ^ (p + 1) ->
  exists lut r, lut_from_fn pr w N k sc f p = Ok lut /\
    pbs_univariate h pr w log count n N k out input lut bsk ds = Ok r /\ lwe_wf w (k * N) r /\
    forall sk s E, polys_shape N k sk -> binary_polys sk -> binary s -> 0 <= E -> bsk_enc N k count w log E sk s bsk ->
      near w B (lwe_phase s input) (m * 2 ^ (w - p - 1)) ->
      near w (Z.of_nat n * cmux_noise N k count w log E D) (lwe_phase (to_lwe_sk sk) r)
          ((if m <? 2 ^ p then 1 else -1) * (g (m mod 2 ^ p) * 2 ^ (w - p))).
Proof.
  intros Hn Hin Hb Ho HL Hp Hf Hds HB HBn HpL Hmm. destruct (dim_valid N k Hdim) as (HP & HN0 & Hk). pose proof (near_word_pow w Hw) as Wp.
  destruct (pbs_multi_ok n (glwe_new N k) (glwe_new N k) sc input bsk [f] [g] p 0 ds B m) as (lut & r & E1 & E2 & W2 & P2); try assumption; try lia; try apply glwe_new_shape.
  - cbn [length]. lia.
  - constructor; [assumption|constructor].
  - cbn [length]. change (log_slots 1) with O. rewrite Z.add_0_r. assumption.
  - change (Z.of_nat (log_slots (length [f]))) with 0 in E2.
    destruct (sample_extract_ok N w k out r 0 Hw HN0 W2 Ho) as (x & E3 & W3 & P3).
    exists lut, x. split; [assumption|]. split; [unfold pbs_univariate; rewrite E2; cbn [bind]; assumption|]. split; [assumption|].
    intros sk s E Hs Hbin Hbs HE Henc Hnear. eapply near_congr; [symmetry; apply P3; assumption|reflexivity|].
    apply (P2 sk s E Hs Hbin Hbs HE Henc); [|cbn; lia]. rewrite Z.pow_0_r, Z.mul_1_r. assumption.
Qed.

(** Key generation. *)
Lemma generate_bsk_ok n bsk s sk E rnd : (1 <= n)%nat -> binary s -> length s = n -> polys_shape N k sk -> 0 <= E -> length bsk = n ->
  Forall (fun g => length g = S k /\ Forall (fun r => length r = count /\ Forall (glwe_fresh N k) r) g) bsk ->
  (forall i, ggsw_rnd_ok N k count w E (rnd i)) ->
  exists bsk', generate_bsk pr w log count n N k bsk s sk rnd = Ok bsk' /\ bsk_enc N k count w log E sk s bsk'.
Proof.
  intros Hn Hb Hl Hs HE Lb Fb Hr. unfold generate_bsk. rewrite Hdim, (proj2 (radix_valid_iff w log count)) by lia.
  rewrite (proj2 (polys_valid_iff N k sk) Hs), (proj2 (Nat.eqb_eq _ _) Hl). unfold lwe_dim_valid. rewrite (proj2 (Nat.eqb_neq n 0)) by lia.
  rewrite (proj2 (bsk_valid_iff n N k count bsk)).
  - cbn [negb andb]. apply (bsk_loop_ok N w pr log count k Hw Hdim Hlog Hcnt Hlc E sk Hs HE); try assumption. congruence.
  - split; [assumption|]. eapply Forall_impl; [|exact Fb]. intros g (A & B). apply ggsw_valid_iff. split; [assumption|].
    eapply Forall_impl; [|exact B]. intros r (C & F). split; [assumption|]. now apply fresh_shapes.
Qed.

(** Bivariate bootstrapping. *)
Lemma pbs_bivariate_ok n out sc left right bsk f g p carry ds B1 B2 l r :
  (1 <= n)%nat -> lwe_wf w n left -> lwe_wf w n right -> bsk_valid n N k count bsk = true -> length (lwe_a out) = (k * N)%nat ->
  L < w -> 1 <= p <= carry -> p + carry <= 30 ->
  (forall x y, 0 <= x < 2 ^ p -> 0 <= y < 2 ^ p -> f x y = Ok (g x y) /\ 0 <= g x y < 2 ^ p) -> (forall i, fft_err N k D (ds i)) ->
  0 <= B1 -> 0 <= B2 -> 2 ^ p * B1 + B2 + (Z.of_nat n + 1) * 2 ^ (w - L - 1) < 2 ^ (w - (p + carry) - 2) -> p + carry + 2 <= L ->
  0 <= l < 2 ^ p -> 0 <= r < 2 ^ p ->
  exists lut x, bivariate_lut pr w N k sc f p carry = Ok lut /\
    pbs_bivariate h pr w log count n N k out left right lut bsk p ds = Ok x /\ lwe_wf w (k * N) x /\
    forall sk s E, polys_shape N k sk -> binary_polys sk -> binary s -> 0 <= E -> bsk_enc N k count w log E sk s bsk ->
      near w B1 (lwe_phase s left) (l * 2 ^ (w - (p + carry) - 1)) -> near w B2 (lwe_phase s right) (r * 2 ^ (w - (p + carry) - 1)) ->
      near w (Z.of_nat n * cmux_noise N k count w log E D) (lwe_phase (to_lwe_sk sk) x) (g l r * 2 ^ (w - (p + carry))).
Proof.
  intros Hn (Ll & Tl & Tlb) (Lr & Tr & Trb) Hb Ho HL Hp Hq Hf Hds HB1 HB2 HB HqL Hlx Hrx. pose proof (near_word_pow w Hw) as Wp.
  assert (PP : 0 < 2 ^ p) by (apply pow_pos'; lia).
  assert (Hpq : 2 ^ p * 2 ^ p <= 2 ^ (p + carry)) by (rewrite <- Z.pow_add_r by lia; apply Z.pow_le_mono_r; lia).
  assert (Hp32 : 2 ^ p < 2 ^ w). { apply Z.pow_lt_mono_r; lia. }
  assert (Hp64 : 2 ^ p < 2 ^ 64) by (apply Z.pow_lt_mono_r; lia).
  destruct (lwe_scalar_mad_ok w (lwe_new n) (uwrap w (2 ^ p)) left ltac:(cbn; rewrite repeat_length; congruence)) as (x1 & E1 & L1 & T1 & T1b & P1).
  destruct (lwe_add_ok w x1 right) as (x2 & E2 & L2 & T2 & T2b & P2).
  { rewrite L1. cbn. rewrite repeat_length. congruence. }
  assert (Wx1 : toruses w (lwe_a x1)). { apply T1; [lia|]. cbn. apply toruses_repeat. lia. }
  assert (Wx2 : lwe_wf w n x2).
  { split; [rewrite L2, L1; cbn; apply repeat_length|]. split; [apply T2; [lia|assumption]|apply T2b; lia]. }
  set (q := p + carry) in *. set (F := bivariate_fn pr p f). set (G := fun j => g ((j / 2 ^ p) mod 2 ^ p) (j mod 2 ^ p)).
  assert (HFG : forall j, 0 <= j < 2 ^ q -> F j = Ok (G j) /\ 0 <= G j < 2 ^ q).
  { intros j Hj. unfold F, G, bivariate_fn. rewrite ushl_ok by lia. cbn [bind]. rewrite Z.mul_1_l, uwrap_small by (unfold torus; lia).
    pose proof (Z.mod_pos_bound (j / 2 ^ p) (2 ^ p) PP). pose proof (Z.mod_pos_bound j (2 ^ p) PP).
    destruct (Hf _ _ H H0) as (A & B). rewrite A. cbn [bind]. destruct (Z.ltb_spec (g ((j / 2 ^ p) mod 2 ^ p) (j mod 2 ^ p)) (2 ^ p)); [|lia].
    split; [reflexivity|]. nia. }
  set (m := l * 2 ^ p + r). assert (Hm : 0 <= m < 2 ^ q) by (unfold m; nia).
  assert (Hm' : 2 ^ (q + 1) = 2 * 2 ^ q) by (rewrite Z.pow_add_r by lia; lia).
  assert (HB0 : 0 <= 2 ^ p * B1 + B2) by nia. assert (Hq1 : 1 <= q <= 30) by lia. assert (Hm1 : 0 <= m < 2 ^ (q + 1)) by lia.
  destruct (pbs_univariate_ok n out sc x2 bsk F G q ds (2 ^ p * B1 + B2) m Hn Wx2 Hb Ho HL Hq1 HFG Hds HB0 HB HqL Hm1) as (lut & x & E3 & E4 & W4 & P4).
  exists lut, x. split.
  { unfold bivariate_lut. destruct (Z.leb_spec p carry); [|lia]. rewrite uadd_ok. 2:{ fold q. assert (2 ^ 5 < 2 ^ 32) by reflexivity. change (2 ^ 5) with 32 in *. lia. }
    cbn [bind]. exact E3. }
  split. { unfold pbs_bivariate. rewrite shl_i32_ok by lia. cbn [bind]. rewrite E1. cbn [bind]. rewrite E2. cbn [bind]. exact E4. }
  split; [assumption|]. intros sk s E Hs Hbin Hbs HE Henc N1 N2. specialize (P4 sk s E Hs Hbin Hbs HE Henc).
  destruct (Z.ltb_spec m (2 ^ q)); [|lia]. rewrite Z.mul_1_l, (Z.mod_small m) in P4 by lia.
  assert (EG : G m = g l r). { unfold G, m. f_equal.
    - rewrite Z.add_comm, Z.div_add, (Z.div_small r) by lia. rewrite Z.add_0_l. now apply Z.mod_small.
    - rewrite Z.add_comm, Z.mod_add by lia. now apply Z.mod_small. }
  rewrite EG in P4. apply P4.
  pose proof (near_mul w B1 _ _ (2 ^ p) N1) as N1'. rewrite (Z.abs_eq (2 ^ p)) in N1' by (apply Z.lt_le_incl; exact PP).
  eapply near_congr; [| |apply near_add; [exact N1'|exact N2]].
  - symmetry. rewrite (P2 s), (P1 s). rewrite (uwrap_congr w (2 ^ p)). unfold lwe_phase at 1. cbn [lwe_new lwe_a lwe_b].
    assert (dotz (repeat 0 n) s = 0) as ->. { clear. revert s. induction n; intros [|y s]; cbn [repeat dotz]; try reflexivity. rewrite IHn. ring. }
    apply zeq_refl'. ring.
  - apply zeq_refl'. unfold m. ring.

Qed.
End P.

(** ** Decryption of a ciphertext whose phase is close to an encoding *)

Lemma lwe_decrypt_near pr w n sk c p m B : word w -> (1 <= n)%nat -> length (lwe_a c) = n -> 0 < p < w -> p < 32 -> B < 2 ^ (w - p - 1) ->
  near w B (lwe_phase sk c) (m * 2 ^ (w - p)) -> lwe_decrypt pr w n sk c p = Ok (m mod 2 ^ p).
Proof.
  intros Hw Hn Hl Hp Hp' HB (z & Hz & Hc). unfold lwe_decrypt, lwe_dim_valid, lwe_valid. rewrite Hl, Nat.eqb_refl, (proj2 (Nat.eqb_neq n 0)) by lia.
  destruct (Z.ltb_spec p w); [|lia]. cbn [negb andb]. rewrite lwe_decrypt_raw_ok by (try assumption; lia). cbn [bind].
  rewrite t_decode_ok; [|assumption|lia|lia|apply uwrap_torus; pose proof (word_pos w Hw); lia]. f_equal.
  apply (decode_near w p m z); [assumption|assumption|lia|exact Hc].
Qed.
Lemma lwe_decrypt_carry_near pr n sk c p carry m B : (1 <= n)%nat -> length (lwe_a c) = n -> 0 < p -> 0 <= carry -> p + carry < 64 -> B < 2 ^ (64 - (p + carry) - 1) ->
  near 64 B (lwe_phase sk c) (m * 2 ^ (64 - (p + carry))) -> lwe_decrypt_with_carry pr n sk c p carry = Ok (m mod 2 ^ p).
Proof.
  intros Hn Hl Hp Hc0 Hs HB (z & Hz & Hc). assert (Hw : word 64) by now right. set (s := p + carry) in *.
  unfold lwe_decrypt_with_carry. destruct (Z.ltb_spec p 64); [|lia]. rewrite uadd_ok by (fold s; assert (2 ^ 6 < 2 ^ 32) by reflexivity; change (2 ^ 6) with 64 in *; lia). cbn [bind]. fold s.
  destruct (Z.ltb_spec s 64); [|lia]. rewrite lwe_decrypt_raw_ok by (try assumption; lia). cbn [bind].
  set (x := lwe_phase sk c mod 2 ^ 64). assert (Hx : torus 64 x) by (apply uwrap_torus; lia). destruct Hx as (Hx & Hx').
  rewrite ushl_ok by lia. cbn [bind]. assert (1 < 2 ^ p < 2 ^ 64) by (split; [apply Z.pow_gt_1; lia|apply Z.pow_lt_mono_r; lia]).
  rewrite Z.mul_1_l, uwrap_small by (unfold torus; lia). rewrite usub_ok by lia. cbn [bind].
  unfold wshr. rewrite (Z.mod_small (64 - s - 1)), (Z.mod_small (64 - s)) by lia. rewrite land_1.
  assert (0 < 2 ^ (64 - s)) by (apply pow_pos'; lia).
  rewrite uadd_ok.
  2:{ assert (x / 2 ^ (64 - s) < 2 ^ s). { apply Z.div_lt_upper_bound; [lia|]. rewrite <- Z.pow_add_r by lia. replace (64 - s + s) with 64 by lia. lia. }
      pose proof (Z.mod_pos_bound (x / 2 ^ (64 - s - 1)) 2 ltac:(lia)). assert (2 ^ s <= 2 ^ 63) by (apply Z.pow_le_mono_r; lia). assert (2 ^ 64 = 2 * 2 ^ 63) by reflexivity. lia. }
  cbn [bind]. f_equal. rewrite land_mask, round_shift by lia.
  pose proof (decode_near 64 s m z x Hw ltac:(lia) ltac:(lia) Hc) as Q.
  assert (E : forall y, y mod 2 ^ p = (y mod 2 ^ s) mod 2 ^ p).
  { intros y. unfold s. rewrite Z.pow_add_r by lia. rewrite Z.rem_mul_r by lia. rewrite (Z.mul_comm (2 ^ p)), Z.mod_add by lia. now rewrite Z.mod_mod by lia. }
  rewrite E, Q, <- E. reflexivity.
Qed.
Lemma lwe_sk_encrypt_near w n sk m p mask e B : word w -> (1 <= n)%nat -> length sk = n -> length mask = n -> toruses w mask -> 0 < p < w -> near w B e 0 ->
  exists c, lwe_sk_encrypt w n sk m p mask e = Ok c /\ lwe_wf w n c /\ near w B (lwe_phase sk c) (m * 2 ^ (w - p)).
Proof.
  intros Hw Hn Hs Hm Ht Hp (z & Hz & He). unfold lwe_sk_encrypt, lwe_encode_encrypt. unfold lwe_dim_valid at 1.
  rewrite (proj2 (Nat.eqb_neq n 0)) by lia. destruct (Z.ltb_spec p w); [|lia]. cbn [negb andb]. rewrite t_encode_ok by assumption. cbn [bind].
  destruct (lwe_encrypt_ok w n (lwe_new n) sk ((m * 2 ^ (w - p)) mod 2 ^ w) mask e ltac:(lia) ltac:(cbn; apply repeat_length) Hs Hm) as (c & E & A & T & P).
  exists c. split; [assumption|]. split; [split; [congruence|split; [congruence|apply T; lia]]|].
  exists z. split; [assumption|]. rewrite P. apply zeq_add; [apply zeq_mod|]. rewrite He. apply zeq_refl'. ring.
Qed.
