(** Arithmetic of the Goldilocks field: every operation is right modulo p on words up to p; products are fully reduced. *)
From Coq Require Import ZArith List Bool Lia Znumtheory Permutation.
From Verif Require Import Base Alu AluProofs MuxGraph PolyRing Goldilocks.
Import ListNotations.
Ltac Zify.zify_post_hook ::= idtac.
Open Scope Z_scope.

Definition T64 : Z := 18446744073709551616.
Definition T32 : Z := 4294967296.
Lemma T64_eq : 2 ^ 64 = T64. Proof. reflexivity. Qed.
Lemma T32_eq : 2 ^ 32 = T32. Proof. reflexivity. Qed.
Lemma gp_eq : gp = 18446744069414584321. Proof. reflexivity. Qed.
Lemma uw_id x : 0 <= x < T64 -> uwrap 64 x = x.
Proof. intros. unfold uwrap. rewrite T64_eq. now apply Z.mod_small. Qed.
Lemma uw_up x : - T64 <= x < 0 -> uwrap 64 x = x + T64.
Proof. intros. unfold uwrap. rewrite T64_eq. symmetry. apply Z.mod_unique with (-1); unfold T64 in *; lia. Qed.
Lemma uw_down x : T64 <= x < 2 * T64 -> uwrap 64 x = x - T64.
Proof. intros. unfold uwrap. rewrite T64_eq. symmetry. apply Z.mod_unique with 1; unfold T64 in *; lia. Qed.

Lemma zeq_k q a b k : a = b + k * q -> zeq q a b.
Proof. intros ->. unfold zeq. destruct (Z.eq_dec q 0) as [->|H]; [now rewrite Z.mul_0_r, Z.add_0_r|]. apply Z_mod_plus_full. Qed.

(** The domain of reachable values: canonical, plus p itself. *)
Definition fg_ok (a : Z) : Prop := 0 <= a <= gp.
Definition fg_canon (a : Z) : Prop := 0 <= a < gp.

Lemma fg_new_ok pr x : 0 <= x < T64 -> exists a, fg_new pr x = Ok a /\ fg_ok a /\ zeq gp a x /\ (x <> gp -> fg_canon a).
Proof.
  intros Hx. unfold fg_new, fg_ok, fg_canon. destruct (Z.ltb_spec gp x).
  - rewrite usub_ok by lia. exists (x - gp). split; [reflexivity|]. split; [rewrite gp_eq in *; unfold T64 in *; lia|]. split; [apply zeq_k with (-1); lia|]. rewrite gp_eq in *; unfold T64 in *; lia.
  - exists x. split; [reflexivity|]. split; [lia|]. split; [reflexivity|]. lia.
Qed.

Lemma fg_add_ok a b : fg_ok a -> fg_ok b -> fg_ok (fg_add a b) /\ zeq gp (fg_add a b) (a + b) /\ (fg_canon a -> fg_canon b -> fg_canon (fg_add a b)).
Proof.
  unfold fg_ok, fg_canon, fg_add. rewrite T64_eq. intros Ha Hb.
  destruct (Z.leb_spec T64 (a + b)).
  - cbn [orb]. rewrite (uw_down (a + b)) by (rewrite gp_eq in *; unfold T64 in *; lia). rewrite uw_id by (rewrite gp_eq in *; unfold T64 in *; lia).
    split; [rewrite gp_eq in *; unfold T64 in *; lia|]. split; [apply zeq_k with (-1)|]; rewrite gp_eq in *; unfold T64 in *; lia.
  - rewrite (uw_id (a + b)) by lia. cbn [orb]. destruct (Z.leb_spec gp (a + b)).
    + rewrite uw_down by (rewrite gp_eq in *; unfold T64 in *; lia).
      split; [rewrite gp_eq in *; unfold T64 in *; lia|]. split; [apply zeq_k with (-1)|]; rewrite gp_eq in *; unfold T64 in *; lia.
    + split; [lia|]. split; [reflexivity|lia].
Qed.
Lemma fg_sub_ok a b : fg_ok a -> fg_ok b -> fg_ok (fg_sub a b) /\ zeq gp (fg_sub a b) (a - b) /\ (fg_canon a -> fg_canon (fg_sub a b)).
Proof.
  unfold fg_ok, fg_canon, fg_sub. intros Ha Hb. destruct (Z.ltb_spec a b).
  - change (uwrap 32 (0 - 1)) with 4294967295. rewrite (uw_up (a - b)) by (rewrite gp_eq in *; unfold T64 in *; lia). rewrite uw_id by (rewrite gp_eq in *; unfold T64 in *; lia).
    split; [rewrite gp_eq in *; unfold T64 in *; lia|]. split; [apply zeq_k with 1|]; rewrite gp_eq in *; unfold T64 in *; lia.
  - change (uwrap 32 (0 - 0)) with 0. rewrite (uw_id (a - b)) by (rewrite gp_eq in *; unfold T64 in *; lia). rewrite Z.sub_0_r. rewrite uw_id by (rewrite gp_eq in *; unfold T64 in *; lia).
    split; [lia|]. split; [reflexivity|lia].
Qed.
Lemma fg_neg_ok pr a : fg_ok a -> exists b, fg_neg pr a = Ok b /\ fg_ok b /\ zeq gp b (- a) /\ (a <> 0 -> fg_canon b).
Proof.
  unfold fg_ok, fg_canon, fg_neg. intros Ha. rewrite usub_ok by lia. exists (gp - a). split; [reflexivity|]. split; [lia|]. split; [apply zeq_k with 1; lia|lia].
Qed.

Lemma fg96_reduce_ok pr lo hi : 0 <= lo < T64 -> 0 <= hi < T32 -> exists r, fg96_reduce pr {| f96_lo := lo; f96_hi := hi |} = Ok r /\ fg_canon r /\ zeq gp r (hi * T64 + lo).
Proof.
  intros Hl Hh. unfold fg96_reduce. cbn [f96_lo f96_hi]. rewrite AluProofs.ushl_ok by lia. cbn [bind]. rewrite T32_eq, T64_eq, Z.mod_small by (unfold T32, T64 in *; lia).
  rewrite usub_ok by (unfold T32 in *; lia). cbn [bind]. unfold fg_canon. set (pd := hi * T32 - hi).
  assert (Hp : 0 <= pd <= gp - T32) by (unfold pd; rewrite gp_eq; unfold T32 in *; lia).
  assert (Z1 : hi * T64 + lo = pd + lo + hi * gp) by (unfold pd; rewrite gp_eq; unfold T32, T64; lia).
  destruct (Z_lt_ge_dec (pd + lo) T64) as [H|H].
  - rewrite (uw_id (pd + lo)) by lia. destruct (Z.ltb_spec (pd + lo) pd); [lia|]. cbn [orb]. destruct (Z.leb_spec gp (pd + lo)).
    + rewrite uw_id by (rewrite gp_eq in *; unfold T64 in *; lia). exists (pd + lo - gp). split; [reflexivity|]. split; [rewrite gp_eq in *; unfold T64 in *; lia|]. apply zeq_k with (- 1 - hi). lia.
    + exists (pd + lo). split; [reflexivity|]. split; [lia|]. apply zeq_k with (- hi). lia.
  - rewrite (uw_down (pd + lo)) by (rewrite gp_eq in *; unfold T64 in *; lia). destruct (Z.ltb_spec (pd + lo - T64) pd); [|lia]. cbn [orb].
    rewrite uw_up by (rewrite gp_eq in *; unfold T64, T32 in *; lia). exists (pd + lo - gp). split; [f_equal; lia|]. split; [rewrite gp_eq in *; unfold T64, T32 in *; lia|]. apply zeq_k with (- 1 - hi). lia.
Qed.
Lemma fg159_reduce_ok pr lo mid hi : 0 <= lo < T64 -> 0 <= mid < T32 -> 0 <= hi < gp ->
  exists r, fg159_reduce pr {| f159_lo := lo; f159_mid := mid; f159_hi := hi |} = Ok r /\ fg_canon r /\ zeq gp r (hi * (T64 * T32) + mid * T64 + lo).
Proof.
  intros Hl Hm Hh. unfold fg159_reduce. cbn [f159_lo f159_mid f159_hi]. rewrite AluProofs.ushl_ok by lia. cbn [bind]. rewrite T32_eq, T64_eq, (Z.mod_small (mid * T32)) by (unfold T32, T64 in *; lia).
  rewrite usub_ok by (unfold T32 in *; lia). cbn [bind]. unfold fg_canon. set (pd := mid * T32 - mid).
  assert (Hp : 0 <= pd <= gp - T32) by (unfold pd; rewrite gp_eq; unfold T32 in *; lia).
  set (l2 := if lo <? hi then _ else _). assert (El : 0 <= l2 < T64 /\ exists j, l2 = lo - hi + j * gp).
  { unfold l2. destruct (Z.ltb_spec lo hi).
    - rewrite (uw_up (lo - hi)) by (rewrite gp_eq in *; unfold T64 in *; lia). rewrite uw_down by (rewrite gp_eq in *; unfold T64 in *; lia). split; [rewrite gp_eq in *; unfold T64 in *; lia|]. exists 1. lia.
    - rewrite uw_id by lia. split; [lia|]. exists 0. lia. }
  clearbody l2. destruct El as (Hl2 & j & Ej).
  assert (Z1 : hi * (T64 * T32) + mid * T64 + lo = l2 + pd + (mid + (T32 + 1) * hi - j) * gp) by (rewrite Ej; unfold pd; rewrite gp_eq; unfold T32, T64; ring).
  destruct (Z_lt_ge_dec (l2 + pd) T64) as [H|H].
  - rewrite (uw_id (l2 + pd)) by lia. destruct (Z.ltb_spec (l2 + pd) pd); [lia|]. cbn [orb]. destruct (Z.leb_spec gp (l2 + pd)).
    + rewrite uw_id by (rewrite gp_eq in *; unfold T64 in *; lia). exists (l2 + pd - gp). split; [reflexivity|]. split; [rewrite gp_eq in *; unfold T64 in *; lia|].
      apply zeq_k with (- 1 - (mid + (T32 + 1) * hi - j)). rewrite Z1. ring.
    + exists (l2 + pd). split; [reflexivity|]. split; [lia|]. apply zeq_k with (- (mid + (T32 + 1) * hi - j)). rewrite Z1. ring.
  - rewrite (uw_down (l2 + pd)) by (rewrite gp_eq in *; unfold T64 in *; lia). destruct (Z.ltb_spec (l2 + pd - T64) pd); [|lia]. cbn [orb].
    rewrite uw_up by (rewrite gp_eq in *; unfold T64, T32 in *; lia). exists (l2 + pd - gp). split; [f_equal; lia|]. split; [rewrite gp_eq in *; unfold T64, T32 in *; lia|].
    apply zeq_k with (- 1 - (mid + (T32 + 1) * hi - j)). rewrite Z1. ring.
Qed.
Lemma fg159_of_ok pr x : 0 <= x < T64 * T64 -> exists v, fg159_of pr x = Ok v /\ exists r, fg159_reduce pr v = Ok r /\ fg_canon r /\ zeq gp r x.
Proof.
  intros Hx. unfold fg159_of, ushr. change ((0 <=? 64) && (64 <? 128)) with true. change ((0 <=? 96) && (96 <? 128)) with true. cbn [bind]. eexists. split; [reflexivity|].
  unfold uwrap. change (2 ^ 96) with (T64 * T32). rewrite T64_eq, T32_eq. rewrite <- Z.div_div by (unfold T64, T32; lia).
  assert (H1 : 0 <= x / T64 < T64) by (split; [apply Z.div_pos; unfold T64; lia|apply Z.div_lt_upper_bound; unfold T64 in *; lia]).
  assert (H2 : 0 <= x / T64 / T32 < T32) by (split; [apply Z.div_pos; unfold T32; lia|apply Z.div_lt_upper_bound; unfold T32, T64 in *; lia]).
  rewrite (Z.mod_small (x / T64 / T32)) by (unfold T64, T32 in *; lia).
  destruct (fg159_reduce_ok pr (x mod T64) ((x / T64) mod T32) (x / T64 / T32)) as (r & E & C & Q); try (apply Z.mod_pos_bound; unfold T64, T32; lia).
  { assert (T32 < gp) by reflexivity. lia. }
  exists r. split; [exact E|]. split; [exact C|]. rewrite Q. apply zeq_refl'.
  pose proof (Z.div_mod x T64 ltac:(unfold T64; lia)) as D1. pose proof (Z.div_mod (x / T64) T32 ltac:(unfold T32; lia)) as D2. rewrite D1 at 4. rewrite D2 at 3. ring.
Qed.
Lemma word_mul a b : 0 <= a < T64 -> 0 <= b < T64 -> 0 <= a * b <= (T64 - 1) * (T64 - 1).
Proof. intros. split; [apply Z.mul_nonneg_nonneg; lia|apply Z.mul_le_mono_nonneg; lia]. Qed.
Lemma umul128 pr a b : 0 <= a < T64 -> 0 <= b < T64 -> umul pr 128 a b = Ok (a * b).
Proof. intros Ha Hb. unfold umul. pose proof (word_mul a b Ha Hb). change (2 ^ 128) with (T64 * T64). destruct (Z.ltb_spec (a * b) (T64 * T64)); [reflexivity|unfold T64 in *; lia]. Qed.
(** Products are canonical and right for all words, not only reduced ones. *)
Lemma fg_mul_ok pr a b : 0 <= a < T64 -> 0 <= b < T64 -> exists r, fg_mul pr a b = Ok r /\ fg_canon r /\ zeq gp r (a * b).
Proof.
  intros Ha Hb. unfold fg_mul, fg_unreduced_mul. pose proof (word_mul a b Ha Hb). rewrite umul128 by assumption. cbn [bind].
  destruct (fg159_of_ok pr (a * b)) as (v & -> & r & E & C & Q); [unfold T64 in *; lia|]. exists r. auto.
Qed.
Lemma fg_mad_ok pr a b c : 0 <= a < T64 -> 0 <= b < T64 -> 0 <= c < T64 -> exists r, fg_mad pr a b c = Ok r /\ fg_canon r /\ zeq gp r (a * b + c).
Proof.
  intros Ha Hb Hc. unfold fg_mad, fg_unreduced_mad. pose proof (word_mul a b Ha Hb). rewrite umul128 by assumption. cbn [bind].
  unfold uadd. change (2 ^ 128) with (T64 * T64). destruct (Z.ltb_spec (a * b + c) (T64 * T64)); [|unfold T64 in *; lia]. cbn [bind].
  destruct (fg159_of_ok pr (a * b + c)) as (v & -> & r & E & C & Q); [unfold T64 in *; lia|]. exists r. auto.
Qed.

(** ** Powers *)
Lemma zeq_pow q a b n : 0 <= n -> zeq q a b -> zeq q (a ^ n) (b ^ n).
Proof.
  intros Hn H. pattern n. apply natlike_ind; [reflexivity| |exact Hn]. intros k Hk IH. rewrite !Z.pow_succ_r by exact Hk. apply zeq_mul; assumption.
Qed.
Lemma fg_canon_word a : fg_canon a -> 0 <= a < T64.
Proof. unfold fg_canon. rewrite gp_eq. unfold T64. lia. Qed.
Lemma fg_ok_word a : fg_ok a -> 0 <= a < T64.
Proof. unfold fg_ok. rewrite gp_eq. unfold T64. lia. Qed.
Lemma land1 s : (Z.land s 1 =? 1) = Z.odd s.
Proof. change 1 with (Z.ones 1) at 1. rewrite Z.land_ones by lia. change (2 ^ 1) with 2. rewrite Zmod_odd. destruct (Z.odd s); reflexivity. Qed.
Lemma fg_pow_loop_ok pr exp : 0 <= exp < T64 -> forall fuel i r pw x, i + Z.of_nat fuel = 64 -> 0 <= i -> 0 <= pw < T64 -> fg_canon r -> 
  zeq gp r (x ^ (exp mod 2 ^ i)) -> zeq gp pw (x ^ (2 ^ i)) ->
  exists y, fg_pow_loop pr exp fuel i r pw = Ok y /\ fg_canon y /\ zeq gp y (x ^ exp).
Proof.
  intros He. induction fuel as [|f IH]; intros i r pw x Hi Hi0 Hpw Hr Zr Zp.
  - cbn [fg_pow_loop]. exists r. split; [reflexivity|]. split; [exact Hr|]. replace i with 64 in Zr by lia. rewrite T64_eq, Z.mod_small in Zr by exact He. exact Zr.
  - cbn [fg_pow_loop]. unfold ushr at 1. destruct (Z.leb_spec 0 i); [|lia]. destruct (Z.ltb_spec i 64); [|lia]. cbn [andb bind]. rewrite land1.
    assert (P : 0 < 2 ^ i) by (apply Z.pow_pos_nonneg; lia).
    assert (Em : exp mod 2 ^ (i + 1) = exp mod 2 ^ i + (if Z.odd (exp / 2 ^ i) then 2 ^ i else 0)).
    { rewrite Z.pow_add_r by lia. rewrite Z.rem_mul_r by (change (2 ^ 1) with 2; lia). change (2 ^ 1) with 2. rewrite Zmod_odd. destruct (Z.odd (exp / 2 ^ i)); ring. }
    pose proof (Z.mod_pos_bound exp (2 ^ i) P) as Bm.
    destruct (fg_mul_ok pr pw pw Hpw Hpw) as (p2 & E2 & C2 & Q2).
    assert (Zp2 : zeq gp p2 (x ^ (2 ^ (i + 1)))).
    { rewrite Q2. rewrite Zp. apply zeq_refl'. rewrite <- Z.pow_add_r by lia. f_equal. rewrite Z.pow_add_r by lia. change (2 ^ 1) with 2. ring. }
    destruct (Z.odd (exp / 2 ^ i)).
    + destruct (fg_mul_ok pr r pw (fg_canon_word r Hr) Hpw) as (r2 & E1 & C1 & Q1). rewrite E1. cbn [bind]. rewrite E2. cbn [bind].
      apply (IH (i + 1) r2 p2 x); try lia; try assumption; [apply fg_canon_word; exact C2|].
      rewrite Q1, Zr, Zp. apply zeq_refl'. rewrite <- Z.pow_add_r by lia. now rewrite Em.
    + cbn [bind]. rewrite E2. cbn [bind]. apply (IH (i + 1) r p2 x); try lia; try assumption; [apply fg_canon_word; exact C2|].
      rewrite Zr. apply zeq_refl'. rewrite Em. f_equal. ring.
Qed.
Lemma fg_pow_ok pr x e : 0 <= x < T64 -> 0 <= e < T64 -> exists y, fg_pow pr x e = Ok y /\ fg_canon y /\ zeq gp y (x ^ e).
Proof.
  intros Hx He. unfold fg_pow. apply (fg_pow_loop_ok pr e He 64 0 1 x x); try lia; try assumption.
  - unfold fg_canon. rewrite gp_eq. lia.
  - change (2 ^ 0) with 1. rewrite Z.mod_1_r. reflexivity.
  - change (2 ^ 0) with 1. rewrite Z.pow_1_r. reflexivity.
Qed.
