(** Fermat's little theorem, primality of p = 2^64 - 2^32 + 1 (from the crate's own root-of-unity constant), inverses, roots of unity,
    and orthogonality of the NTT tables. *)
From Coq Require Import ZArith List Bool Lia Znumtheory Zpow_facts Permutation.
From Verif Require Import Base Alu AluProofs MuxGraph PolyRing Goldilocks GoldilocksProofs.
Import ListNotations.
Ltac Zify.zify_post_hook ::= idtac.
Open Scope Z_scope.

Lemma zeq_div q a b : 0 < q -> zeq q a b <-> (q | a - b).
Proof.
  intros Hq. unfold zeq. split.
  - intros H. apply Zmod_divide; [lia|]. rewrite Zminus_mod, H, Z.sub_diag. reflexivity.
  - intros (k & Hk). replace a with (b + k * q) by lia. apply Z_mod_plus_full.
Qed.

(** ** Fermat *)
Fixpoint prodz (l : list Z) : Z := match l with [] => 1 | x :: l => x * prodz l end.
Lemma prodz_perm l l' : Permutation l l' -> prodz l = prodz l'.
Proof. induction 1; cbn [prodz]; try congruence; ring. Qed.
Lemma prodz_scaled q a l : zeq q (prodz (map (fun i => (a * i) mod q) l)) (a ^ Z.of_nat (length l) * prodz l).
Proof.
  induction l as [|x l IH]; [reflexivity|]. cbn [map prodz length]. rewrite IH, zeq_mod. rewrite Nat2Z.inj_succ, Z.pow_succ_r by lia. apply zeq_refl'. ring.
Qed.
Lemma prodz_unit q l : prime q -> Forall (fun x => ~ (q | x)) l -> ~ (q | prodz l).
Proof.
  intros Hq. induction 1 as [|x l Hx _ IH]; cbn [prodz].
  - intros H. apply Z.divide_1_r_nonneg in H; destruct Hq; lia.
  - intros H. apply prime_mult in H as [H|H]; auto.
Qed.
Lemma nodup_map {A B} (f : A -> B) l : (forall x y, In x l -> In y l -> f x = f y -> x = y) -> NoDup l -> NoDup (map f l).
Proof.
  intros Hf. induction 1 as [|x l Hx Hl IH]; cbn [map]; [constructor|]. constructor.
  - rewrite in_map_iff. intros (y & E & Hy). apply Hx. rewrite (Hf x y); [exact Hy|now left|now right|congruence].
  - apply IH. intros a b Ha Hb. apply Hf; now right.
Qed.
Theorem fermat q a : prime q -> ~ (q | a) -> zeq q (a ^ (q - 1)) 1.
Proof.
  intros Hq Ha. assert (H2 : 1 < q) by (destruct Hq; lia).
  set (L := map Z.of_nat (seq 1 (Z.to_nat q - 1))). set (M := map (fun i => (a * i) mod q) L).
  assert (HL : forall x, In x L <-> 1 <= x < q).
  { intros x. unfold L. rewrite in_map_iff. split; [intros (n & <- & Hn); apply in_seq in Hn; lia|]. intros Hx. exists (Z.to_nat x). split; [lia|]. apply in_seq. lia. }
  assert (NL : NoDup L) by (apply nodup_map; [intros; lia|apply seq_NoDup]).
  assert (U : forall x, 1 <= x < q -> ~ (q | x)) by (intros x Hx H; apply Z.divide_pos_le in H; lia).
  assert (NM : NoDup M).
  { apply nodup_map; [|exact NL]. intros x y Hx Hy E. apply HL in Hx, Hy.
    assert (D : (q | a * x - a * y)) by (apply zeq_div; [lia|exact E]). rewrite <- Z.mul_sub_distr_l in D. apply prime_mult in D as [D|D]; [contradiction| |exact Hq].
    destruct (Z.lt_trichotomy x y) as [K|[K|K]]; [|exact K|].
    - apply Z.divide_opp_r in D. apply Z.divide_pos_le in D; lia.
    - apply Z.divide_pos_le in D; lia. }
  assert (IM : incl M L).
  { intros z Hz. apply in_map_iff in Hz as (x & <- & Hx). apply HL in Hx. apply HL. pose proof (Z.mod_pos_bound (a * x) q ltac:(lia)) as B.
    assert ((a * x) mod q <> 0); [|lia]. intros E. apply Zmod_divide in E; [|lia]. apply prime_mult in E as [E|E]; [contradiction|exact (U x Hx E)|exact Hq]. }
  assert (PM : Permutation M L) by (apply NoDup_Permutation_bis; [exact NM|unfold M; rewrite map_length; lia|exact IM]).
  pose proof (prodz_scaled q a L) as PS. fold M in PS. rewrite (prodz_perm _ _ PM) in PS. apply zeq_div in PS; [|lia].
  replace (length L) with (Z.to_nat (q - 1)) in PS by (unfold L; rewrite map_length, seq_length; lia). rewrite Z2Nat.id in PS by lia.
  replace (prodz L - a ^ (q - 1) * prodz L) with ((1 - a ^ (q - 1)) * prodz L) in PS by ring. apply prime_mult in PS as [D|D]; [|exfalso|exact Hq].
  - symmetry. apply zeq_div; [lia|exact D].
  - revert D. apply prodz_unit; [exact Hq|]. apply Forall_forall. intros x Hx. apply U. now apply HL.
Qed.

(** ** Powers of a root *)
Lemma pow_gcd q g a b : 1 < q -> 0 <= a -> 0 <= b -> zeq q (g ^ a) 1 -> zeq q (g ^ b) 1 -> zeq q (g ^ Z.gcd a b) 1.
Proof.
  intros Hq Ha Hb Ea. revert b Hb.
  (* strong induction on a: Euclid *)
  revert Ea. revert a Ha. apply (Z_lt_induction (fun a => zeq q (g ^ a) 1 -> forall b, 0 <= b -> zeq q (g ^ b) 1 -> zeq q (g ^ Z.gcd a b) 1)).
  intros a IH Ea b Hb Eb. destruct (Z_le_gt_dec a 0) as [H0|H0].
  { destruct (Z.eq_dec a 0) as [->|]; [now rewrite Z.gcd_0_l, Z.abs_eq|]. exfalso.
    rewrite Z.pow_neg_r in Ea by lia. unfold zeq in Ea. rewrite Zmod_0_l, Z.mod_1_l in Ea by lia. discriminate. }
  rewrite <- (Z.gcd_mod b a) by lia. pose proof (Z.mod_pos_bound b a ltac:(lia)). apply IH; try lia; [|exact Ea].
  assert (E : g ^ b = (g ^ a) ^ (b / a) * g ^ (b mod a)).
  { rewrite <- Z.pow_mul_r by (try lia; apply Z.div_pos; lia). rewrite <- Z.pow_add_r by (try lia; apply Z.mul_nonneg_nonneg; try lia; apply Z.div_pos; lia). f_equal. apply Z.div_mod. lia. }
  rewrite E in Eb. rewrite (zeq_pow q (g ^ a) 1 (b / a)) in Eb by (try exact Ea; apply Z.div_pos; lia). rewrite Z.pow_1_l, Z.mul_1_l in Eb by (apply Z.div_pos; lia). exact Eb.
Qed.
(** If w^(2^(k-1)) = -1, the order of w is exactly 2^k. *)
Lemma order_pow2 q w k e : 2 < q -> 1 <= k -> zeq q (w ^ (2 ^ (k - 1))) (-1) -> 0 <= e -> (zeq q (w ^ e) 1 <-> (2 ^ k | e)).
Proof.
  intros Hq Hk Hw He. assert (P : 0 < 2 ^ (k - 1)) by (apply Z.pow_pos_nonneg; lia).
  assert (E2 : 2 ^ k = 2 ^ (k - 1) * 2) by (replace k with (k - 1 + 1) at 1 by lia; rewrite Z.pow_add_r by lia; reflexivity).
  assert (H1 : zeq q (w ^ (2 ^ k)) 1). { rewrite E2, Z.pow_mul_r by lia. rewrite (zeq_pow q _ (-1) 2) by (try exact Hw; lia). reflexivity. }
  split.
  - intros H. set (d := Z.gcd (2 ^ k) e). assert (Hd : zeq q (w ^ d) 1) by (apply pow_gcd; try assumption; lia).
    destruct (Zdivide_power_2 d 2 k) as (j & Ej); [lia|apply Z.gcd_nonneg|exact prime_2|apply Z.gcd_divide_l|].
    assert (Dp : 0 < d). { pose proof (Z.gcd_nonneg (2 ^ k) e) as G0. change (Z.gcd (2 ^ k) e) with d in G0. assert (d <> 0); [|lia]. intros E0. apply Z.gcd_eq_0_l in E0. lia. }
    assert (Hj : 0 <= j) by (destruct (Z_lt_ge_dec j 0) as [Hj|Hj]; [rewrite Z.pow_neg_r in Ej by lia; lia|lia]).
    destruct (Z_lt_ge_dec j k) as [K|K].
    + exfalso. assert (Q : w ^ (2 ^ (k - 1)) = (w ^ d) ^ (2 ^ (k - 1 - j))).
      { rewrite <- Z.pow_mul_r by (try apply Z.pow_nonneg; lia). f_equal. rewrite Ej, <- Z.pow_add_r by lia. f_equal. lia. }
      rewrite Q in Hw. rewrite (zeq_pow q (w ^ d) 1) in Hw by (try exact Hd; apply Z.pow_nonneg; lia). rewrite Z.pow_1_l in Hw by (apply Z.pow_nonneg; lia).
      apply zeq_div in Hw; [|lia]. apply Z.divide_pos_le in Hw; lia.
    + assert (Dk : (2 ^ k | d)). { exists (2 ^ (j - k)). rewrite Ej, <- Z.pow_add_r by lia. f_equal. lia. }
      eapply Z.divide_trans; [exact Dk|apply Z.gcd_divide_r].
  - intros (m & ->). assert (0 <= m) by nia. rewrite Z.mul_comm, Z.pow_mul_r by lia. rewrite (zeq_pow q _ 1 m) by (try exact H1; lia). rewrite Z.pow_1_l by lia. reflexivity.
Qed.

Fixpoint sqs (n : nat) (x : Z) : Z := match n with O => x | S n => let y := sqs n x in (y * y) mod gp end.
Lemma sqs_ok n x : zeq gp (sqs n x) (x ^ (2 ^ Z.of_nat n)).
Proof.
  induction n as [|n IH]; cbn [sqs]; [change (2 ^ Z.of_nat 0) with 1; rewrite Z.pow_1_r; reflexivity|].
  rewrite zeq_mod, IH. apply zeq_refl'. rewrite Nat2Z.inj_succ, Z.pow_succ_r by lia. rewrite <- Z.pow_add_r by (apply Z.pow_nonneg; lia). f_equal. ring.
Qed.
Lemma gC_half : zeq gp (gC ^ (2 ^ Z.of_nat 31)) (-1).
Proof. rewrite <- sqs_ok. vm_compute. reflexivity. Qed.
Definition gk : Z := 32.
Lemma gC_half' : zeq gp (gC ^ (2 ^ (gk - 1))) (-1).
Proof. exact gC_half. Qed.

Lemma gp_divisor_gen c k q : 1 <= k -> zeq gp (c ^ (2 ^ (k - 1))) (-1) -> prime q -> (q | gp) -> 2 ^ k + 1 <= q.
Proof.
  intros Hk Hc0 Hq D. assert (H1 : 1 < q) by (destruct Hq; lia).
  assert (Hw : zeq q (c ^ (2 ^ (k - 1))) (-1)). { apply zeq_div; [lia|]. eapply Z.divide_trans; [exact D|]. apply zeq_div; [reflexivity|exact Hc0]. }
  assert (H2 : 2 < q). { destruct (Z.eq_dec q 2) as [->|]; [|lia]. apply Zdivide_mod in D. vm_compute in D. discriminate. }
  assert (Hc : ~ (q | c)).
  { intros Dc. apply zeq_div in Hw; [|lia]. assert (Pk : 0 < 2 ^ (k - 1)) by (apply Z.pow_pos_nonneg; lia). remember (2 ^ (k - 1)) as h eqn:Eh. assert (D1 : (q | c ^ h)).
    { replace h with (1 + (h - 1)) by lia. rewrite Z.pow_add_r, Z.pow_1_r by lia. apply Z.divide_mul_l. exact Dc. }
    assert (D2 : (q | 1)). { replace 1 with (c ^ h - -1 - c ^ h) by ring. now apply Z.divide_sub_r. } apply Z.divide_pos_le in D2; lia. }
  pose proof (fermat q c Hq Hc) as F. apply (order_pow2 q c k (q - 1) H2 Hk Hw ltac:(lia)) in F. apply Z.divide_pos_le in F; lia.
Qed.
Lemma gp_divisor q : prime q -> (q | gp) -> 2 ^ 32 + 1 <= q.
Proof. exact (gp_divisor_gen gC gk q ltac:(unfold gk; lia) gC_half'). Qed.
Lemma prime_divisor n : 1 < n -> exists q, prime q /\ (q | n).
Proof.
  intros H. assert (G : 0 <= n) by lia. revert n G H. apply (Z_lt_induction (fun n => 1 < n -> exists q, prime q /\ (q | n))). intros n IH H.
  destruct (prime_dec n) as [P|P]; [exists n; split; [exact P|apply Z.divide_refl]|]. destruct (not_prime_divide n H P) as (m & Hm & D). destruct (IH m ltac:(lia) ltac:(lia)) as (q & Pq & Dq).
  exists q. split; [exact Pq|]. eapply Z.divide_trans; eassumption.
Qed.
Theorem gp_prime : prime gp.
Proof.
  destruct (prime_dec gp) as [P|P]; [exact P|exfalso]. destruct (not_prime_divide gp ltac:(rewrite gp_eq; lia) P) as (n & Hn & m & Hm).
  assert (S1 : forall x, 1 < x -> (x | gp) -> 2 ^ 32 + 1 <= x).
  { intros x Hx D. destruct (prime_divisor x Hx) as (q & Pq & Dq). pose proof (gp_divisor q Pq (Z.divide_trans _ _ _ Dq D)). apply Z.divide_pos_le in Dq; lia. }
  assert (Hm1 : 1 < m) by (rewrite gp_eq in *; nia).
  pose proof (S1 n ltac:(lia) ltac:(exists m; exact Hm)) as A. pose proof (S1 m Hm1 ltac:(exists n; lia)) as B. rewrite gp_eq in Hm. change (2 ^ 32) with 4294967296 in *. nia.
Qed.

(** ** Inverses and roots *)
Lemma fg_inverse_ok pr x : 0 <= x < T64 -> exists y, fg_inverse pr x = Ok y /\ fg_canon y /\ (~ (gp | x) -> zeq gp (x * y) 1) /\ ((gp | x) -> y = 0).
Proof.
  intros Hx. unfold fg_inverse. rewrite usub_ok by (rewrite gp_eq; lia). cbn [bind]. destruct (fg_pow_ok pr x (gp - 2) Hx) as (y & E & C & Q); [rewrite gp_eq; unfold T64; lia|].
  exists y. split; [exact E|]. split; [exact C|]. split.
  - intros Hn. rewrite Q. rewrite <- (fermat gp x gp_prime Hn). apply zeq_refl'. replace (gp - 1) with (1 + (gp - 2)) by lia. rewrite Z.pow_add_r, Z.pow_1_r by (pose proof gp_eq; lia). reflexivity.
  - intros D. assert (Z0 : zeq gp y 0).
    { rewrite Q. replace (gp - 2) with (1 + (gp - 3)) by lia. rewrite Z.pow_add_r, Z.pow_1_r by (pose proof gp_eq; lia). apply zeq_div; [rewrite gp_eq; lia|]. rewrite Z.sub_0_r. now apply Z.divide_mul_l. }
    unfold zeq in Z0. rewrite Zmod_0_l, Z.mod_small in Z0 by exact C. exact Z0.
Qed.
Lemma is_pow2_spec n : is_pow2 n = true <-> exists k, 0 <= k /\ n = 2 ^ k.
Proof.
  unfold is_pow2. rewrite andb_true_iff, Z.ltb_lt, Z.eqb_eq. split.
  - intros (H & E). exists (Z.log2 n). split; [apply Z.log2_nonneg|exact E].
  - intros (k & Hk & ->). rewrite Z.log2_pow2 by exact Hk. split; [apply Z.pow_pos_nonneg; lia|reflexivity].
Qed.
Lemma fg_root_ok pr k : 0 <= k <= 32 -> exists w, fg_root pr (2 ^ k) = Ok w /\ fg_canon w /\ zeq gp (w ^ (2 ^ k)) 1 /\ (1 <= k -> zeq gp (w ^ (2 ^ (k - 1))) (-1)).
Proof.
  intros Hk. unfold fg_root. rewrite (proj2 (is_pow2_spec (2 ^ k))) by (exists k; split; [lia|reflexivity]).
  assert (E : 0x100000000 / 2 ^ k = 2 ^ (32 - k)). { change 0x100000000 with (2 ^ 32). rewrite <- Z.pow_sub_r by lia. reflexivity. }
  rewrite E. assert (B : 0 < 2 ^ (32 - k) <= 2 ^ 32) by (split; [apply Z.pow_pos_nonneg; lia|apply Z.pow_le_mono_r; lia]).
  destruct (fg_pow_ok pr gC (2 ^ (32 - k))) as (w & Ew & C & Q); [unfold gC, T64; lia|change (2 ^ 32) with 4294967296 in B; unfold T64; lia|]. exists w. split; [exact Ew|]. split; [exact C|].
  assert (S1 : forall j, 0 <= j -> zeq gp (w ^ (2 ^ j)) (gC ^ (2 ^ (32 - k + j)))).
  { intros j Hj. rewrite (zeq_pow gp w _ (2 ^ j)) by (try exact Q; apply Z.pow_nonneg; lia). apply zeq_refl'. rewrite <- Z.pow_mul_r by (apply Z.pow_nonneg; lia). now rewrite <- Z.pow_add_r by lia. }
  split.
  - rewrite S1 by lia. replace (32 - k + k) with 32 by lia. apply (order_pow2 gp gC gk (2 ^ gk)); [reflexivity|unfold gk; lia|exact gC_half'|unfold gk; lia|apply Z.divide_refl].
  - intros H1. rewrite S1 by lia. replace (32 - k + (k - 1)) with (gk - 1) by (unfold gk; lia). exact gC_half'.
Qed.
Lemma fg_root_order pr k w e : 0 <= k <= 32 -> fg_root pr (2 ^ k) = Ok w -> 0 <= e -> (zeq gp (w ^ e) 1 <-> (2 ^ k | e)).
Proof.
  intros Hk E He. destruct (fg_root_ok pr k Hk) as (w' & E' & C & P1 & P2). rewrite E in E'. injection E' as <-. destruct (Z.eq_dec k 0) as [->|].
  - change (2 ^ 0) with 1 in *. rewrite Z.pow_1_r in P1. split; [intros _; apply Z.divide_1_l|]. intros _. rewrite (zeq_pow gp w 1 e He P1), Z.pow_1_l by exact He. reflexivity.
  - apply order_pow2; try lia; [rewrite gp_eq; lia|apply P2; lia].
Qed.
