(** C123: arithmetic in the Goldilocks field; C124: roots of unity and the NTT tables. *)
From Coq Require Import ZArith List Bool Lia Znumtheory.
From Verif Require Import Base Alu AluProofs MuxGraph PolyRing Goldilocks SpecGold GoldilocksProofs GoldilocksProofs2 GoldilocksProofs3.
Import ListNotations.
Ltac Zify.zify_post_hook ::= idtac.
Open Scope Z_scope.

Lemma gold_gp : goldilocks = gp. Proof. reflexivity. Qed.

(** p is prime. *)
Theorem C123_prime : prime goldilocks.
Proof. rewrite gold_gp. exact gp_prime. Qed.
Print Assumptions C123_prime.

(** A program over the field, run with the operations of the crate ... *)
Fixpoint fg_run (pr : profile) (e : fexp) : res Z :=
  match e with
  | FNew x => fg_new pr x
  | FZero => Ok 0 | FOne => Ok 1
  | FAdd a b => x <- fg_run pr a ;; y <- fg_run pr b ;; Ok (fg_add x y)
  | FSub a b => x <- fg_run pr a ;; y <- fg_run pr b ;; Ok (fg_sub x y)
  | FMul a b => x <- fg_run pr a ;; y <- fg_run pr b ;; fg_mul pr x y
  | FMad a b c => x <- fg_run pr a ;; y <- fg_run pr b ;; z <- fg_run pr c ;; fg_mad pr x y z
  | FNeg a => x <- fg_run pr a ;; fg_neg pr x
  | FAddR a b => x <- fg_run pr a ;; y <- fg_run pr b ;; fg96_reduce pr (fg_unreduced_add x y)
  | FSubR a b => x <- fg_run pr a ;; y <- fg_run pr b ;; v <- fg_unreduced_sub pr x y ;; fg96_reduce pr v
  | FPow a n => x <- fg_run pr a ;; fg_pow pr x n
  | FInv a => x <- fg_run pr a ;; fg_inverse pr x
  | FRoot k => fg_root pr (2 ^ k)
  end.
(** ... and its value, an integer modulo p. The inverse of x is x^(p-2) (see [C123_inverse]); the roots are powers of the constant (see [C124_root_primitive]). *)
Fixpoint fg_value (e : fexp) : Z :=
  match e with
  | FNew x => x | FZero => 0 | FOne => 1
  | FAdd a b | FAddR a b => fg_value a + fg_value b
  | FSub a b | FSubR a b => fg_value a - fg_value b
  | FMul a b => fg_value a * fg_value b
  | FMad a b c => fg_value a * fg_value b + fg_value c
  | FNeg a => - fg_value a
  | FPow a n => fg_value a ^ n
  | FInv a => fg_value a ^ (goldilocks - 2)
  | FRoot k => 12037493425763644479 ^ (2 ^ (32 - k))
  end.
(** Constants and exponents are u64, root orders at most 2^32. *)
Fixpoint fg_inputs (e : fexp) : Prop :=
  match e with
  | FNew x => 0 <= x < 2 ^ 64 | FZero | FOne => True
  | FAdd a b | FSub a b | FMul a b | FAddR a b | FSubR a b => fg_inputs a /\ fg_inputs b
  | FMad a b c => fg_inputs a /\ fg_inputs b /\ fg_inputs c
  | FNeg a | FInv a => fg_inputs a
  | FPow a n => fg_inputs a /\ 0 <= n < 2 ^ 64
  | FRoot k => 0 <= k <= 32
  end.
(** No negation and no constant p. *)
Fixpoint fg_plain (e : fexp) : Prop :=
  match e with
  | FNew x => x <> goldilocks | FZero | FOne | FRoot _ => True
  | FAdd a b | FSub a b => fg_plain a /\ fg_plain b
  | FMul _ _ | FMad _ _ _ | FAddR _ _ | FSubR _ _ | FPow _ _ | FInv _ => True
  | FNeg a => False
  end.

Lemma run_ok pr e : fg_inputs e -> exists a, fg_run pr e = Ok a /\ fg_ok a /\ zeq gp a (fg_value e) /\ (fg_plain e -> fg_canon a).
Proof.
  assert (K : forall a, fg_canon a -> fg_ok a) by (unfold fg_canon, fg_ok; intros; lia).
  induction e as [x| | |a IHa b IHb|a IHa b IHb|a IHa b IHb|a IHa b IHb c IHc|a IHa|a IHa b IHb|a IHa b IHb|a IHa n|a IHa|k]; cbn [fg_inputs fg_run fg_value fg_plain]; intros H.
  - rewrite gold_gp. rewrite T64_eq in H. destruct (fg_new_ok pr x H) as (a & E & O & Q & C). exists a. auto.
  - exists 0. split; [reflexivity|]. unfold fg_ok, fg_canon. rewrite gp_eq. repeat split; lia.
  - exists 1. split; [reflexivity|]. unfold fg_ok, fg_canon. rewrite gp_eq. repeat split; lia.
  - destruct (IHa (proj1 H)) as (x & -> & Ox & Qx & Cx). destruct (IHb (proj2 H)) as (y & -> & Oy & Qy & Cy). cbn [bind]. eexists. split; [reflexivity|].
    destruct (fg_add_ok x y Ox Oy) as (O & Q & C). split; [exact O|]. split; [rewrite Q, Qx, Qy; reflexivity|]. intros (P1 & P2). auto.
  - destruct (IHa (proj1 H)) as (x & -> & Ox & Qx & Cx). destruct (IHb (proj2 H)) as (y & -> & Oy & Qy & Cy). cbn [bind]. eexists. split; [reflexivity|].
    destruct (fg_sub_ok x y Ox Oy) as (O & Q & C). split; [exact O|]. split; [rewrite Q, Qx, Qy; reflexivity|]. intros (P1 & P2). auto.
  - destruct (IHa (proj1 H)) as (x & -> & Ox & Qx & Cx). destruct (IHb (proj2 H)) as (y & -> & Oy & Qy & Cy). cbn [bind].
    destruct (fg_mul_ok pr x y (fg_ok_word x Ox) (fg_ok_word y Oy)) as (r & E & C & Q). exists r. split; [exact E|]. split; [auto|]. split; [rewrite Q, Qx, Qy; reflexivity|auto].
  - destruct (IHa (proj1 H)) as (x & -> & Ox & Qx & Cx). destruct (IHb (proj1 (proj2 H))) as (y & -> & Oy & Qy & Cy). destruct (IHc (proj2 (proj2 H))) as (z & -> & Oz & Qz & Cz). cbn [bind].
    destruct (fg_mad_ok pr x y z (fg_ok_word x Ox) (fg_ok_word y Oy) (fg_ok_word z Oz)) as (r & E & C & Q). exists r. split; [exact E|]. split; [auto|]. split; [rewrite Q, Qx, Qy, Qz; reflexivity|auto].
  - destruct (IHa H) as (x & -> & Ox & Qx & Cx). cbn [bind]. destruct (fg_neg_ok pr x Ox) as (r & E & O & Q & _). exists r. split; [exact E|]. split; [exact O|]. split; [rewrite Q, Qx; reflexivity|contradiction].
  - destruct (IHa (proj1 H)) as (x & -> & Ox & Qx & Cx). destruct (IHb (proj2 H)) as (y & -> & Oy & Qy & Cy). cbn [bind]. unfold fg_unreduced_add. rewrite T64_eq.
    destruct (fg96_reduce_ok pr (uwrap 64 (x + y)) (if T64 <=? x + y then 1 else 0)) as (r & E & C & Q).
    { unfold uwrap. rewrite T64_eq. apply Z.mod_pos_bound. unfold T64. lia. } { destruct (T64 <=? x + y); unfold T32; lia. }
    exists r. split; [exact E|]. split; [auto|]. split; [|auto]. rewrite Q, <- Qx, <- Qy. apply zeq_refl'. unfold fg_ok in *. destruct (Z.leb_spec T64 (x + y)).
    + rewrite uw_down by (rewrite gp_eq in *; unfold T64 in *; lia). ring.
    + rewrite uw_id by lia. ring.
  - destruct (IHa (proj1 H)) as (x & -> & Ox & Qx & Cx). destruct (IHb (proj2 H)) as (y & -> & Oy & Qy & Cy). cbn [bind]. unfold fg_unreduced_sub.
    unfold fg_ok in *. rewrite usub_ok by lia. cbn [bind]. unfold fg_unreduced_add. rewrite T64_eq.
    destruct (fg96_reduce_ok pr (uwrap 64 (x + (gp - y))) (if T64 <=? x + (gp - y) then 1 else 0)) as (r & E & C & Q).
    { unfold uwrap. rewrite T64_eq. apply Z.mod_pos_bound. unfold T64. lia. } { destruct (T64 <=? x + (gp - y)); unfold T32; lia. }
    exists r. split; [exact E|]. split; [apply K in C; exact C|]. split; [|auto]. rewrite Q, <- Qx, <- Qy. apply zeq_k with 1. destruct (Z.leb_spec T64 (x + (gp - y))).
    + rewrite uw_down by (rewrite gp_eq in *; unfold T64 in *; lia). ring.
    + rewrite uw_id by lia. ring.
  - destruct H as (H & Hn). destruct (IHa H) as (x & -> & Ox & Qx & Cx). cbn [bind]. rewrite T64_eq in Hn. destruct (fg_pow_ok pr x n (fg_ok_word x Ox) Hn) as (r & E & C & Q).
    exists r. split; [exact E|]. split; [auto|]. split; [rewrite Q; apply zeq_pow; [lia|exact Qx]|auto].
  - destruct (IHa H) as (x & -> & Ox & Qx & Cx). cbn [bind]. unfold fg_inverse. rewrite usub_ok by (rewrite gp_eq; lia). cbn [bind].
    destruct (fg_pow_ok pr x (gp - 2) (fg_ok_word x Ox)) as (r & E & C & Q); [rewrite gp_eq; unfold T64; lia|].
    exists r. split; [exact E|]. split; [auto|]. split; [rewrite Q, gold_gp; apply zeq_pow; [rewrite gp_eq; lia|exact Qx]|auto].
  - unfold fg_root. rewrite (proj2 (is_pow2_spec (2 ^ k))) by (exists k; split; [lia|reflexivity]).
    assert (E : 0x100000000 / 2 ^ k = 2 ^ (32 - k)). { change 0x100000000 with (2 ^ 32). rewrite <- Z.pow_sub_r by lia. reflexivity. }
    rewrite E. assert (B : 0 < 2 ^ (32 - k) <= 2 ^ 32) by (split; [apply Z.pow_pos_nonneg; lia|apply Z.pow_le_mono_r; lia]).
    destruct (fg_pow_ok pr gC (2 ^ (32 - k))) as (w & Ew & C & Q); [unfold gC, T64; lia|change (2 ^ 32) with 4294967296 in B; unfold T64; lia|].
    exists w. split; [exact Ew|]. split; [auto|]. split; [exact Q|auto].
Qed.

(** Every computation in the field succeeds, in every build profile, and its result is right modulo p; it is at most p. *)
Theorem C123_computations : forall pr e, fg_inputs e -> exists a, fg_run pr e = Ok a /\ 0 <= a <= goldilocks /\ a mod goldilocks = fg_value e mod goldilocks.
Proof. intros pr e H. destruct (run_ok pr e H) as (a & E & O & Q & _). exists a. rewrite gold_gp. auto. Qed.
Print Assumptions C123_computations.
(** The result is fully reduced - so equality and the zero test of the crate, which compare words, are right - unless it comes by
    additions and subtractions from a negation or from [new] of p itself. *)
Theorem C123_reduced : forall pr e, fg_inputs e -> fg_plain e -> fg_run pr e = Ok (fg_value e mod goldilocks).
Proof.
  intros pr e H Hp. destruct (run_ok pr e H) as (a & E & _ & Q & C). specialize (C Hp). rewrite E. f_equal. rewrite gold_gp. unfold zeq in Q. rewrite <- Q. symmetry. now apply Z.mod_small.
Qed.
Print Assumptions C123_reduced.
Theorem C123_zero_test : forall pr e a, fg_inputs e -> fg_plain e -> fg_run pr e = Ok a -> (fg_is_zero a = true <-> (goldilocks | fg_value e)).
Proof.
  intros pr e a H Hp E. rewrite (C123_reduced pr e H Hp) in E. injection E as <-. unfold fg_is_zero. rewrite Z.eqb_eq. apply Z.mod_divide. discriminate.
Qed.
Print Assumptions C123_zero_test.
(** Products, powers, reciprocals and unreduced sums are fully reduced whatever their operands. *)
Theorem C123_product_reduced : forall pr a b, fg_inputs a -> fg_inputs b -> fg_run pr (FMul a b) = Ok ((fg_value a * fg_value b) mod goldilocks).
Proof. intros pr a b Ha Hb. apply (C123_reduced pr (FMul a b)); cbn; auto. Qed.
Print Assumptions C123_product_reduced.
(** The inverse is the inverse; that of zero is zero. *)
Theorem C123_inverse : forall pr e, fg_inputs e ->
  (~ (goldilocks | fg_value e) -> fg_run pr (FMul e (FInv e)) = Ok 1) /\ ((goldilocks | fg_value e) -> fg_run pr (FInv e) = Ok 0).
Proof.
  intros pr e H. destruct (run_ok pr e H) as (x & E & O & Q & _). destruct (fg_inverse_ok pr x (fg_ok_word x O)) as (y & Ey & Cy & H1 & H2). rewrite gold_gp.
  assert (Dv : (gp | x) <-> (gp | fg_value e)). { split; intros D; apply Z.mod_divide; try discriminate; apply Z.mod_divide in D; try discriminate; unfold zeq in Q; congruence. }
  split; intros D; cbn [fg_run]; rewrite E; cbn [bind].
  - rewrite Ey. cbn [bind]. destruct (fg_mul_ok pr x y (fg_ok_word x O) (fg_canon_word y Cy)) as (r & -> & C & Qr). f_equal. rewrite H1 in Qr by tauto.
    unfold zeq in Qr. rewrite Z.mod_small in Qr by exact C. rewrite Qr. reflexivity.
  - rewrite Ey. f_equal. apply H2. tauto.
Qed.
Print Assumptions C123_inverse.
(** Negation of zero is p: right modulo p, but not equal to zero for the crate ([can_neg_fg] compares [-a] with [0 - a] at random points
    and would fail at 0). The same for [new] of p. *)
Theorem C123_negated_zero_refuted : exists a, (forall pr, fg_run pr (FNeg FZero) = Ok a) /\ a mod goldilocks = 0 /\ fg_is_zero a = false /\ forall pr, fg_run pr (FSub FZero FZero) <> Ok a.
Proof. exists goldilocks. split; [reflexivity|]. split; [reflexivity|]. split; [reflexivity|]. intros pr. cbn. discriminate. Qed.
Print Assumptions C123_negated_zero_refuted.
Theorem C123_new_of_p_refuted : forall pr, fg_run pr (FNew goldilocks) = Ok goldilocks /\ fg_is_zero goldilocks = false.
Proof. split; reflexivity. Qed.
Print Assumptions C123_new_of_p_refuted.
(** (5 - 7) / (2^64 - 1) + (p - 1), with a constant above p; and the tables of size four. *)
Example C123_ex : let e := FAdd (FMul (FSub (FNew 5) (FNew 7)) (FInv (FNew (2 ^ 64 - 1)))) (FNew (goldilocks - 1)) in
  fg_inputs e /\ fg_plain e /\ fg_run Debug e = Ok 12297829382473034411 /\ fg_run Release e = Ok 12297829382473034411.
Proof. cbn [fg_inputs fg_plain]. split; [repeat split; vm_compute; congruence|]. split; [repeat split; vm_compute; congruence|]. split; vm_compute; reflexivity. Qed.
Example C124_ex : ntt_new Debug 4 = Ok {| ntt_twiddle := [1; 281474976710656; 18446744069414584320; 18446462594437873665];
  ntt_inv_twiddle := [1; 18446462594437873665; 18446744069414584320; 281474976710656]; ntt_n_inv := 13835058052060938241 |}.
Proof. vm_compute. reflexivity. Qed.

(** C124 *)
(** For every size 2^k up to 2^32 the root is a primitive one: its powers that are 1 are exactly the multiples of the size. *)
Theorem C124_root_primitive : forall pr k, 0 <= k <= 32 -> exists w, fg_root pr (2 ^ k) = Ok w /\ 0 <= w < goldilocks /\ forall e, 0 <= e -> ((w ^ e) mod goldilocks = 1 <-> (2 ^ k | e)).
Proof.
  intros pr k Hk. destruct (fg_root_ok pr k Hk) as (w & E & C & _). exists w. split; [exact E|]. split; [exact C|]. intros e He. rewrite gold_gp. rewrite <- (fg_root_order pr k w e Hk E He). reflexivity.
Qed.
Print Assumptions C124_root_primitive.
(** Sizes that are not powers of two are refused; larger powers of two, for which no root exists, get 1 instead of a panic. *)
Theorem C124_root_refused : forall pr n, 0 <= n < 2 ^ 64 -> (forall k, 0 <= k -> n <> 2 ^ k) -> fg_root pr n = Panic.
Proof.
  intros pr n Hn H. unfold fg_root. destruct (is_pow2 n) eqn:E; [|reflexivity]. exfalso. apply is_pow2_spec in E as (k & Hk & En). exact (H k Hk En).
Qed.
Print Assumptions C124_root_refused.
Theorem C124_root_too_large_refuted : forall pr k, 33 <= k < 64 -> fg_root pr (2 ^ k) = Ok 1 /\ ~ exists w, forall e, 0 <= e -> ((w ^ e) mod goldilocks = 1 <-> (2 ^ k | e)).
Proof.
  intros pr k Hk. split.
  - unfold fg_root. rewrite (proj2 (is_pow2_spec (2 ^ k))) by (exists k; split; [lia|reflexivity]). rewrite Z.div_small.
    + destruct (fg_pow_ok pr gC 0) as (w & Ew & C & Q); [unfold gC, T64; lia|unfold T64; lia|]. rewrite Ew. f_equal. unfold zeq in Q. rewrite Z.mod_small in Q by exact C. rewrite Q. reflexivity.
    + change 0x100000000 with (2 ^ 32). split; [lia|]. apply Z.pow_lt_mono_r; lia.
  - intros (w & H). rewrite gold_gp in H. assert (Hn : ~ (gp | w)).
    { intros D. assert (B : 0 < 2 ^ k) by (apply Z.pow_pos_nonneg; lia). assert (E : (w ^ (2 ^ k)) mod gp = 1) by (apply H; [lia|apply Z.divide_refl]).
      assert (D2 : (gp | w ^ (2 ^ k))). { remember (2 ^ k) as h. replace h with (1 + (h - 1)) by lia. rewrite Z.pow_add_r, Z.pow_1_r by lia. now apply Z.divide_mul_l. }
      apply Z.mod_divide in D2; [congruence|discriminate]. }
    pose proof (fermat gp w gp_prime Hn) as F. unfold zeq in F. change (1 mod gp) with 1 in F. apply H in F; [|discriminate].
    assert (D : (2 ^ 33 | gp - 1)). { eapply Z.divide_trans; [|exact F]. exists (2 ^ (k - 33)). rewrite <- Z.pow_add_r by lia. f_equal. lia. }
    apply Z.mod_divide in D; discriminate.
Qed.
Print Assumptions C124_root_too_large_refuted.
(** The tables define an invertible transform that turns cyclic convolution into multiplication. *)
Theorem C124_ntt_tables : forall pr lg, (lg <= 32)%nat -> let n := (2 ^ lg)%nat in
  exists t, ntt_new pr n = Ok t /\ length (ntt_twiddle t) = n /\ length (ntt_inv_twiddle t) = n /\
    (forall x j, (j < n)%nat -> (ntt_n_inv t * dft n (ntt_inv_twiddle t) (dft n (ntt_twiddle t) x) j) mod goldilocks = x j mod goldilocks) /\
    (forall x y j, (j < n)%nat -> (dft n (ntt_twiddle t) (cyclic_conv n x y) j) mod goldilocks = (dft n (ntt_twiddle t) x j * dft n (ntt_twiddle t) y j) mod goldilocks).
Proof.
  intros pr lg Hl n. destruct (ntt_new_ok pr lg Hl) as (t & w & v & E & Tw & Tv & Hv & Ho & Hn & _). fold n in E, Tw, Tv, Ho, Hn.
  assert (Hp : (0 < n)%nat) by (unfold n; apply Nat.neq_0_lt_0, Nat.pow_nonzero; lia). assert (W1 : zeq gp (w ^ Z.of_nat n) 1) by (apply Ho; [lia|apply Z.divide_refl]).
  exists t. split; [exact E|]. split; [apply Tw|]. split; [apply Tv|]. rewrite gold_gp. split.
  - intros x j Hj. exact (dft_round n w v _ _ _ x j Tw Tv Hp Hv Ho Hn Hj).
  - intros x y j Hj. exact (dft_conv n w _ x y j Tw Hp W1).
Qed.
Print Assumptions C124_ntt_tables.
Theorem C124_ntt_refused : forall pr n, Z.of_nat n < 2 ^ 64 -> (forall k, n <> (2 ^ k)%nat) -> ntt_new pr n = Panic.
Proof.
  intros pr n Hn H. unfold ntt_new. rewrite (C124_root_refused pr (Z.of_nat n)); [reflexivity|lia|]. intros k Hk E. apply (H (Z.to_nat k)). apply Nat2Z.inj. rewrite Nat2Z.inj_pow, Z2Nat.id by exact Hk. exact E.
Qed.
Print Assumptions C124_ntt_refused.
