(** The NTT tables: orthogonality and convolution. *)
From Coq Require Import ZArith List Bool Lia Znumtheory.
From Verif Require Import Base Alu AluProofs MuxGraph PolyRing Goldilocks SpecGold GoldilocksProofs GoldilocksProofs2.
Import ListNotations.
Ltac Zify.zify_post_hook ::= idtac.
Open Scope Z_scope.

Lemma gp_pos : 0 < gp. Proof. reflexivity. Qed.
Lemma zsum_zeq q n f g : (forall i, (i < n)%nat -> zeq q (f i) (g i)) -> zeq q (zsum n f) (zsum n g).
Proof. apply zsum_mod. Qed.
Lemma geo r n : (r - 1) * zsum n (fun i => r ^ Z.of_nat i) = r ^ Z.of_nat n - 1.
Proof.
  induction n as [|n IH]; cbn [zsum]; [change (Z.of_nat 0) with 0; rewrite Z.pow_0_r; ring|]. rewrite Z.mul_add_distr_l, IH, Nat2Z.inj_succ, Z.pow_succ_r by lia. ring.
Qed.
Lemma geo_zero r n : zeq gp (r ^ Z.of_nat n) 1 -> ~ zeq gp r 1 -> zeq gp (zsum n (fun i => r ^ Z.of_nat i)) 0.
Proof.
  intros H1 H2. apply zeq_div; [exact gp_pos|]. rewrite Z.sub_0_r. apply zeq_div in H1; [|exact gp_pos]. rewrite <- geo in H1.
  apply prime_mult in H1 as [D|D]; [|exact D|exact gp_prime]. exfalso. apply H2. now apply zeq_div.
Qed.
Lemma geo_one r n : zeq gp r 1 -> zeq gp (zsum n (fun i => r ^ Z.of_nat i)) (Z.of_nat n).
Proof.
  intros H. rewrite (zsum_zeq gp n _ (fun _ => 1)); [rewrite zsum_const; apply zeq_refl'; ring|]. intros i _. rewrite (zeq_pow gp r 1) by (try exact H; lia). rewrite Z.pow_1_l by lia. reflexivity.
Qed.
Lemma pow_modn w n a : (0 < n)%nat -> zeq gp (w ^ Z.of_nat n) 1 -> zeq gp (w ^ Z.of_nat (a mod n)) (w ^ Z.of_nat a).
Proof.
  intros Hn H. assert (E : Z.of_nat a = Z.of_nat n * Z.of_nat (a / n) + Z.of_nat (a mod n)) by (rewrite <- Nat2Z.inj_mul, <- Nat2Z.inj_add; f_equal; apply Nat.div_mod; lia).
  rewrite E, Z.pow_add_r by (try apply Z.mul_nonneg_nonneg; apply Nat2Z.is_nonneg). rewrite Z.pow_mul_r by apply Nat2Z.is_nonneg.
  rewrite (zeq_pow gp _ 1 (Z.of_nat (a / n))) by (try exact H; apply Nat2Z.is_nonneg). rewrite Z.pow_1_l by apply Nat2Z.is_nonneg. apply zeq_refl'. ring.
Qed.
Definition is_table (n : nat) (w : Z) (tw : list Z) : Prop := length tw = n /\ forall i, (i < n)%nat -> zeq gp (nth i tw 0) (w ^ Z.of_nat i).
Lemma table_at n w tw a : is_table n w tw -> (0 < n)%nat -> zeq gp (w ^ Z.of_nat n) 1 -> zeq gp (nth (a mod n) tw 0) (w ^ Z.of_nat a).
Proof. intros (_ & H) Hn H1. rewrite H by (apply Nat.mod_upper_bound; lia). now apply pow_modn. Qed.
Lemma dft_pow n w tw x j : is_table n w tw -> (0 < n)%nat -> zeq gp (w ^ Z.of_nat n) 1 -> zeq gp (dft n tw x j) (zsum n (fun i => x i * w ^ Z.of_nat (i * j))).
Proof. intros Ht Hn H1. unfold dft. apply zsum_zeq. intros i Hi. rewrite (table_at n w tw (i * j) Ht Hn H1). reflexivity. Qed.

Lemma pow_inv w v a : zeq gp (w * v) 1 -> zeq gp (w ^ Z.of_nat a * v ^ Z.of_nat a) 1.
Proof. intros H. rewrite <- Z.pow_mul_l. rewrite (zeq_pow gp _ 1) by (try exact H; lia). rewrite Z.pow_1_l by lia. reflexivity. Qed.
Lemma inv_order w v n : zeq gp (w * v) 1 -> zeq gp (w ^ Z.of_nat n) 1 -> zeq gp (v ^ Z.of_nat n) 1.
Proof. intros H H1. rewrite <- (pow_inv w v n H). rewrite H1. apply zeq_refl'. ring. Qed.
Lemma orthogonal n w v k j : zeq gp (w * v) 1 -> (forall e, 0 <= e -> (zeq gp (w ^ e) 1 <-> (Z.of_nat n | e))) -> (k < n)%nat -> (j < n)%nat ->
  zeq gp (zsum n (fun i => w ^ Z.of_nat (k * i) * v ^ Z.of_nat (i * j))) (if (k =? j)%nat then Z.of_nat n else 0).
Proof.
  intros Hv Hw Hk Hj. set (r := w ^ Z.of_nat k * v ^ Z.of_nat j).
  assert (W1 : zeq gp (w ^ Z.of_nat n) 1) by (apply Hw; [lia|apply Z.divide_refl]). pose proof (inv_order w v n Hv W1) as V1.
  rewrite (zsum_ext n _ (fun i => r ^ Z.of_nat i)) by (intros i _; unfold r; rewrite Z.pow_mul_l, <- !Z.pow_mul_r by lia; do 2 f_equal; lia).
  destruct (Nat.eqb_spec k j) as [->|Hne].
  - apply geo_one. apply pow_inv. exact Hv.
  - apply geo_zero.
    + unfold r. rewrite Z.pow_mul_l, <- !Z.pow_mul_r by lia. rewrite !(Z.mul_comm _ (Z.of_nat n)), !Z.pow_mul_r by lia.
      rewrite (zeq_pow gp (w ^ Z.of_nat n) 1) by (try exact W1; lia). rewrite (zeq_pow gp (v ^ Z.of_nat n) 1) by (try exact V1; lia). rewrite !Z.pow_1_l by lia. reflexivity.
    + intros R. assert (Hlt : forall a b, (a < n)%nat -> (b < a)%nat -> zeq gp (w ^ Z.of_nat (a - b)) 1 -> False).
      { intros a b Ha Hb E. apply Hw in E; [|lia]. apply Z.divide_pos_le in E; lia. }
      destruct (Nat.lt_trichotomy k j) as [L|[L|L]]; [|contradiction|].
      * apply (Hlt j k Hj L). transitivity (w ^ Z.of_nat (j - k) * r); [rewrite R; apply zeq_refl'; ring|]. rewrite <- (pow_inv w v j Hv). unfold r. apply zeq_refl'.
        replace (Z.of_nat j) with (Z.of_nat (j - k) + Z.of_nat k) at 2 by lia. rewrite Z.pow_add_r by lia. ring.
      * apply (Hlt k j Hk L). transitivity r; [|exact R]. unfold r. replace (Z.of_nat k) with (Z.of_nat (k - j) + Z.of_nat j) by lia. rewrite Z.pow_add_r by lia.
        rewrite <- Z.mul_assoc, (pow_inv w v j Hv). apply zeq_refl'. ring.
Qed.
Lemma zsum_shift n s f : (s <= n)%nat -> zsum n (fun k => f ((k + s) mod n)%nat) = zsum n f.
Proof.
  intros Hs. destruct (Nat.eq_dec n 0) as [->|Hn0]; [reflexivity|]. transitivity (zsum (s + (n - s)) f); [|f_equal; lia]. rewrite zsum_app, Z.add_comm.
  transitivity (zsum ((n - s) + s) (fun k => f ((k + s) mod n)%nat)); [f_equal; lia|]. rewrite zsum_app. f_equal.
  - apply zsum_ext. intros i Hi. f_equal. rewrite Nat.mod_small by lia. lia.
  - apply zsum_ext. intros i Hi. f_equal. replace (n - s + i + s)%nat with (i + 1 * n)%nat by lia. rewrite Nat.mod_add by lia. apply Nat.mod_small. lia.
Qed.
Lemma dft_conv n w tw x y j : is_table n w tw -> (0 < n)%nat -> zeq gp (w ^ Z.of_nat n) 1 ->
  zeq gp (dft n tw (cyclic_conv n x y) j) (dft n tw x j * dft n tw y j).
Proof.
  intros Ht Hn H1. rewrite !(dft_pow n w tw _ j Ht Hn H1).
  rewrite (zsum_ext n (fun i => cyclic_conv n x y i * _) (fun k => zsum n (fun i => x i * (y ((k + n - i) mod n)%nat * w ^ Z.of_nat (k * j))))).
  2:{ intros k _. unfold cyclic_conv. rewrite <- zsum_mulr. apply zsum_ext. intros i _. ring. }
  rewrite zsum_swap, <- zsum_mulr. apply zsum_zeq. intros i Hi. rewrite zsum_mull, <- Z.mul_assoc. apply zeq_mul; [reflexivity|].
  rewrite <- zsum_mull. rewrite <- (zsum_shift n (n - i) (fun k => w ^ Z.of_nat (i * j) * (y k * w ^ Z.of_nat (k * j)))) by lia. apply zsum_zeq. intros k Hk.
  replace (k + n - i)%nat with (k + (n - i))%nat by lia. set (m := ((k + (n - i)) mod n)%nat).
  transitivity (y m * w ^ Z.of_nat (i * j + m * j)); [|rewrite Nat2Z.inj_add, Z.pow_add_r by lia; apply zeq_refl'; ring]. apply zeq_mul; [reflexivity|].
  rewrite <- (pow_modn w n (k * j) Hn H1), <- (pow_modn w n (i * j + m * j) Hn H1). apply zeq_refl'. do 2 f_equal. rewrite <- Nat.mul_add_distr_r.
  rewrite (Nat.mul_mod k), (Nat.mul_mod (i + m)) by lia. do 2 f_equal. unfold m. rewrite Nat.add_mod_idemp_r by lia.
  replace (i + (k + (n - i)))%nat with (k + 1 * n)%nat by lia. now rewrite Nat.mod_add by lia.
Qed.
Lemma dft_round n w v tw itw ni x j : is_table n w tw -> is_table n v itw -> (0 < n)%nat -> zeq gp (w * v) 1 ->
  (forall e, 0 <= e -> (zeq gp (w ^ e) 1 <-> (Z.of_nat n | e))) -> zeq gp (Z.of_nat n * ni) 1 -> (j < n)%nat ->
  zeq gp (ni * dft n itw (dft n tw x) j) (x j).
Proof.
  intros Ht Hi Hn Hv Hw Hni Hj. assert (W1 : zeq gp (w ^ Z.of_nat n) 1) by (apply Hw; [lia|apply Z.divide_refl]). pose proof (inv_order w v n Hv W1) as V1.
  rewrite (dft_pow n v itw _ j Hi Hn V1).
  rewrite (zsum_zeq gp n _ (fun i => zsum n (fun k => x k * (w ^ Z.of_nat (k * i) * v ^ Z.of_nat (i * j))))).
  2:{ intros i _. rewrite (dft_pow n w tw x i Ht Hn W1). rewrite <- zsum_mulr. apply zeq_refl'. apply zsum_ext. intros k _. ring. }
  rewrite zsum_swap. rewrite (zsum_zeq gp n _ (fun k => if (k =? j)%nat then x k * Z.of_nat n else 0)).
  2:{ intros k Hk. rewrite zsum_mull. rewrite (orthogonal n w v k j Hv Hw Hk Hj). destruct (k =? j)%nat; apply zeq_refl'; ring. }
  rewrite (zsum_single n j) by (try exact Hj; intros i _ Hne; now apply Nat.eqb_neq in Hne as ->). rewrite Nat.eqb_refl.
  transitivity (x j * (Z.of_nat n * ni)); [apply zeq_refl'; ring|]. rewrite Hni. apply zeq_refl'. ring.
Qed.
Lemma ntt_new_ok pr lg : (lg <= 32)%nat -> let n := (2 ^ lg)%nat in exists t w v, ntt_new pr n = Ok t /\ is_table n w (ntt_twiddle t) /\ is_table n v (ntt_inv_twiddle t) /\
  zeq gp (w * v) 1 /\ (forall e, 0 <= e -> (zeq gp (w ^ e) 1 <-> (Z.of_nat n | e))) /\ zeq gp (Z.of_nat n * ntt_n_inv t) 1 /\ fg_root pr (Z.of_nat n) = Ok w.
Proof.
  intros Hl n. assert (En : Z.of_nat n = 2 ^ Z.of_nat lg) by (unfold n; rewrite Nat2Z.inj_pow; reflexivity).
  assert (Bn : 1 <= Z.of_nat n <= 2 ^ 32). { rewrite En. split; [pose proof (Z.pow_pos_nonneg 2 (Z.of_nat lg) ltac:(lia) ltac:(lia)); lia|apply Z.pow_le_mono_r; lia]. } change (2 ^ 32) with 4294967296 in Bn.
  unfold ntt_new. rewrite En. destruct (fg_root_ok pr (Z.of_nat lg) ltac:(lia)) as (w & Ew & Cw & W1 & _). rewrite Ew. cbn [bind].
  assert (Nw : ~ (gp | w)).
  { intros D. assert (D2 : (gp | w ^ (2 ^ Z.of_nat lg))). { replace (2 ^ Z.of_nat lg) with (1 + (2 ^ Z.of_nat lg - 1)) by ring. rewrite Z.pow_add_r, Z.pow_1_r by lia. now apply Z.divide_mul_l. }
    apply zeq_div in W1; [|exact gp_pos]. assert (D3 : (gp | 1)). { replace 1 with (w ^ 2 ^ Z.of_nat lg - (w ^ 2 ^ Z.of_nat lg - 1)) by ring. now apply Z.divide_sub_r. } apply Z.divide_pos_le in D3; [rewrite gp_eq in D3|]; lia. }
  destruct (fg_inverse_ok pr w (fg_canon_word w Cw)) as (v & Ev & Cv & Hv & _). rewrite Ev. cbn [bind]. specialize (Hv Nw).
  assert (G : forall z, fg_canon z -> exists tz, mapM (fun i => fg_pow pr z (Z.of_nat i)) (seq 0 n) = Ok tz /\ is_table n z tz).
  { intros z Cz. set (g := fun i : nat => match fg_pow pr z (Z.of_nat i) with Ok y => y | _ => 0 end).
    assert (Hg : forall i, (i < n)%nat -> fg_pow pr z (Z.of_nat i) = Ok (g i) /\ zeq gp (g i) (z ^ Z.of_nat i)).
    { intros i Hi. destruct (fg_pow_ok pr z (Z.of_nat i) (fg_canon_word z Cz)) as (y & Ey & _ & Q); [unfold T64; lia|]. unfold g. rewrite Ey. auto. }
    exists (map g (seq 0 n)). split; [apply mapM_ok; intros i Hi; apply in_seq in Hi; apply Hg; lia|]. split; [now rewrite map_length, seq_length|].
    intros i Hi. rewrite (nth_indep _ 0 (g 0%nat)) by (now rewrite map_length, seq_length). rewrite map_nth, seq_nth by exact Hi. cbn [Nat.add]. now apply Hg. }
  destruct (G w Cw) as (tw & -> & Tw). destruct (G v Cv) as (tv & -> & Tv). cbn [bind]. rewrite <- En.
  destruct (fg_new_ok pr (Z.of_nat n)) as (m & Em & Om & Qm & Cm); [unfold T64; lia|]. rewrite Em. cbn [bind]. 
  destruct (fg_inverse_ok pr m (fg_ok_word m Om)) as (ni & Ei & Ci & Hi & _). rewrite Ei. cbn [bind].
  eexists. exists w, v. split; [reflexivity|]. cbn [ntt_twiddle ntt_inv_twiddle ntt_n_inv]. split; [exact Tw|]. split; [exact Tv|]. split; [exact Hv|].
  split; [intros e He; rewrite En; apply (fg_root_order pr (Z.of_nat lg)); try assumption; lia|]. split; [|reflexivity].
  rewrite <- Qm. apply Hi. intros D. assert (D2 : (gp | Z.of_nat n)). { apply Z.mod_divide in D; [|rewrite gp_eq; lia]. apply Z.mod_divide; [rewrite gp_eq; lia|]. rewrite <- D. symmetry. exact Qm. }
  apply Z.divide_pos_le in D2; [rewrite gp_eq in D2|]; lia.
Qed.
