(** Evaluating the error bounds of SpecFft.v and SpecFftGlwe.v on concrete parameters: the same formulas in fixed point with 128 fractional
    bits, rounded up. *)
From Coq Require Import Reals ZArith Lia Lra.
From Verif Require Import Fft SpecFft SpecFftGlwe.
Open Scope Z_scope.

Definition one : Z := 2 ^ 128.
Definition fmul (a b : Z) : Z := a * b / one + 1.

(** [x] is nonnegative and at most the fixed-point number [a]. *)
Definition ub (x : R) (a : Z) : Prop := (0 <= x /\ x * IZR one <= IZR a)%R.
Lemma one_pos : (0 < IZR one)%R.
Proof. apply IZR_lt. reflexivity. Qed.
Lemma ub_pos x a : ub x a -> (0 <= IZR a)%R.
Proof. intros [H1 H2]. pose proof one_pos. eapply Rle_trans; [|exact H2]. apply Rmult_le_pos; lra. Qed.
Lemma ub_add x a y b : ub x a -> ub y b -> ub (x + y) (a + b).
Proof. intros [X1 X2] [Y1 Y2]. split; [lra|]. rewrite plus_IZR. lra. Qed.
Lemma div_up a d : 0 < d -> (IZR a <= IZR d * IZR (a / d + 1))%R.
Proof. intros H. rewrite <- mult_IZR. apply IZR_le. pose proof (Z.div_mod a d ltac:(lia)). pose proof (Z.mod_pos_bound a d H). nia. Qed.
Lemma ub_mul x a y b : ub x a -> ub y b -> ub (x * y) (fmul a b).
Proof.
  intros Hx Hy. pose proof (ub_pos x a Hx) as Pa. pose proof (ub_pos y b Hy) as Pb. destruct Hx as [X1 X2], Hy as [Y1 Y2]. pose proof one_pos as P.
  split; [now apply Rmult_le_pos|]. unfold fmul. pose proof (div_up (a * b) one ltac:(reflexivity)) as D. rewrite mult_IZR in D.
  apply (Rmult_le_reg_l (IZR one)); [exact P|]. eapply Rle_trans; [|exact D].
  replace (IZR one * (x * y * IZR one))%R with ((x * IZR one) * (y * IZR one))%R by ring. apply Rmult_le_compat; try assumption; apply Rmult_le_pos; lra.
Qed.
Lemma ub_cmul c x a : 0 <= c -> ub x a -> ub (IZR c * x) (c * a).
Proof.
  intros Hc [X1 X2]. apply IZR_le in Hc. split; [now apply Rmult_le_pos|]. rewrite mult_IZR, Rmult_assoc. now apply Rmult_le_compat_l.
Qed.
Lemma ub_nmul n x a : ub x a -> ub (INR (Pos.to_nat n) * x) (Zpos n * a).
Proof. intros H. rewrite INR_IZR_INZ. replace (Z.of_nat (Pos.to_nat n)) with (Zpos n) by lia. apply ub_cmul; [lia|exact H]. Qed.
Lemma ub_div x a d : 0 < d -> ub x a -> ub (x / IZR d) (a / d + 1).
Proof.
  intros Hd [X1 X2]. pose proof (div_up a d Hd) as D. apply IZR_lt in Hd. split; [apply Rmult_le_pos; [exact X1|left; apply Rinv_0_lt_compat, Hd]|].
  apply (Rmult_le_reg_l (IZR d)); [exact Hd|]. replace (IZR d * (x / IZR d * IZR one))%R with (x * IZR one)%R by (field; lra). lra.
Qed.
Lemma ub_ndiv x a n : ub x a -> ub (x / INR (Pos.to_nat n)) (a / Zpos n + 1).
Proof. intros H. rewrite INR_IZR_INZ. replace (Z.of_nat (Pos.to_nat n)) with (Zpos n) by lia. apply ub_div; [lia|exact H]. Qed.
Lemma ub_const c : 0 <= c -> ub (IZR c) (c * one).
Proof. intros H. split; [now apply IZR_le|]. rewrite mult_IZR. lra. Qed.
Lemma ub_pow k : ub (powerRZ 2 (Zneg k)) (one / 2 ^ Zpos k + 1).
Proof.
  assert (E : powerRZ 2 (Zneg k) = (1 / IZR (2 ^ Zpos k))%R).
  { cbn [powerRZ]. unfold Rdiv. rewrite Rmult_1_l. f_equal. rewrite pow_IZR. f_equal. f_equal. lia. }
  rewrite E. replace one with (1 * one) at 1 by ring. apply ub_div; [apply Z.pow_pos_nonneg; lia|]. apply (ub_const 1). lia.
Qed.

Section Fixed.
Context (n : positive) (u eta tau delta : Z).
Definition ztwist (A : Z) : Z :=
  fmul (9 * u) (fmul ((9 * A) / 4 + 1 + 2 * eta) (1 * one + tau)) + 7 * eta + fmul ((9 * A) / 4 + 1 + 2 * eta) tau + 2 * (fmul u A + eta).
Definition zfwd (A : Z) : Z := Zpos n * (fmul delta (2 * A + ztwist A) + ztwist A).
Definition zfreq (A : Z) : Z := 2 * Zpos n * A.
Definition zmad (ea sa eb sb e s : Z) : Z :=
  e + (fmul (sa + ea) eb + fmul ea sb) + (fmul (14 * u) (s + e + fmul (sa + ea) (sb + eb)) + 11 * eta).
Fixpoint zmads (ea sa eb sb : Z) (L : nat) (e s : Z) : Z :=
  match L with O => e | S L => let e' := zmad ea sa eb sb e s in let s' := s + fmul sa sb in zmads ea sa eb sb L e' s' end.
Definition zinv (e s : Z) : Z := Zpos n * (fmul delta (s + e) + e).
Definition zscale (e s : Z) : Z :=
  let M := Zpos n * s + zinv e s in
  fmul (2 * u) (fmul M ((9 * one / 8 + 1) / Zpos n + 1 + eta)) + 2 * eta + fmul M (u / Zpos n + 1 + eta) + (zinv e s / Zpos n + 1).
Definition zuntwist (e s : Z) : Z :=
  let c := zscale e s in fmul (9 * u) (fmul (s + c) (1 * one + tau)) + 7 * eta + fmul (s + c) tau + c.

Context (U H T De : R) (Hu : ub U u) (Hh : ub H eta) (Ht : ub T tau) (Hd : ub De delta).
Open Scope R_scope.
Notation nn := (Pos.to_nat n).
Ltac step := first [assumption | apply ub_add | match goal with |- ub (INR _ * _) _ => apply ub_nmul | |- ub (IZR _ * _) _ => apply ub_cmul; [lia|] | |- ub (_ * _) _ => apply ub_mul
  | |- ub (_ / INR _) _ => apply ub_ndiv | |- ub (_ / IZR _) _ => apply ub_div; [lia|] | |- ub (IZR _) _ => apply ub_const; lia end].
Lemma ub_94 A a : ub A a -> ub (9 / 4 * A) (9 * a / 4 + 1).
Proof. intros HA. replace (9 / 4 * A) with (9 * A / 4) by field. repeat step. Qed.
Lemma u_twist A a : ub A a -> ub (twist_err U H T A) (ztwist a).
Proof using Hu Hh Ht. intros HA. pose proof (ub_94 A a HA). unfold twist_err, ztwist. repeat step. Qed.
Lemma u_fwd A a : ub A a -> ub (fwd_err nn U H T De A) (zfwd a).
Proof using Hu Hh Ht Hd. intros HA. pose proof (u_twist A a HA). unfold fwd_err, zfwd. repeat step. Qed.
Lemma u_freq A a : ub A a -> ub (freq nn A) (zfreq a).
Proof. intros HA. unfold freq, zfreq. rewrite Rmult_assoc, <- Z.mul_assoc. repeat step. Qed.
Lemma u_mad ea a sa b eb c sb d e x s y : ub ea a -> ub sa b -> ub eb c -> ub sb d -> ub e x -> ub s y ->
  ub (mad_gen_err U H ea sa eb sb e s) (zmad a b c d x y).
Proof using Hu Hh. intros. unfold mad_gen_err, zmad. repeat step. Qed.
Lemma u_mads ea a sa b eb c sb d : ub ea a -> ub sa b -> ub eb c -> ub sb d -> forall L e x s y, ub e x -> ub s y ->
  ub (mads_err U H ea sa eb sb L e s) (zmads a b c d L x y).
Proof using Hu Hh.
  intros H1 H2 H3 H4. induction L as [|L IH]; intros e x s y H5 H6; [exact H5|]. cbn [mads_err zmads]. apply IH; [now apply u_mad|repeat step].
Qed.
Lemma u_inv e x s y : ub e x -> ub s y -> ub (inv_err nn De e s) (zinv x y).
Proof using Hd. intros. unfold inv_err, zinv. repeat step. Qed.
Lemma ub_98 : ub (9 / 8 / INR nn) ((9 * one / 8 + 1) / Zpos n + 1).
Proof. apply ub_ndiv. apply ub_div; [lia|]. apply ub_const. lia. Qed.
Lemma u_scale e x s y : ub e x -> ub s y -> ub (scale_err nn U H De e s) (zscale x y).
Proof using Hu Hh Hd. intros H1 H2. pose proof (u_inv e x s y H1 H2). pose proof ub_98. unfold scale_err, zscale. cbv zeta. repeat step. Qed.
Lemma u_untwist e x s y : ub e x -> ub s y -> ub (untwist_err nn U H T De e s) (zuntwist x y).
Proof using Hu Hh Ht Hd. intros H1 H2. pose proof (u_scale e x s y H1 H2). unfold untwist_err, zuntwist. cbv zeta. repeat step. Qed.
End Fixed.

(** A product of [L] pairs, one side known up to [e] and of size [s], the other a transform of coefficients up to [B]. *)
Definition zprod (n : positive) (u eta tau delta e s B : Z) (L : nat) : Z :=
  zuntwist n u eta tau delta (zmads u eta e s (zfwd n u eta tau delta B) (zfreq n B) L 0 0) (Z.of_nat L * fmul s (zfreq n B)).
Definition zerr (n : positive) (u eta tau delta A B : Z) (L : nat) : Z :=
  zprod n u eta tau delta (zfwd n u eta tau delta A) (zfreq n A) B L.
Lemma u_prod n u eta tau delta U H T De e x s y B b L : ub U u -> ub H eta -> ub T tau -> ub De delta -> ub e x -> ub s y -> ub B b ->
  ub (untwist_err (Pos.to_nat n) U H T De (mads_err U H e s (fwd_err (Pos.to_nat n) U H T De B) (freq (Pos.to_nat n) B) L 0 0) (INR L * (s * freq (Pos.to_nat n) B)))
    (zprod n u eta tau delta x y b L).
Proof.
  intros HU HH HT HD He Hs HB. unfold zprod. assert (Z0 : ub 0 0) by (apply (ub_const 0); lia).
  pose proof (u_fwd n u eta tau delta U H T De HU HH HT HD B b HB). pose proof (u_freq n B b HB).
  apply u_untwist; try assumption.
  - now apply u_mads.
  - rewrite INR_IZR_INZ. apply ub_cmul; [lia|]. now apply ub_mul.
Qed.
Lemma acc_mads n u eta tau delta A B L : forall e s, acc_err n u eta tau delta A B L e s = mads_err u eta (fwd_err n u eta tau delta A) (freq n A) (fwd_err n u eta tau delta B) (freq n B) L e s.
Proof. induction L as [|L IH]; intros e s; [reflexivity|]. cbn [acc_err mads_err]. now rewrite IH. Qed.
Lemma u_err n u eta tau delta U H T De A a B b L : ub U u -> ub H eta -> ub T tau -> ub De delta -> ub A a -> ub B b ->
  ub (fft_err (Pos.to_nat n) U H T De A B L) (zerr n u eta tau delta a b L).
Proof.
  intros HU HH HT HD HA HB. unfold fft_err, zerr. rewrite acc_mads. apply u_prod; try assumption; [now apply u_fwd|now apply u_freq].
Qed.

(** Double precision: u = 2^-53, eta = 2^-1075, twiddle error 2^-47. *)
Definition zu : Z := Eval vm_compute in one / 2 ^ 53 + 1.
Definition zeta : Z := Eval vm_compute in one / 2 ^ 1075 + 1.
Definition ztau : Z := Eval vm_compute in one / 2 ^ 47 + 1.
Lemma zu_ok : ub (powerRZ 2 (-53)) zu. Proof. exact (ub_pow 53). Qed.
Lemma zeta_ok : ub (powerRZ 2 (-1075)) zeta. Proof. exact (ub_pow 1075). Qed.
Lemma ztau_ok : ub (powerRZ 2 (-47)) ztau. Proof. exact (ub_pow 47). Qed.
Lemma ub_elim x a D : ub x a -> 2 * a + 3 * one <= 2 * D * one -> (x + 3 / 2 <= IZR D)%R.
Proof.
  intros [X1 X2] Hq. apply IZR_le in Hq. rewrite plus_IZR, !mult_IZR in Hq. pose proof one_pos as P.
  apply (Rmult_le_reg_r (IZR one)); [exact P|]. lra.
Qed.
Lemma bound_eval n De dl A B L D : ub De dl -> 0 <= A -> 0 <= B -> 2 * zerr n zu zeta ztau dl (A * one) (B * one) L + 3 * one <= 2 * D * one ->
  (SpecFft.fft_err (Pos.to_nat n) (powerRZ 2 (-53)) (powerRZ 2 (-1075)) (powerRZ 2 (-47)) De (IZR A) (IZR B) L + 3 / 2 <= IZR D)%R.
Proof.
  intros Hd HA HB. apply ub_elim. apply u_err; try apply zu_ok; try apply zeta_ok; try apply ztau_ok; try assumption; now apply ub_const.
Qed.
