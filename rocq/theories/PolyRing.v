(** The ring Z_q[X]/(X^N + 1), as mathematics: nothing here models code.

    A polynomial is its coefficient function [nat -> Z]; only the coefficients below N matter and they
    matter modulo q. The ring laws are proved once here and used by the TFHE proofs. *)
From Coq Require Import ZArith List Lia Arith Setoid Morphisms Ring Bool.
Import ListNotations.
Open Scope Z_scope.

(** ** Finite sums *)
Fixpoint zsum (n : nat) (f : nat -> Z) : Z :=
  match n with O => 0 | S n => zsum n f + f n end.

Lemma zsum_ext n f g : (forall i, (i < n)%nat -> f i = g i) -> zsum n f = zsum n g.
Proof.
  induction n as [|n IH]; intros H; [reflexivity|].
  cbn [zsum]. rewrite IH, H by (try intros; auto with arith). reflexivity.
Qed.

Lemma zsum_0 n f : (forall i, (i < n)%nat -> f i = 0) -> zsum n f = 0.
Proof.
  induction n as [|n IH]; intros H; [reflexivity|].
  cbn [zsum]. rewrite IH, H by (try intros; auto with arith). reflexivity.
Qed.

Lemma zsum_add n f g : zsum n (fun i => f i + g i) = zsum n f + zsum n g.
Proof. induction n as [|n IH]; cbn [zsum]; lia. Qed.

Lemma zsum_sub n f g : zsum n (fun i => f i - g i) = zsum n f - zsum n g.
Proof. induction n as [|n IH]; cbn [zsum]; lia. Qed.

Lemma zsum_opp n f : zsum n (fun i => - f i) = - zsum n f.
Proof. induction n as [|n IH]; cbn [zsum]; lia. Qed.

Lemma zsum_mull n c f : zsum n (fun i => c * f i) = c * zsum n f.
Proof. induction n as [|n IH]; cbn [zsum]; [lia|]. rewrite IH. ring. Qed.

Lemma zsum_mulr n c f : zsum n (fun i => f i * c) = zsum n f * c.
Proof. induction n as [|n IH]; cbn [zsum]; [lia|]. rewrite IH. ring. Qed.

Lemma zsum_S_l n f : zsum (S n) f = f O + zsum n (fun i => f (S i)).
Proof. induction n as [|n IH]; [cbn [zsum]; lia|]. cbn [zsum] in *. lia. Qed.

Lemma zsum_app n m f : zsum (n + m) f = zsum n f + zsum m (fun i => f (n + i)%nat).
Proof.
  induction m as [|m IH]; [rewrite Nat.add_0_r; cbn [zsum]; lia|].
  rewrite Nat.add_succ_r. cbn [zsum]. rewrite IH. lia.
Qed.

Lemma zsum_swap n m (f : nat -> nat -> Z) :
  zsum n (fun i => zsum m (fun j => f i j)) = zsum m (fun j => zsum n (fun i => f i j)).
Proof.
  induction n as [|n IH]; cbn [zsum].
  - symmetry. apply zsum_0. reflexivity.
  - rewrite IH, <- zsum_add. reflexivity.
Qed.

Lemma zsum_single n k f :
  (k < n)%nat -> (forall i, (i < n)%nat -> i <> k -> f i = 0) -> zsum n f = f k.
Proof.
  induction n as [|n IH]; intros Hk H; [lia|].
  cbn [zsum]. destruct (Nat.eq_dec k n) as [->|Hne].
  - rewrite zsum_0; [lia|]. intros i Hi. apply H; lia.
  - rewrite IH, (H n); try lia. intros i Hi Hne'. apply H; lia.
Qed.

Lemma zsum_mod n f g q :
  (forall i, (i < n)%nat -> f i mod q = g i mod q) -> zsum n f mod q = zsum n g mod q.
Proof.
  induction n as [|n IH]; intros H; [reflexivity|].
  cbn [zsum]. rewrite Zplus_mod, IH, H, <- Zplus_mod by (try intros; auto with arith). reflexivity.
Qed.

Lemma zsum_abs n f : Z.abs (zsum n f) <= zsum n (fun i => Z.abs (f i)).
Proof. induction n as [|n IH]; cbn [zsum]; lia. Qed.

Lemma zsum_le n f g : (forall i, (i < n)%nat -> f i <= g i) -> zsum n f <= zsum n g.
Proof.
  induction n as [|n IH]; intros H; cbn [zsum]; [lia|].
  specialize (IH (fun i Hi => H i (Nat.lt_lt_succ_r _ _ Hi))). specialize (H n (Nat.lt_succ_diag_r n)). lia.
Qed.

Lemma zsum_const n c : zsum n (fun _ => c) = Z.of_nat n * c.
Proof. induction n as [|n IH]; cbn [zsum]; [lia|]. rewrite IH. lia. Qed.

Lemma zsum_rev n f : zsum n f = zsum n (fun i => f (n - 1 - i)%nat).
Proof.
  induction n as [|n IH]; [reflexivity|].
  rewrite (zsum_S_l n (fun i => f (S n - 1 - i)%nat)). cbn [zsum]. rewrite IH.
  replace (S n - 1 - 0)%nat with n by lia. rewrite Z.add_comm. f_equal.
  apply zsum_ext. intros i Hi. f_equal. lia.
Qed.

(** ** Congruence modulo q *)
Definition zeq (q a b : Z) : Prop := a mod q = b mod q.

Global Instance zeq_equiv q : Equivalence (zeq q).
Proof. split; red; unfold zeq; intros; congruence. Qed.

Global Instance zeq_add q : Proper (zeq q ==> zeq q ==> zeq q) Z.add.
Proof. intros a a' Ha b b' Hb. unfold zeq in *. rewrite Zplus_mod, Ha, Hb, <- Zplus_mod. reflexivity. Qed.

Global Instance zeq_sub q : Proper (zeq q ==> zeq q ==> zeq q) Z.sub.
Proof. intros a a' Ha b b' Hb. unfold zeq in *. rewrite Zminus_mod, Ha, Hb, <- Zminus_mod. reflexivity. Qed.

Global Instance zeq_mul q : Proper (zeq q ==> zeq q ==> zeq q) Z.mul.
Proof. intros a a' Ha b b' Hb. unfold zeq in *. rewrite Zmult_mod, Ha, Hb, <- Zmult_mod. reflexivity. Qed.

Global Instance zeq_opp q : Proper (zeq q ==> zeq q) Z.opp.
Proof.
  intros a a' Ha. replace (-a) with (0 - a) by lia. replace (-a') with (0 - a') by lia.
  rewrite Ha. reflexivity.
Qed.

Lemma zeq_mod q a : zeq q (a mod q) a.
Proof. apply Zmod_mod. Qed.

Lemma zeq_refl' q a b : a = b -> zeq q a b.
Proof. intros ->. reflexivity. Qed.

Lemma zeq_iff q a b : q <> 0 -> zeq q a b <-> exists k, a = b + k * q.
Proof.
  intros Hq. unfold zeq. split.
  - intros H. exists (a / q - b / q). rewrite (Z.div_mod a q), (Z.div_mod b q) at 1 by assumption.
    rewrite H. ring.
  - intros [k ->]. apply Z_mod_plus_full.
Qed.

Lemma zeq_multiple q a k : a = k * q -> zeq q a 0.
Proof. intros ->. unfold zeq. rewrite Z_mod_mult, Zmod_0_l. reflexivity. Qed.

Lemma zeq_small q a b : 0 <= a < q -> 0 <= b < q -> zeq q a b -> a = b.
Proof. intros Ha Hb H. unfold zeq in H. rewrite !Z.mod_small in H by assumption. exact H. Qed.

Lemma zsum_zeq q n f g : (forall i, (i < n)%nat -> zeq q (f i) (g i)) -> zeq q (zsum n f) (zsum n g).
Proof. apply zsum_mod. Qed.

(** ** The ring *)
Definition poly := nat -> Z.

Section Ring.
Variable N : nat.
Variable q : Z.

Definition peq (f g : poly) : Prop := forall k, (k < N)%nat -> zeq q (f k) (g k).
Definition p0 : poly := fun _ => 0.
Definition p1 : poly := fun k => if (k =? 0)%nat then 1 else 0.
Definition padd (f g : poly) : poly := fun k => f k + g k.
Definition psub (f g : poly) : poly := fun k => f k - g k.
Definition popp (f : poly) : poly := fun k => - f k.
Definition pscale (c : Z) (f : poly) : poly := fun k => c * f k.
Definition psum (n : nat) (F : nat -> poly) : poly := fun k => zsum n (fun i => F i k).

(** Multiplication by X. *)
Definition px (f : poly) : poly := fun k => match k with O => - f (N - 1)%nat | S k => f k end.
(** Multiplication by X^i. *)
Fixpoint pxn (i : nat) (f : poly) : poly := match i with O => f | S i => px (pxn i f) end.
Definition pmul (f g : poly) : poly := psum N (fun i => pscale (f i) (pxn i g)).

Lemma peq_refl f : peq f f. Proof. intros k Hk. reflexivity. Qed.
Lemma peq_sym f g : peq f g -> peq g f. Proof. intros H k Hk. symmetry. auto. Qed.
Lemma peq_trans f g h : peq f g -> peq g h -> peq f h.
Proof. intros H H' k Hk. transitivity (g k); auto. Qed.

Global Instance peq_equiv : Equivalence peq.
Proof. split; red; [apply peq_refl|apply peq_sym|apply peq_trans]. Qed.

Global Instance padd_mor : Proper (peq ==> peq ==> peq) padd.
Proof. intros f f' Hf g g' Hg k Hk. unfold padd. apply zeq_add; auto. Qed.
Global Instance psub_mor : Proper (peq ==> peq ==> peq) psub.
Proof. intros f f' Hf g g' Hg k Hk. unfold psub. apply zeq_sub; auto. Qed.
Global Instance popp_mor : Proper (peq ==> peq) popp.
Proof. intros f f' Hf k Hk. unfold popp. apply zeq_opp; auto. Qed.
Global Instance pscale_mor : Proper (zeq q ==> peq ==> peq) pscale.
Proof. intros c c' Hc f f' Hf k Hk. unfold pscale. apply zeq_mul; auto. Qed.
Global Instance px_mor : Proper (peq ==> peq) px.
Proof.
  intros f f' Hf k Hk. unfold px. destruct k as [|k].
  - apply zeq_opp. apply Hf. lia.
  - apply Hf. lia.
Qed.
Global Instance pxn_mor i : Proper (peq ==> peq) (pxn i).
Proof. induction i as [|i IH]; intros f f' Hf; [exact Hf|]. cbn [pxn]. apply px_mor, IH, Hf. Qed.

Lemma psum_mor n F G : (forall i, (i < n)%nat -> peq (F i) (G i)) -> peq (psum n F) (psum n G).
Proof. intros H k Hk. apply zsum_zeq. intros i Hi. apply H; assumption. Qed.

Global Instance pmul_mor : Proper (peq ==> peq ==> peq) pmul.
Proof.
  intros f f' Hf g g' Hg. apply psum_mor. intros i Hi. apply pscale_mor; [apply Hf, Hi|].
  apply pxn_mor, Hg.
Qed.

(** Pointwise identities hold exactly, hence modulo q. *)
Lemma peq_exact f g : (forall k, (k < N)%nat -> f k = g k) -> peq f g.
Proof. intros H k Hk. rewrite H by assumption. reflexivity. Qed.

Lemma px_add f g : peq (px (padd f g)) (padd (px f) (px g)).
Proof. apply peq_exact. intros [|k] _; unfold px, padd; lia. Qed.
Lemma px_scale c f : peq (px (pscale c f)) (pscale c (px f)).
Proof. apply peq_exact. intros [|k] _; unfold px, pscale; lia. Qed.
Lemma px_sum n F : peq (px (psum n F)) (psum n (fun i => px (F i))).
Proof.
  apply peq_exact. intros [|k] _; unfold px, psum; [|reflexivity]. rewrite zsum_opp. reflexivity.
Qed.
Lemma pxn_add i f g : peq (pxn i (padd f g)) (padd (pxn i f) (pxn i g)).
Proof. induction i as [|i IH]; [reflexivity|]. cbn [pxn]. rewrite IH. apply px_add. Qed.
Lemma pxn_scale i c f : peq (pxn i (pscale c f)) (pscale c (pxn i f)).
Proof. induction i as [|i IH]; [reflexivity|]. cbn [pxn]. rewrite IH. apply px_scale. Qed.
Lemma pxn_sum i n F : peq (pxn i (psum n F)) (psum n (fun j => pxn i (F j))).
Proof.
  induction i as [|i IH]; [reflexivity|]. cbn [pxn]. rewrite IH, px_sum. reflexivity.
Qed.
Lemma pxn_plus i j f : peq (pxn (i + j) f) (pxn i (pxn j f)).
Proof. induction i as [|i IH]; [reflexivity|]. cbn [pxn Nat.add]. rewrite IH. reflexivity. Qed.

Lemma pscale_add c f g : peq (pscale c (padd f g)) (padd (pscale c f) (pscale c g)).
Proof. apply peq_exact. intros k _. unfold pscale, padd. ring. Qed.
Lemma pscale_pscale c d f : peq (pscale c (pscale d f)) (pscale (c * d) f).
Proof. apply peq_exact. intros k _. unfold pscale. ring. Qed.
Lemma pscale_addl c d f : peq (pscale (c + d) f) (padd (pscale c f) (pscale d f)).
Proof. apply peq_exact. intros k _. unfold pscale, padd. ring. Qed.
Lemma pscale_sum c n F : peq (pscale c (psum n F)) (psum n (fun i => pscale c (F i))).
Proof. apply peq_exact. intros k _. unfold pscale, psum. rewrite zsum_mull. reflexivity. Qed.
Lemma psum_add n F G : peq (psum n (fun i => padd (F i) (G i))) (padd (psum n F) (psum n G)).
Proof. apply peq_exact. intros k _. unfold psum, padd. apply zsum_add. Qed.
Lemma psum_swap n m (F : nat -> nat -> poly) :
  peq (psum n (fun i => psum m (F i))) (psum m (fun j => psum n (fun i => F i j))).
Proof. apply peq_exact. intros k _. unfold psum. apply (zsum_swap n m (fun i j => F i j k)). Qed.

(** The closed form of X^i for i <= N. *)
Lemma pxn_closed i f k :
  (i <= N)%nat -> (k < N)%nat ->
  pxn i f k = if (k <? i)%nat then - f (N + k - i)%nat else f (k - i)%nat.
Proof.
  revert k. induction i as [|i IH]; intros k Hi Hk.
  - cbn [pxn]. replace (k - 0)%nat with k by lia. reflexivity.
  - cbn [pxn]. destruct k as [|k]; cbn [px].
    + rewrite IH by lia. replace (0 <? S i)%nat with true by reflexivity.
      destruct (N - 1 <? i)%nat eqn:E; [apply Nat.ltb_lt in E; lia|].
      f_equal. f_equal. lia.
    + rewrite IH by lia. destruct (k <? i)%nat eqn:E, (S k <? S i)%nat eqn:E';
        rewrite ?Nat.ltb_lt, ?Nat.ltb_ge in *; try lia; [f_equal|]; f_equal; lia.
Qed.

Lemma pxn_N f : peq (pxn N f) (popp f).
Proof.
  apply peq_exact. intros k Hk. rewrite pxn_closed by lia.
  apply Nat.ltb_lt in Hk. rewrite Hk. unfold popp. f_equal. f_equal. lia.
Qed.

Lemma pxn_one i : (i < N)%nat -> peq (pxn i p1) (fun k => if (k =? i)%nat then 1 else 0).
Proof.
  intros Hi. apply peq_exact. intros k Hk. rewrite pxn_closed by lia. unfold p1.
  destruct (k <? i)%nat eqn:E; rewrite ?Nat.ltb_lt, ?Nat.ltb_ge in *.
  - destruct (N + k - i =? 0)%nat eqn:E1, (k =? i)%nat eqn:E2;
      rewrite ?Nat.eqb_eq, ?Nat.eqb_neq in *; lia.
  - destruct (k - i =? 0)%nat eqn:E1, (k =? i)%nat eqn:E2;
      rewrite ?Nat.eqb_eq, ?Nat.eqb_neq in *; lia.
Qed.

(** Every polynomial is the sum of its monomials. *)
Lemma monomials f : peq f (psum N (fun j => pscale (f j) (pxn j p1))).
Proof.
  intros k Hk. unfold psum.
  transitivity (zsum N (fun j => f j * (if (k =? j)%nat then 1 else 0))).
  - apply zeq_refl'. rewrite (zsum_single N k); [rewrite Nat.eqb_refl; ring|assumption|].
    intros j Hj Hne. destruct (Nat.eqb_spec k j); [congruence|ring].
  - apply zsum_zeq. intros j Hj. unfold pscale. apply zeq_mul; [reflexivity|].
    symmetry. apply (pxn_one j Hj k Hk).
Qed.

Lemma pmul_add_l f f' g : peq (pmul (padd f f') g) (padd (pmul f g) (pmul f' g)).
Proof.
  unfold pmul. rewrite <- psum_add. apply psum_mor. intros i Hi. apply pscale_addl.
Qed.
Lemma pmul_add_r f g g' : peq (pmul f (padd g g')) (padd (pmul f g) (pmul f g')).
Proof.
  unfold pmul. rewrite <- psum_add. apply psum_mor. intros i Hi. rewrite pxn_add. apply pscale_add.
Qed.
Lemma pmul_scale_l c f g : peq (pmul (pscale c f) g) (pscale c (pmul f g)).
Proof.
  unfold pmul. rewrite pscale_sum. apply psum_mor. intros i Hi. rewrite pscale_pscale. reflexivity.
Qed.
Lemma pmul_scale_r c f g : peq (pmul f (pscale c g)) (pscale c (pmul f g)).
Proof.
  unfold pmul. rewrite pscale_sum. apply psum_mor. intros i Hi.
  rewrite pxn_scale, !pscale_pscale. rewrite Z.mul_comm. reflexivity.
Qed.
Lemma pmul_sum_l n F g : peq (pmul (psum n F) g) (psum n (fun i => pmul (F i) g)).
Proof.
  unfold pmul. rewrite (psum_swap n N). apply psum_mor. intros i Hi.
  apply peq_exact. intros k _. unfold pscale, psum. rewrite zsum_mulr. reflexivity.
Qed.

Lemma zsum_pred_l n f : n <> O -> zsum n f = f O + zsum (n - 1) (fun i => f (S i)).
Proof.
  intros Hn. destruct n as [|n]; [congruence|]. rewrite zsum_S_l.
  replace (S n - 1)%nat with n by lia. reflexivity.
Qed.
Lemma zsum_pred_r n f : n <> O -> zsum n f = zsum (n - 1) f + f (n - 1)%nat.
Proof.
  intros Hn. destruct n as [|n]; [congruence|].
  replace (S n - 1)%nat with n by lia. reflexivity.
Qed.

Lemma pmul_px_l f g : peq (pmul (px f) g) (px (pmul f g)).
Proof.
  destruct (Nat.eq_dec N 0) as [E|Hn]; [intros k Hk; lia|].
  unfold pmul. rewrite px_sum.
  transitivity (psum N (fun i => pscale (f i) (pxn (S i) g))).
  - intros k Hk. unfold psum. rewrite (zsum_pred_l N _ Hn), (zsum_pred_r N _ Hn), Z.add_comm.
    apply zeq_add; [reflexivity|].
    replace (S (N - 1)) with N by lia. unfold pscale. cbn [px pxn].
    transitivity (f (N - 1)%nat * - g k); [apply zeq_refl'; ring|].
    apply zeq_mul; [reflexivity|]. symmetry. apply (pxn_N g k Hk).
  - apply psum_mor. intros i Hi. cbn [pxn]. symmetry. apply px_scale.
Qed.

Lemma pmul_pxn_l i f g : peq (pmul (pxn i f) g) (pxn i (pmul f g)).
Proof. induction i as [|i IH]; [reflexivity|]. cbn [pxn]. rewrite pmul_px_l, IH. reflexivity. Qed.

Lemma pmul_assoc f g h : peq (pmul f (pmul g h)) (pmul (pmul f g) h).
Proof.
  unfold pmul at 4. rewrite pmul_sum_l. unfold pmul at 1. apply psum_mor. intros i Hi.
  rewrite pmul_scale_l, pmul_pxn_l. reflexivity.
Qed.

Lemma pmul_1_l g : peq (pmul p1 g) g.
Proof.
  intros k Hk. unfold pmul, psum.
  rewrite (zsum_single N 0).
  - unfold pscale, p1. cbn [Nat.eqb pxn]. apply zeq_refl'. ring.
  - lia.
  - intros i Hi Hne. unfold pscale, p1. destruct i; [congruence|]. cbn [Nat.eqb]. ring.
Qed.

Lemma pmul_as_monomials f g :
  peq (pmul f g) (psum N (fun i => psum N (fun j => pscale (f i * g j) (pxn (i + j) p1)))).
Proof.
  unfold pmul. apply psum_mor. intros i Hi.
  rewrite (monomials g) at 1. rewrite pxn_sum, pscale_sum. apply psum_mor. intros j Hj.
  rewrite pxn_scale, pscale_pscale, pxn_plus. reflexivity.
Qed.

Lemma pmul_comm f g : peq (pmul f g) (pmul g f).
Proof.
  rewrite !pmul_as_monomials, psum_swap. apply psum_mor. intros i Hi. apply psum_mor. intros j Hj.
  rewrite Z.mul_comm, Nat.add_comm. reflexivity.
Qed.

Lemma pmul_px_r f g : peq (pmul f (px g)) (px (pmul f g)).
Proof. rewrite pmul_comm, pmul_px_l, pmul_comm. reflexivity. Qed.
Lemma pmul_pxn_r i f g : peq (pmul f (pxn i g)) (pxn i (pmul f g)).
Proof. rewrite pmul_comm, pmul_pxn_l, pmul_comm. reflexivity. Qed.

Lemma pxn_as_mul i f : peq (pxn i f) (pmul (pxn i p1) f).
Proof. rewrite pmul_pxn_l, pmul_1_l. reflexivity. Qed.

Lemma poly_ring : ring_theory p0 p1 padd pmul psub popp peq.
Proof.
  constructor.
  - intros f. apply peq_exact. intros k _. unfold padd, p0. ring.
  - intros f g. apply peq_exact. intros k _. unfold padd. ring.
  - intros f g h. apply peq_exact. intros k _. unfold padd. ring.
  - apply pmul_1_l.
  - apply pmul_comm.
  - apply pmul_assoc.
  - apply pmul_add_l.
  - intros f g. apply peq_exact. intros k _. unfold psub, padd, popp. ring.
  - intros f. apply peq_exact. intros k _. unfold padd, popp, p0. ring.
Qed.

Lemma poly_ring_ext : ring_eq_ext padd pmul popp peq.
Proof.
  constructor; [exact padd_mor|exact pmul_mor|exact popp_mor].
Qed.

(** The coefficient formula: the convolution with sign wrap. *)
Definition negaconv (f g : poly) (k : nat) : Z :=
  zsum N (fun i => zsum N (fun j =>
    if (i + j =? k)%nat then f i * g j else if (i + j =? k + N)%nat then - (f i * g j) else 0)).

Lemma pmul_negaconv f g k : (k < N)%nat -> pmul f g k = negaconv f g k.
Proof.
  intros Hk. unfold pmul, psum, negaconv. apply zsum_ext. intros i Hi. unfold pscale.
  rewrite pxn_closed by lia.
  destruct (k <? i)%nat eqn:E; rewrite ?Nat.ltb_lt, ?Nat.ltb_ge in *.
  - rewrite (zsum_single N (N + k - i)); try lia.
    + destruct (Nat.eqb_spec (i + (N + k - i)) k); [lia|].
      destruct (Nat.eqb_spec (i + (N + k - i)) (k + N)); [ring|lia].
    + intros j Hj Hne. destruct (Nat.eqb_spec (i + j) k); [lia|].
      destruct (Nat.eqb_spec (i + j) (k + N)); [lia|reflexivity].
  - rewrite (zsum_single N (k - i)); try lia.
    + destruct (Nat.eqb_spec (i + (k - i)) k); [ring|lia].
    + intros j Hj Hne. destruct (Nat.eqb_spec (i + j) k); [lia|].
      destruct (Nat.eqb_spec (i + j) (k + N)); [lia|reflexivity].
Qed.

Lemma psum_0 n F : (forall i, (i < n)%nat -> peq (F i) p0) -> peq (psum n F) p0.
Proof.
  intros H k Hk. unfold psum. transitivity (zsum n (fun _ => 0)).
  - apply zsum_zeq. intros i Hi. apply H; assumption.
  - apply zeq_refl'. apply zsum_0. reflexivity.
Qed.
Lemma psum_S n F : peq (psum (S n) F) (padd (psum n F) (F n)).
Proof. reflexivity. Qed.
Lemma psum_opp n F : peq (psum n (fun i => popp (F i))) (popp (psum n F)).
Proof. apply peq_exact. intros k _. unfold psum, popp. apply zsum_opp. Qed.
Lemma psum_sub n F G : peq (psum n (fun i => psub (F i) (G i))) (psub (psum n F) (psum n G)).
Proof. apply peq_exact. intros k _. unfold psum, psub. apply zsum_sub. Qed.
Lemma pmul_sum_r n f G : peq (pmul f (psum n G)) (psum n (fun i => pmul f (G i))).
Proof.
  rewrite pmul_comm, pmul_sum_l. apply psum_mor. intros i Hi. apply pmul_comm.
Qed.
Lemma pscale_as_mul c f : peq (pscale c f) (pmul (pscale c p1) f).
Proof. rewrite pmul_scale_l, pmul_1_l. reflexivity. Qed.

End Ring.

Arguments poly_ring : clear implicits.
