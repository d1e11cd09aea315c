(** Proofs: polynomials over a commutative ring. *)
From Coq Require Import Ring ZifyBool ZifyNat.
From Verif Require Import Base Math SpecMath.
Local Open Scope nat_scope.

Section Poly.
Context {R : Type} (rO rI : R) (radd rmul rsub : R -> R -> R) (ropp : R -> R) (req : R -> R -> bool).
Context (Rth : ring_theory rO rI radd rmul rsub ropp (@eq R)) (Req : forall x y, req x y = true <-> x = y).
Add Ring Rring : Rth.
Notation rsum := (rsum rO radd). Notation rpow := (rpow rI rmul). Notation coef := (coef rO).
Notation conv := (conv rO radd rmul). Notation has_degree := (has_degree rO).
Notation poly_add := (poly_add rO radd). Notation poly_sub := (poly_sub rO rsub). Notation poly_mul := (poly_mul rO radd rmul).
Notation poly_eval := (poly_eval rO rI radd rmul). Notation poly_div_rem := (poly_div_rem rO rmul rsub req).
Notation poly_degree := (poly_degree rO req). Notation poly_is_zero := (poly_is_zero rO req).
Infix "+r" := radd (at level 50, left associativity). Infix "*r" := rmul (at level 40, left associativity). Infix "-r" := rsub (at level 50, left associativity).

Lemma rsum_ext n f g : (forall i, i < n -> f i = g i) -> rsum n f = rsum n g.
Proof. induction n as [|n IH]; intros H; cbn; [auto|]. rewrite IH, H; auto. Qed.
Lemma rsum_zero n f : (forall i, i < n -> f i = rO) -> rsum n f = rO.
Proof. induction n as [|n IH]; intros H; cbn; [auto|]. rewrite IH, H; auto. ring. Qed.
Lemma rsum_add n f g : rsum n (fun i => f i +r g i) = rsum n f +r rsum n g.
Proof. induction n as [|n IH]; cbn; [ring|]. rewrite IH. ring. Qed.
Lemma rsum_scale n c f : rsum n (fun i => f i *r c) = rsum n f *r c.
Proof. induction n as [|n IH]; cbn; [ring|]. rewrite IH. ring. Qed.
Lemma rsum_scale_l n c f : rsum n (fun i => c *r f i) = c *r rsum n f.
Proof. induction n as [|n IH]; cbn; [ring|]. rewrite IH. ring. Qed.
Lemma rsum_shift n f : rsum (S n) f = f 0 +r rsum n (fun i => f (S i)).
Proof. induction n as [|n IH]; [cbn; ring|]. change (rsum (S (S n)) f) with (rsum (S n) f +r f (S n)). rewrite IH. cbn. ring. Qed.
Lemma rsum_more n m f : n <= m -> (forall i, n <= i < m -> f i = rO) -> rsum m f = rsum n f.
Proof. induction m as [|m IH]; intros H Hz; [replace n with 0 by lia; auto|]. destruct (Nat.eq_dec n (S m)) as [->|]; [auto|]. cbn. rewrite IH by (intros; try apply Hz; lia). rewrite Hz by lia. ring. Qed.
Lemma rsum_one n k c : k < n -> rsum n (fun i => if i =? k then c i else rO) = c k.
Proof.
  induction n as [|n IH]; intros H; [lia|]. cbn. destruct (n =? k) eqn:E.
  - assert (n = k) by lia. subst. rewrite rsum_zero by (intros i Hi; replace (i =? k) with false by lia; auto). ring.
  - rewrite IH by lia. ring.
Qed.
Lemma rsum_swap n m f : rsum n (fun i => rsum m (fun j => f i j)) = rsum m (fun j => rsum n (fun i => f i j)).
Proof. induction n as [|n IH]; cbn; [symmetry; now apply rsum_zero|]. rewrite IH, <- rsum_add. reflexivity. Qed.
Lemma coef_out a i : length a <= i -> coef a i = rO.
Proof. intros H. apply nth_overflow. auto. Qed.

(** ** Linear operations *)
Lemma coef_zip f a b i : f rO rO = rO -> coef (poly_zip rO f a b) i = f (coef a i) (coef b i).
Proof.
  intros Hf. unfold poly_zip. destruct (Nat.ltb_spec i (Nat.max (length a) (length b))) as [H|H].
  - unfold SpecMath.coef at 1. erewrite nth_indep by now rewrite map_length, seq_length. rewrite map_nth with (f := fun i => f (nth i a rO) (nth i b rO)) (d := 0).
    rewrite seq_nth by auto. reflexivity.
  - rewrite coef_out by (rewrite map_length, seq_length; auto). rewrite !coef_out by lia. auto.
Qed.
Lemma coef_add a b i : coef (poly_add a b) i = coef a i +r coef b i.
Proof. apply coef_zip. ring. Qed.
Lemma coef_sub a b i : coef (poly_sub a b) i = coef a i -r coef b i.
Proof. apply coef_zip. ring. Qed.
Lemma coef_map f a i : f rO = rO -> coef (map f a) i = f (coef a i).
Proof. intros Hf. unfold SpecMath.coef. rewrite <- Hf at 1. apply map_nth. Qed.

Lemma coef_neg_scale a c i : coef (poly_neg ropp a) i = ropp (coef a i) /\ coef (poly_scale rmul a c) i = coef a i *r c.
Proof. split; [unfold poly_neg; rewrite coef_map by ring; auto|]. unfold poly_scale. rewrite (coef_map (fun x => x *r c)) by ring. auto. Qed.

(** ** Multiplication *)
Lemma upd_len i (f : R -> R) l : length (upd_nth i f l) = length l.
Proof. revert i. induction l as [|x l IH]; intros [|i]; cbn; auto. Qed.
Lemma coef_upd i (f : R -> R) l k : i < length l -> coef (upd_nth i f l) k = if k =? i then f (coef l k) else coef l k.
Proof. revert i k. induction l as [|x l IH]; intros [|i] [|k] H; cbn in *; try lia; auto. apply IH. lia. Qed.
Lemma row_fold (c : nat -> R) i m : forall out, i + m <= length out ->
  let r := fold_left (fun out j => upd_nth (i + j) (radd (c j)) out) (seq 0 m) out in
  length r = length out /\ forall k, coef r k = coef out k +r (if (i <=? k) && (k <? i + m) then c (k - i) else rO).
Proof.
  induction m as [|m IH]; intros out Hl; cbv zeta.
  - cbn [seq fold_left]. split; [auto|]. intros k. replace ((i <=? k) && (k <? i + 0)) with false by lia. ring.
  - rewrite seq_S, fold_left_app. cbn [fold_left Nat.add]. destruct (IH out ltac:(lia)) as [L C]. set (r := fold_left _ _ _) in *. rewrite upd_len. split; [auto|].
    intros k. rewrite coef_upd by lia. rewrite C. destruct (k =? i + m) eqn:E.
    + replace ((i <=? k) && (k <? i + m)) with false by lia. replace ((i <=? k) && (k <? i + S m)) with true by lia. replace (k - i) with m by lia. ring.
    + f_equal. destruct ((i <=? k) && (k <? i + m)) eqn:E1; [replace ((i <=? k) && (k <? i + S m)) with true by lia | replace ((i <=? k) && (k <? i + S m)) with false by lia]; auto.
Qed.
Lemma all_rows a b n : forall out, n <= length a -> length a + length b <= S (length out) ->
  let r := fold_left (fun out i => fold_left (fun out j => upd_nth (i + j) (radd (nth i a rO *r nth j b rO)) out) (seq 0 (length b)) out) (seq 0 n) out in
  length r = length out /\ forall k, coef r k = coef out k +r rsum n (fun i => if (i <=? k) && (k <? i + length b) then coef a i *r coef b (k - i) else rO).
Proof.
  induction n as [|n IH]; intros out Hn Hl; cbv zeta.
  - cbn [seq fold_left SpecMath.rsum]. split; [auto|]. intros k. ring.
  - rewrite seq_S, fold_left_app. cbn [fold_left Nat.add]. destruct (IH out ltac:(lia) Hl) as [L C]. match type of L with length ?x = _ => set (r := x) in * end.
    destruct (row_fold (fun j => nth n a rO *r nth j b rO) n (length b) r ltac:(lia)) as [L2 C2]. cbv zeta in L2, C2. split; [congruence|]. intros k. rewrite C2, C. cbn [SpecMath.rsum].
    unfold SpecMath.coef. cbv beta. destruct (_ && _); ring.
Qed.
Lemma coef_repeat n k : coef (repeat rO n) k = rO.
Proof. unfold SpecMath.coef. revert k. induction n as [|n IH]; intros [|k]; cbn; auto. Qed.
Lemma coef_mul a b k : coef (poly_mul a b) k = conv a b k.
Proof.
  assert (Z : a = [] \/ b = [] -> conv a b k = rO).
  { intros H. apply rsum_zero. intros i Hi. destruct H as [-> | ->]; [rewrite (coef_out []) by (cbn; lia)|rewrite (coef_out [] (k - i)) by (cbn; lia)]; ring. }
  unfold Math.poly_mul. destruct a as [|x a]; [rewrite Z by auto; destruct k; reflexivity|]. destruct b as [|y b]; [rewrite Z by auto; destruct k; reflexivity|].
  set (A := x :: a) in *. set (B := y :: b) in *. set (L := length A - 1 + (length B - 1) + 1).
  assert (LA : length A >= 1) by (subst A; cbn; lia). assert (LB : length B >= 1) by (subst B; cbn; lia).
  destruct (all_rows A B (length A) (repeat rO L)) as [_ C]; [lia|rewrite repeat_length; lia|]. cbv zeta in C. rewrite C, coef_repeat.
  unfold SpecMath.conv. rewrite <- (rsum_more (length A) (Nat.max (length A) (S k))) by (intros; try lia; rewrite (coef_out A) by lia; destruct (_ && _); ring).
  transitivity (rsum (Nat.max (length A) (S k)) (fun i => if i <=? k then coef A i *r coef B (k - i) else rO)).
  - transitivity (rO +r rsum (Nat.max (length A) (S k)) (fun i => if i <=? k then coef A i *r coef B (k - i) else rO)); [|ring]. f_equal. apply rsum_ext. intros i Hi.
    destruct (i <=? k) eqn:E; cbn [andb]; [|auto]. destruct (k <? i + length B) eqn:E2; [auto|]. rewrite (coef_out B) by lia. ring.
  - rewrite (rsum_more (S k)) by (intros; try lia; replace (i <=? k) with false by lia; auto). apply rsum_ext. intros i Hi. replace (i <=? k) with true by lia. auto.
Qed.

(** ** Evaluation *)
Lemma eval_fold x a : forall e pw n, pw = rpow x n -> fst (fold_left (fun '(e, pw) c => (e +r c *r pw, pw *r x)) a (e, pw)) = e +r rsum (length a) (fun i => coef a i *r rpow x (n + i)).
Proof.
  induction a as [|c a IH]; intros e pw n Hp; cbn [fold_left length]; [cbn; ring|].
  rewrite (IH _ _ (S n)) by (rewrite Hp; reflexivity). rewrite rsum_shift. rewrite Nat.add_0_r. cbn [SpecMath.coef nth]. unfold SpecMath.coef. cbn [nth]. rewrite Hp.
  rewrite (rsum_ext _ (fun i => nth i a rO *r rpow x (S n + i)) (fun i => nth i a rO *r rpow x (n + S i))); [ring|].
  intros i _. now rewrite Nat.add_succ_r.
Qed.
Lemma eval_value a x : poly_eval a x = value rO rI radd rmul a x.
Proof. unfold Math.poly_eval, value. rewrite (eval_fold x a rO rI 0) by reflexivity. cbn [Nat.add]. ring. Qed.
Lemma value_more a x n : length a <= n -> value rO rI radd rmul a x = rsum n (fun i => coef a i *r rpow x i).
Proof. intros H. symmetry. apply rsum_more; [auto|]. intros i Hi. rewrite coef_out by lia. ring. Qed.
Lemma value_same a b x : same_poly rO a b -> value rO rI radd rmul a x = value rO rI radd rmul b x.
Proof. intros H. rewrite (value_more a x (Nat.max (length a) (length b))), (value_more b x (Nat.max (length a) (length b))) by lia. apply rsum_ext. intros i _. now rewrite H. Qed.
Lemma eval_add a b x : poly_eval (poly_add a b) x = poly_eval a x +r poly_eval b x.
Proof.
  rewrite !eval_value. set (n := Nat.max (length (poly_add a b)) (Nat.max (length a) (length b))).
  rewrite (value_more _ x n), (value_more a x n), (value_more b x n) by lia. rewrite <- rsum_add. apply rsum_ext. intros i _. rewrite coef_add. ring.
Qed.
Lemma rpow_add x i j : rpow x (i + j) = rpow x i *r rpow x j.
Proof. induction j as [|j IH]; [rewrite Nat.add_0_r; cbn; ring|]. rewrite Nat.add_succ_r. cbn. rewrite IH. ring. Qed.
(** value by columns of the product equals by rows *)
Lemma diag_sum f n m : (forall i j, n <= i \/ m <= j -> f i j = rO) -> forall L, n + m <= L ->
  rsum L (fun k => rsum (S k) (fun i => f i (k - i))) = rsum n (fun i => rsum m (fun j => f i j)).
Proof.
  intros Hz L HL.
  transitivity (rsum L (fun k => rsum L (fun i => if i <=? k then f i (k - i) else rO))).
  { apply rsum_ext. intros k Hk. rewrite (rsum_more (S k) L) by (intros; try lia; replace (i <=? k) with false by lia; auto). apply rsum_ext. intros i Hi. replace (i <=? k) with true by lia. auto. }
  rewrite rsum_swap. rewrite (rsum_more n L) by (intros; try lia; apply rsum_zero; intros k _; destruct (i <=? k); auto; apply Hz; lia).
  apply rsum_ext. intros i Hi.
  assert (G : forall M, rsum (i + M) (fun k => if i <=? k then f i (k - i) else rO) = rsum M (fun j => f i j)).
  { induction M as [|M IH]; [rewrite Nat.add_0_r; apply rsum_zero; intros k Hk; replace (i <=? k) with false by lia; auto|]. rewrite Nat.add_succ_r. cbn [SpecMath.rsum]. rewrite IH. replace (i <=? i + M) with true by lia. replace (i + M - i) with M by lia. auto. }
  replace L with (i + (L - i)) by lia. rewrite G. apply rsum_more; [lia|]. intros j Hj. apply Hz. lia.
Qed.
Lemma eval_mul a b x : poly_eval (poly_mul a b) x = poly_eval a x *r poly_eval b x.
Proof.
  rewrite !eval_value. set (n := length (poly_mul a b) + length a + length b). rewrite (value_more _ x n) by (subst n; lia).
  transitivity (rsum n (fun k => rsum (S k) (fun i => (coef a i *r rpow x i) *r (coef b (k - i) *r rpow x (k - i))))).
  { apply rsum_ext. intros k _. rewrite coef_mul. unfold SpecMath.conv. rewrite <- rsum_scale. apply rsum_ext. intros i Hi. replace (rpow x k) with (rpow x i *r rpow x (k - i)) by (rewrite <- rpow_add; f_equal; lia). ring. }
  rewrite (diag_sum (fun i j => (coef a i *r rpow x i) *r (coef b j *r rpow x j)) (length a) (length b)); [| |subst n; lia].
  - unfold value. rewrite <- rsum_scale. apply rsum_ext. intros i _. apply rsum_scale_l.
  - intros i j [H|H]; [rewrite (coef_out a) by auto|rewrite (coef_out b) by auto]; ring.
Qed.

(** ** Degree *)
Lemma is_zero_spec x : is_zero rO req x = true <-> x = rO.
Proof. unfold is_zero. apply Req. Qed.
Lemma poly_is_zero_spec a : poly_is_zero a = true <-> forall i, coef a i = rO.
Proof.
  unfold Math.poly_is_zero. rewrite forallb_forall. split.
  - intros H i. destruct (Nat.ltb_spec i (length a)) as [L|L]; [|now apply coef_out]. apply is_zero_spec, H, nth_In. auto.
  - intros H x Hx. apply is_zero_spec. apply In_nth with (d := rO) in Hx as (i & _ & <-). apply H.
Qed.
Lemma lead_zeros l : forallb (is_zero rO req) l = false -> let k := (fix go l := match l with [] => 0 | c :: l => if is_zero rO req c then S (go l) else 0 end) l in
  k < length l /\ coef l k <> rO /\ forall i, i < k -> coef l i = rO.
Proof.
  induction l as [|c l IH]; cbn [forallb]; intros H; [discriminate|]. cbv zeta in *. destruct (is_zero rO req c) eqn:E.
  - cbn in H. destruct (IH H) as (H1 & H2 & H3). cbn [length]. split; [lia|]. split; [exact H2|]. intros [|i] Hi; [now apply is_zero_spec|]. apply H3. lia.
  - cbn [length]. split; [lia|]. split; [cbn; intros F; apply is_zero_spec in F; congruence|]. intros i Hi. lia.
Qed.
Lemma coef_rev a i : i < length a -> coef (rev a) i = coef a (length a - S i).
Proof. intros H. unfold SpecMath.coef. now apply rev_nth. Qed.
Lemma forallb_rev {A} (f : A -> bool) l : forallb f (rev l) = forallb f l.
Proof. induction l as [|x l IH]; cbn; auto. rewrite forallb_app, IH. cbn. destruct (f x), (forallb f l); auto. Qed.
Lemma degree_spec a d : poly_degree a = Some d -> d < length a /\ has_degree a d.
Proof.
  unfold Math.poly_degree. destruct (poly_is_zero a) eqn:E; [discriminate|]. intros [= Hd]. unfold Math.poly_is_zero in E.
  destruct (lead_zeros (rev a)) as (H1 & H2 & H3); [now rewrite forallb_rev|]. cbv zeta in *. set (k := (fix go l := match l with [] => 0 | c :: l => if is_zero rO req c then S (go l) else 0 end) (rev a)) in *.
  rewrite rev_length in H1. assert (Ed : d = length a - S k) by (subst d; lia). split; [lia|]. split.
  - intros F. apply H2. rewrite coef_rev by auto. now rewrite <- Ed.
  - intros i Hi. destruct (Nat.ltb_spec i (length a)) as [L|L]; [|now apply coef_out].
    replace i with (length a - S (length a - S i)) by lia. rewrite <- coef_rev by lia. apply H3. lia.
Qed.
Lemma degree_total a : poly_degree a = None <-> forall i, coef a i = rO.
Proof. rewrite <- poly_is_zero_spec. unfold Math.poly_degree. destruct (poly_is_zero a); split; intros; auto; discriminate. Qed.
Lemma degree_unique a d d' : has_degree a d -> has_degree a d' -> d = d'.
Proof. intros [H1 H2] [H3 H4]. destruct (Nat.lt_trichotomy d d') as [L|[L|L]]; auto; exfalso; auto. Qed.
Lemma degree_of a d : has_degree a d -> poly_degree a = Some d.
Proof.
  intros H. destruct (poly_degree a) as [d'|] eqn:E; [f_equal; eapply degree_unique; eauto; eapply degree_spec; eauto|].
  exfalso. apply H. now apply degree_total.
Qed.

(** ** Equality *)
Lemma eq_complete a b : same_poly rO a b -> poly_eq rO req a b = true.
Proof.
  intros H. unfold poly_eq. destruct (poly_degree a) as [d|] eqn:E.
  - apply degree_spec in E as [_ [E1 E2]]. rewrite (degree_of b d) by (split; [now rewrite <- H|intros i Hi; rewrite <- H; auto]).
    rewrite Nat.eqb_refl. cbn [andb]. apply forallb_forall. intros i _. apply Req, H.
  - rewrite (proj2 (degree_total b)); [auto|]. intros i. rewrite <- H. now apply degree_total.
Qed.
Lemma eq_sound a b : poly_eq rO req a b = true -> same_poly rO a b \/ exists d, has_degree a d /\ has_degree b d /\ forall i, i <> d -> coef a i = coef b i.
Proof.
  unfold poly_eq. destruct (poly_degree a) as [d|] eqn:E, (poly_degree b) as [e|] eqn:E'; try discriminate.
  - intros H. apply andb_prop in H as [H1 H2]. assert (d = e) by lia. subst e. apply degree_spec in E as [_ E], E' as [_ E']. right. exists d. split; [auto|]. split; [auto|].
    rewrite forallb_forall in H2. intros i Hi. destruct (Nat.lt_trichotomy i d) as [L|[L|L]]; [|lia|].
    + apply Req, H2, in_seq. lia.
    + rewrite (proj2 E), (proj2 E'); auto.
  - intros _. left. intros i. rewrite (proj1 (degree_total a) E), (proj1 (degree_total b) E'). auto.
Qed.

(** ** Division *)
Lemma sub_fold b s r m base : forall rem, r <= base -> base < length rem -> m <= S r ->
  let t := fold_left (fun rem j => upd_nth (base - j) (fun x => x -r coef b (r - j) *r s) rem) (seq 0 m) rem in
  length t = length rem /\ forall k, coef t k = coef rem k -r (if (base <? k + m) && (k <=? base) then coef b (r + k - base) *r s else rO).
Proof.
  induction m as [|m IH]; intros rem Hb Hl Hm; cbv zeta.
  - cbn [seq fold_left SpecMath.rsum]. split; [auto|]. intros k. replace ((base <? k + 0) && (k <=? base)) with false by lia. ring.
  - rewrite seq_S, fold_left_app. cbn [fold_left Nat.add]. destruct (IH rem Hb Hl ltac:(lia)) as [L C]. match type of L with length ?x = _ => set (t := x) in * end. rewrite upd_len. split; [auto|].
    intros k. rewrite coef_upd by lia. rewrite C. destruct (k =? base - m) eqn:E.
    + replace ((base <? k + m) && (k <=? base)) with false by lia. replace ((base <? k + S m) && (k <=? base)) with true by lia. replace (r - m) with (r + k - base) by lia. ring.
    + replace ((base <? k + S m) && (k <=? base)) with ((base <? k + m) && (k <=? base)) by lia. auto.
Qed.

Definition div_step (l r n : nat) (b : list R) : list R * list R -> nat -> list R * list R := fun '(q, rem) i =>
  let scale := nth (l - i) rem rO in
  let rem := fold_left (fun rem j => upd_nth (l - i - j) (fun x => rsub x (rmul (nth (r - j) b rO) scale)) rem) (seq 0 (S r)) rem in
  (upd_nth (n - i - 1) (fun _ => scale) q, rem).
Lemma div_inv a b l r m : l < length a -> has_degree b r -> coef b r = rI -> r <= l -> (forall k, l < k -> coef a k = rO) -> m <= l - r + 1 ->
  let '(q, rem) := fold_left (div_step l r (l - r + 1) b) (seq 0 m) (repeat rO (l - r + 1), a) in
  length q = l - r + 1 /\ length rem = length a /\ (forall k, coef a k = conv q b k +r coef rem k) /\ (forall k, l < k + m -> coef rem k = rO) /\ (forall k, k < l - r + 1 - m -> coef q k = rO).
Proof.
  intros Hl Hb Hmon Hr Ha. induction m as [|m IH]; intros Hm.
  - cbn [seq fold_left]. rewrite repeat_length. split; [auto|]. split; [auto|]. split; [|split; [intros k Hk; apply Ha; lia|intros; apply coef_repeat]].
    intros k. unfold SpecMath.conv. rewrite rsum_zero; [ring|]. intros i _. rewrite coef_repeat. ring.
  - rewrite seq_S, fold_left_app. cbn [fold_left Nat.add]. specialize (IH ltac:(lia)). set (n := l - r + 1) in *.
    destruct (fold_left _ _ _) as [q rem]. destruct IH as (L1 & L2 & I & Z & Q). unfold div_step. fold (coef rem (l - m)). set (s := coef rem (l - m)).
    destruct (sub_fold b s r (S r) (l - m) rem ltac:(lia) ltac:(lia) ltac:(lia)) as [L3 C]. cbv zeta in L3, C. unfold SpecMath.coef in C at 1. unfold SpecMath.coef in L3.
    match type of L3 with length ?x = _ => set (rem' := x) in * end. rewrite upd_len. split; [auto|]. split; [congruence|].
    assert (C' : forall k, coef rem' k = coef rem k -r (if (l - m <? k + S r) && (k <=? l - m) then coef b (r + k - (l - m)) *r s else rO)) by (intros k; apply C). clear C.
    assert (Cq : forall k, coef (upd_nth (n - m - 1) (fun _ => s) q) k = coef q k +r (if k =? n - m - 1 then s else rO)).
    { intros k. rewrite coef_upd by lia. destruct (k =? n - m - 1) eqn:E; [|ring]. rewrite Q by lia. ring. }
    split; [|split].
    + intros k. rewrite C', I. unfold SpecMath.conv.
      assert (X : rsum (S k) (fun i => coef (upd_nth (n - m - 1) (fun _ => s) q) i *r coef b (k - i)) = rsum (S k) (fun i => coef q i *r coef b (k - i) +r (if i =? n - m - 1 then s *r coef b (k - i) else rO))).
      { apply rsum_ext. intros i _. cbv beta. rewrite Cq. destruct (i =? n - m - 1); ring. }
      rewrite X.
      rewrite rsum_add. destruct (Nat.ltb_spec (n - m - 1) (S k)) as [H|H].
      * rewrite rsum_one by auto. destruct ((l - m <? k + S r) && (k <=? l - m)) eqn:E.
        -- replace (r + k - (l - m)) with (k - (n - m - 1)) by (subst n; lia). ring.
        -- rewrite (proj2 Hb (k - (n - m - 1))) by (subst n; lia). ring.
      * rewrite (rsum_zero (S k) (fun i => if i =? n - m - 1 then s *r coef b (k - i) else rO)) by (intros i Hi; replace (i =? n - m - 1) with false by lia; auto). replace ((l - m <? k + S r) && (k <=? l - m)) with false by (subst n; lia). ring.
    + intros k Hk. rewrite C'. destruct (Nat.eq_dec k (l - m)) as [->|Hne].
      * replace ((l - m <? l - m + S r) && (l - m <=? l - m)) with true by lia. replace (r + (l - m) - (l - m)) with r by lia. rewrite Hmon. fold s. ring.
      * rewrite Z by lia. replace ((l - m <? k + S r) && (k <=? l - m)) with false by lia. ring.
    + intros k Hk. rewrite Cq, Q by lia. replace (k =? n - m - 1) with false by lia. ring.
Qed.
Lemma div_rem_ok a b r : has_degree b r -> coef b r = rI -> exists q rem, poly_div_rem a b = Some (q, rem) /\
  (forall k, coef a k = coef (poly_add (poly_mul q b) rem) k) /\ (forall k, r <= k -> coef rem k = rO).
Proof.
  intros Hb Hm. unfold Math.poly_div_rem. destruct (poly_is_zero a) eqn:Ea.
  - exists [], []. split; [auto|]. assert (Za : forall i, coef a i = rO) by now apply poly_is_zero_spec. split; [|intros [|k] _; auto].
    intros k. rewrite coef_add, coef_mul, Za. unfold SpecMath.conv. rewrite rsum_zero by (intros i _; rewrite (coef_out [] i) by (cbn; lia); ring). rewrite (coef_out [] k) by (cbn; lia). ring.
  - destruct (poly_degree a) as [l|] eqn:El; [|exfalso; rewrite degree_total, <- poly_is_zero_spec in El; congruence].
    rewrite (degree_of b r Hb). apply degree_spec in El as [Ll [Hl1 Hl2]]. destruct (l <? r) eqn:E.
    + exists [], a. split; [auto|]. split; [|intros k Hk; apply Hl2; lia]. intros k. rewrite coef_add, coef_mul. unfold SpecMath.conv.
      rewrite rsum_zero by (intros i _; rewrite (coef_out [] i) by (cbn; lia); ring). ring.
    + cbv zeta. pose proof (div_inv a b l r (l - r + 1) Ll Hb Hm ltac:(lia) Hl2 ltac:(lia)) as H.
      change (exists q rem, Some (fold_left (div_step l r (l - r + 1) b) (seq 0 (l - r + 1)) (repeat rO (l - r + 1), a)) = Some (q, rem) /\
        (forall k, coef a k = coef (poly_add (poly_mul q b) rem) k) /\ (forall k, r <= k -> coef rem k = rO)).
      destruct (fold_left _ _ _) as [q rem]. destruct H as (_ & _ & I & Z & _). exists q, rem. split; [auto|]. split; [|intros k Hk; apply Z; lia].
      intros k. rewrite coef_add, coef_mul. apply I.
Qed.
(** Quotient and remainder by a monic divisor are unique. *)
Lemma conv_top q b r d : has_degree b r -> coef b r = rI -> (forall i, d < i -> coef q i = rO) -> conv q b (d + r) = coef q d.
Proof.
  intros Hb Hm Hq. unfold SpecMath.conv. rewrite (rsum_ext _ _ (fun i => if i =? d then coef q i *r coef b (d + r - i) else rO)).
  - rewrite (rsum_one _ d (fun i => coef q i *r coef b (d + r - i))) by lia. replace (d + r - d) with r by lia. rewrite Hm. ring.
  - intros i Hi. destruct (i =? d) eqn:E; [auto|]. destruct (Nat.ltb_spec d i) as [L|L]; [rewrite Hq by auto; ring|]. rewrite (proj2 Hb) by lia. ring.
Qed.
Lemma div_unique b r q q' rem rem' : has_degree b r -> coef b r = rI -> (forall k, r <= k -> coef rem k = rO) -> (forall k, r <= k -> coef rem' k = rO) ->
  (forall k, coef (poly_add (poly_mul q b) rem) k = coef (poly_add (poly_mul q' b) rem') k) -> same_poly rO q q' /\ same_poly rO rem rem'.
Proof.
  intros Hb Hm Hr Hr' H.
  assert (D : forall k, conv (poly_sub q q') b k = conv q b k -r conv q' b k).
  { intros k. unfold SpecMath.conv. transitivity (rsum (S k) (fun i => coef q i *r coef b (k - i) +r coef q' i *r coef b (k - i) *r (ropp rI))).
    - apply rsum_ext. intros i _. rewrite coef_sub. ring.
    - rewrite rsum_add, rsum_scale. ring. }
  assert (E : same_poly rO q q').
  { assert (Z : forall n i, length (poly_sub q q') <= i + n -> coef (poly_sub q q') i = rO).
    { induction n as [|n IH]; intros i Hi; [apply coef_out; lia|].
      pose proof (conv_top (poly_sub q q') b r i Hb Hm ltac:(intros j Hj; apply IH; lia)) as T. rewrite <- T, D.
      pose proof (H (i + r)) as E. rewrite !coef_add, !coef_mul, Hr, Hr' in E by lia. assert (E' : conv q b (i + r) = conv q' b (i + r)).
      { transitivity (conv q b (i + r) +r rO); [ring|]. rewrite E. ring. }
      rewrite E'. ring. }
    intros i. pose proof (Z (length (poly_sub q q')) i ltac:(lia)) as Zi. rewrite coef_sub in Zi. transitivity (coef q i -r coef q' i +r coef q' i); [ring|]. rewrite Zi. ring. }
  split; [exact E|]. intros k. specialize (H k). rewrite !coef_add, !coef_mul in H.
  assert (C : conv q b k = conv q' b k) by (apply rsum_ext; intros i _; now rewrite E). rewrite C in H.
  transitivity (conv q' b k +r coef rem k -r conv q' b k); [ring|]. rewrite H. ring.
Qed.
End Poly.
