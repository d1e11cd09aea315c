(** Polynomial arithmetic of sunscreen_tfhe: lemmas. *)
From Verif Require Import Base Alu AluProofs PolyRing Tfhe SpecTfhe FluentIntProofs TfheProofs.
Ltac Zify.zify_post_hook ::= idtac.
Open Scope Z_scope.

Lemma upd_len l i f : length (upd l i f) = length l.
Proof. revert i. induction l; intros [|i]; cbn [upd length]; auto. Qed.
Lemma upd_nth l i f k : (i < length l)%nat -> nth k (upd l i f) 0 = if (k =? i)%nat then f (nth k l 0) else nth k l 0.
Proof.
  revert i k. induction l as [|x l IH]; intros i k H; cbn [length] in H; [lia|]. destruct i, k; cbn [upd nth Nat.eqb]; try reflexivity. apply IH. lia.
Qed.
Lemma toruses_upd w l i f : toruses w l -> (forall x, torus w (f x)) -> toruses w (upd l i f).
Proof. intros H Hf. revert i. induction H; intros [|i]; cbn [upd]; constructor; auto. apply IHForall. Qed.

Lemma nth_nil0 n : nth n (@nil Z) 0 = 0. Proof. now destruct n. Qed.

(** What row [i] of the schoolbook product adds to coefficient [k], from position [j] of [b] on. *)
Definition rowc (len i j : nat) (b : list Z) (k : nat) : Z :=
  (if (i + j <=? k)%nat then nth (k - (i + j)) b 0 else 0) - (if (i + j <=? k + len)%nat then nth (k + len - (i + j)) b 0 else 0).

Lemma mad_row_len w len i j l b c : length (mad_row w len i j l b c) = length c.
Proof.
  revert j c. induction b as [|r b IH]; intros j c; cbn [mad_row]; [reflexivity|]. rewrite IH.
  destruct (len <=? i + j)%nat; apply upd_len.
Qed.
Lemma mad_row_torus w len i l b : 0 <= w -> forall j c, toruses w c -> toruses w (mad_row w len i j l b c).
Proof.
  intros Hw. induction b as [|r b IH]; intros j c H; cbn [mad_row]; [assumption|]. apply IH.
  destruct (len <=? i + j)%nat; apply toruses_upd; auto; intros; now apply uwrap_torus.
Qed.
Lemma mad_row_ok w len i l b : forall j c k, (i < len)%nat -> (j + length b = len)%nat -> length c = len -> (k < len)%nat ->
  congr w (nth k (mad_row w len i j l b c) 0) (nth k c 0 + l * rowc len i j b k).
Proof.
  induction b as [|r b IH]; intros j c k Hi Hj Hc Hk; cbn [mad_row length] in *.
  - apply zeq_refl'. unfold rowc. destruct (i + j <=? k)%nat, (i + j <=? k + len)%nat; rewrite ?nth_nil0; ring.
  - rewrite IH; try lia; [|destruct (len <=? i + j)%nat; rewrite upd_len; assumption].
    destruct (Nat.leb_spec len (i + j)) as [Hge|Hlt].
    + rewrite upd_nth by lia. destruct (Nat.eqb_spec k (i + j - len)) as [Ek|Nk].
      * rewrite tsub_congr, tmul_congr. apply zeq_refl'. unfold rowc.
        destruct (Nat.leb_spec (i + S j) k); [lia|]. destruct (Nat.leb_spec (i + j) k); [lia|].
        destruct (Nat.leb_spec (i + S j) (k + len)); [lia|]. destruct (Nat.leb_spec (i + j) (k + len)); [|lia].
        replace (k + len - (i + j))%nat with O by lia. cbn [nth]. ring.
      * apply zeq_refl'. unfold rowc.
        destruct (Nat.leb_spec (i + S j) k); [lia|]. destruct (Nat.leb_spec (i + j) k); [lia|].
        destruct (Nat.leb_spec (i + S j) (k + len)), (Nat.leb_spec (i + j) (k + len)); try lia.
        replace (k + len - (i + j))%nat with (S (k + len - (i + S j))) by lia. cbn [nth]. ring.
    + rewrite upd_nth by lia. unfold rowc. destruct (Nat.eqb_spec k (i + j)) as [Ek|Nk].
      * rewrite tadd_congr, tmul_congr. apply zeq_refl'.
        destruct (Nat.leb_spec (i + S j) k); [lia|]. destruct (Nat.leb_spec (i + j) k); [|lia].
        destruct (Nat.leb_spec (i + S j) (k + len)), (Nat.leb_spec (i + j) (k + len)); try lia.
        replace (k - (i + j))%nat with O by lia. rewrite (nth_overflow b 0) by lia. rewrite (nth_overflow (r :: b) 0 (n := k + len - (i + j))) by (cbn [length]; lia). cbn [nth]. ring.
      * apply zeq_refl'.
        assert (E1 : (if (i + S j <=? k)%nat then nth (k - (i + S j)) b 0 else 0) = (if (i + j <=? k)%nat then nth (k - (i + j)) (r :: b) 0 else 0)).
        { destruct (Nat.leb_spec (i + S j) k), (Nat.leb_spec (i + j) k); try lia.
          replace (k - (i + j))%nat with (S (k - (i + S j))) by lia. reflexivity. }
        assert (E2 : (if (i + S j <=? k + len)%nat then nth (k + len - (i + S j)) b 0 else 0) = (if (i + j <=? k + len)%nat then nth (k + len - (i + j)) (r :: b) 0 else 0)).
        { destruct (Nat.leb_spec (i + S j) (k + len)), (Nat.leb_spec (i + j) (k + len)); try lia.
          replace (k + len - (i + j))%nat with (S (k + len - (i + S j))) by lia. reflexivity. }
        rewrite E1, E2. ring.
Qed.
Lemma rowc_pxn len i b k : (i < len)%nat -> length b = len -> (k < len)%nat -> rowc len i 0 b k = pxn len i (coef b) k.
Proof.
  intros Hi Hb Hk. rewrite pxn_closed by lia. unfold rowc, coef. rewrite Nat.add_0_r.
  destruct (Nat.leb_spec i k), (Nat.leb_spec i (k + len)), (Nat.ltb_spec k i); try lia.
  - rewrite (nth_overflow b 0 (n := k + len - i)) by lia. ring.
  - replace (k + len - i)%nat with (len + k - i)%nat by lia. ring.
Qed.

Lemma mad_rows_len w len i a b c : length (mad_rows w len i a b c) = length c.
Proof. revert i c. induction a; intros i c; cbn [mad_rows]; [reflexivity|]. now rewrite IHa, mad_row_len. Qed.
Lemma mad_rows_torus w len b : 0 <= w -> forall a i c, toruses w c -> toruses w (mad_rows w len i a b c).
Proof. intros Hw. induction a; intros i c H; cbn [mad_rows]; [assumption|]. apply IHa. now apply mad_row_torus. Qed.
Lemma mad_rows_ok w len b a : forall i c k, (i + length a <= len)%nat -> length b = len -> length c = len -> (k < len)%nat ->
  congr w (nth k (mad_rows w len i a b c) 0) (nth k c 0 + zsum (length a) (fun t => nth t a 0 * pxn len (i + t) (coef b) k)).
Proof.
  induction a as [|l a IH]; intros i c k Hi Hb Hc Hk; cbn [mad_rows length] in *.
  - cbn [zsum]. apply zeq_refl'. ring.
  - rewrite IH by (try rewrite mad_row_len; lia). rewrite mad_row_ok by (try lia; assumption).
    rewrite zsum_S_l. cbn [nth]. rewrite Nat.add_0_r. rewrite rowc_pxn by lia. apply zeq_refl'.
    rewrite (zsum_ext _ (fun t => nth t a 0 * pxn len (S i + t) (coef b) k) (fun t => nth t a 0 * pxn len (i + S t) (coef b) k)); [ring|].
    intros t Ht. f_equal. f_equal. lia.
Qed.

Lemma poly_mad_ok w N c a b : is_pow2 N = true -> length a = N -> length b = N -> length c = N ->
  exists r, poly_mad w c a b = Ok r /\ length r = N /\ (0 <= w -> toruses w c -> toruses w r) /\
    peq N (2 ^ w) (coef r) (padd (coef c) (pmul N (coef a) (coef b))).
Proof.
  intros Hp Ha Hb Hc. unfold poly_mad. rewrite Ha, Hb, Hc, Hp, Nat.eqb_refl. cbn [andb]. eexists. split; [reflexivity|].
  split; [now rewrite mad_rows_len|]. split; [intros; now apply mad_rows_torus|].
  intros k Hk. unfold coef at 1. rewrite mad_rows_ok by (try lia; assumption). apply zeq_refl'. unfold padd, pmul, psum, pscale. rewrite Ha. reflexivity.
Qed.

(** ** Coefficient-wise operations *)

Lemma nth_zip {A} (f : Z -> A -> Z) (d : A) l r k : length l = length r -> (k < length l)%nat ->
  nth k (zip_assign f l r) 0 = f (nth k l 0) (nth k r d).
Proof.
  revert r k. induction l as [|x l IH]; intros [|y r] k; cbn [length]; intros; try lia. destruct k; cbn [zip_assign nth]; [reflexivity|]. apply IH; lia.
Qed.
Lemma nth_map0 f (l : list Z) k : (k < length l)%nat -> nth k (map f l) 0 = f (nth k l 0).
Proof. intros H. rewrite (nth_indep _ 0 (f 0)) by (now rewrite map_length). apply map_nth. Qed.

Section Coef.
Context (w : Z) (N : nat).
Local Notation "f == g" := (peq N (2 ^ w) f g) (at level 70).

Lemma coef_add l r : length l = N -> length r = N -> coef (poly_add_assign w l r) == padd (coef l) (coef r).
Proof. intros Hl Hr k Hk. unfold coef at 1, poly_add_assign. rewrite (nth_zip _ 0) by lia. apply tadd_congr. Qed.
Lemma coef_sub l r : length l = N -> length r = N -> coef (poly_sub_assign w l r) == psub (coef l) (coef r).
Proof. intros Hl Hr k Hk. unfold coef at 1, poly_sub_assign. rewrite (nth_zip _ 0) by lia. apply tsub_congr. Qed.
Lemma coef_neg l : length l = N -> coef (poly_negate w l) == popp (coef l).
Proof. intros Hl k Hk. unfold coef at 1, poly_negate. rewrite nth_map0 by lia. apply tneg_congr. Qed.
Lemma coef_scalar_mad c a s : length c = N -> length a = N -> coef (poly_scalar_mad w c a s) == padd (coef c) (pscale s (coef a)).
Proof.
  intros Hl Hr k Hk. unfold coef at 1, poly_scalar_mad. rewrite (nth_zip _ 0) by lia. rewrite tadd_congr, tmul_congr.
  unfold padd, pscale, coef. apply zeq_refl'. ring.
Qed.
Lemma coef_scalar_mul c a s : length c = N -> length a = N -> coef (poly_scalar_mul w c a s) == pscale s (coef a).
Proof.
  intros Hl Hr k Hk. unfold coef at 1, poly_scalar_mul. rewrite (nth_zip _ 0) by lia. rewrite tmul_congr.
  unfold pscale, coef. apply zeq_refl'. ring.
Qed.
Lemma coef_zeros l : Forall (eq 0) l -> coef l == p0.
Proof. intros H k Hk. unfold coef, p0. apply zeq_refl'. clear Hk. revert k. induction H; intros [|k]; cbn [nth]; auto. Qed.
End Coef.

(** ** Rotation *)

Lemma nth_skipn0 n (l : list Z) k : nth k (skipn n l) 0 = nth (n + k) l 0.
Proof. revert l. induction n; intros [|x l]; cbn [skipn plus]; rewrite ?nth_nil0; auto. rewrite IHn. reflexivity. Qed.
Lemma nth_firstn0 n (l : list Z) k : (k < n)%nat -> nth k (firstn n l) 0 = nth k l 0.
Proof. revert l k. induction n; intros l k H; [lia|]. destruct l, k; cbn [firstn nth]; auto. apply IHn. lia. Qed.
Lemma rot_left_nth n l k : (n <= length l)%nat -> (k < length l)%nat ->
  nth k (rot_left n l) 0 = if (k + n <? length l)%nat then nth (k + n) l 0 else nth (k + n - length l) l 0.
Proof.
  intros Hn Hk. unfold rot_left. destruct (Nat.ltb_spec (k + n) (length l)).
  - rewrite app_nth1 by (rewrite skipn_length; lia). rewrite nth_skipn0. f_equal. lia.
  - rewrite app_nth2 by (rewrite skipn_length; lia). rewrite skipn_length. rewrite nth_firstn0 by lia. f_equal. lia.
Qed.
Lemma rot_left_len n l : length (rot_left n l) = length l.
Proof. unfold rot_left. rewrite app_length, skipn_length, firstn_length. lia. Qed.
Lemma rot_right_left n l : rot_right n l = rot_left (length l - n) l. Proof. reflexivity. Qed.
Lemma neg_range_len w l lo hi : length (neg_range w l lo hi) = length l.
Proof. revert lo hi. induction l; intros; cbn [neg_range length]; auto. Qed.
Lemma neg_range_nth w l : forall lo hi k, (k < length l)%nat ->
  nth k (neg_range w l lo hi) 0 = if ((lo <=? k) && (k <? hi))%nat then tneg w (nth k l 0) else nth k l 0.
Proof.
  induction l as [|x l IH]; intros lo hi k Hk; cbn [length] in Hk; [lia|]. destruct k as [|k]; cbn [neg_range nth].
  - destruct lo, hi; reflexivity.
  - rewrite IH by lia. replace (lo - 1 <=? k)%nat with (lo <=? S k)%nat; [replace (k <? hi - 1)%nat with (S k <? hi)%nat; [reflexivity|]|].
    + destruct (Nat.ltb_spec (S k) hi), (Nat.ltb_spec k (hi - 1)); lia.
    + destruct (Nat.leb_spec lo (S k)), (Nat.leb_spec (lo - 1) k); lia.
Qed.

(** The sign and source position of coefficient [k] after multiplication by X^n. *)
Lemma pmono_at N n f k q r : (r < N)%nat -> Z.of_nat k - n = q * Z.of_nat N + Z.of_nat r ->
  pmono N n f k = if Z.even q then f r else - f r.
Proof.
  intros Hr E. unfold pmono. assert (Hq : (Z.of_nat k - n) / Z.of_nat N = q) by (symmetry; apply (Z.div_unique _ _ _ (Z.of_nat r)); lia).
  assert (Hm : (Z.of_nat k - n) mod Z.of_nat N = Z.of_nat r) by (symmetry; apply (Z.mod_unique _ _ q); lia).
  cbv zeta. rewrite Hq, Hm, Nat2Z.id. destruct (Z.even q); ring.
Qed.
Lemma pmono_mod N n n' f k : (0 < N)%nat -> (exists t, n = n' + t * (2 * Z.of_nat N)) -> pmono N n f k = pmono N n' f k.
Proof.
  intros HN (t & ->). set (m := Z.of_nat k - n'). pose proof (Z.div_mod m (Z.of_nat N) ltac:(lia)) as D.
  pose proof (Z.mod_pos_bound m (Z.of_nat N) ltac:(lia)) as B.
  rewrite (pmono_at N n' f k (m / Z.of_nat N) (Z.to_nat (m mod Z.of_nat N))) by lia.
  rewrite (pmono_at N _ f k (m / Z.of_nat N - 2 * t) (Z.to_nat (m mod Z.of_nat N))) by nia.
  rewrite Z.even_sub, Z.even_mul. cbn [Z.even orb]. now destruct (Z.even (m / Z.of_nat N)).
Qed.
Lemma pmono_0 N f k : (k < N)%nat -> pmono N 0 f k = f k.
Proof. intros H. now rewrite (pmono_at N 0 f k 0 k) by lia. Qed.
Lemma pmono_N N f k : (k < N)%nat -> pmono N (Z.of_nat N) f k = - f k.
Proof. intros H. now rewrite (pmono_at N _ f k (-1) k) by lia. Qed.
Lemma pmono_add N a b f k : (k < N)%nat -> pmono N a (pmono N b f) k = pmono N (a + b) f k.
Proof.
  intros Hk. set (m := Z.of_nat k - a). pose proof (Z.div_mod m (Z.of_nat N) ltac:(lia)) as D.
  pose proof (Z.mod_pos_bound m (Z.of_nat N) ltac:(lia)) as B.
  rewrite (pmono_at N a _ k (m / Z.of_nat N) (Z.to_nat (m mod Z.of_nat N))) by lia.
  set (r := Z.to_nat (m mod Z.of_nat N)). set (m' := Z.of_nat r - b).
  pose proof (Z.div_mod m' (Z.of_nat N) ltac:(lia)) as D'. pose proof (Z.mod_pos_bound m' (Z.of_nat N) ltac:(lia)) as B'.
  rewrite (pmono_at N b f r (m' / Z.of_nat N) (Z.to_nat (m' mod Z.of_nat N))) by lia.
  rewrite (pmono_at N (a + b) f k (m / Z.of_nat N + m' / Z.of_nat N) (Z.to_nat (m' mod Z.of_nat N))) by lia.
  rewrite Z.even_add. destruct (Z.even (m / Z.of_nat N)), (Z.even (m' / Z.of_nat N)); cbn; ring.
Qed.
Lemma pmono_pxn N n f k : (k < N)%nat -> pxn N n f k = pmono N (Z.of_nat n) f k.
Proof.
  revert k. induction n as [|n IH]; intros k Hk; [now rewrite pmono_0|]. cbn [pxn]. destruct k as [|k]; cbn [px].
  - rewrite IH by lia. set (m := Z.of_nat (N - 1) - Z.of_nat n). pose proof (Z.div_mod m (Z.of_nat N) ltac:(lia)) as D.
    pose proof (Z.mod_pos_bound m (Z.of_nat N) ltac:(lia)) as B.
    rewrite (pmono_at N _ f (N - 1) (m / Z.of_nat N) (Z.to_nat (m mod Z.of_nat N))) by lia.
    rewrite (pmono_at N _ f 0 (m / Z.of_nat N - 1) (Z.to_nat (m mod Z.of_nat N))) by nia.
    rewrite Z.even_sub. destruct (Z.even (m / Z.of_nat N)); cbn; ring.
  - rewrite IH by lia. unfold pmono. replace (Z.of_nat (S k) - Z.of_nat (S n)) with (Z.of_nat k - Z.of_nat n) by lia. reflexivity.
Qed.

Lemma poly_rot_pos_len w p d : length (poly_rot_pos w p d) = length p.
Proof. unfold poly_rot_pos. cbv zeta. repeat destruct (Nat.eqb _ _); rewrite ?map_length; auto. destruct (Nat.ltb _ _); rewrite neg_range_len, rot_right_left, rot_left_len; auto. Qed.
Lemma poly_rot_neg_len w p d : length (poly_rot_neg w p d) = length p.
Proof. unfold poly_rot_neg. cbv zeta. repeat destruct (Nat.eqb _ _); rewrite ?map_length; auto. destruct (Nat.ltb _ _); rewrite neg_range_len, rot_left_len; auto. Qed.
Lemma poly_rot_len w p d : length (poly_rot w p d) = length p.
Proof. unfold poly_rot. destruct (d <? 0); [apply poly_rot_neg_len|apply poly_rot_pos_len]. Qed.
Lemma toruses_app w a b : toruses w a -> toruses w b -> toruses w (a ++ b). Proof. intros. apply Forall_app. auto. Qed.
Lemma toruses_firstn w n l : toruses w l -> toruses w (firstn n l). Proof. intros H. revert n. induction H; intros [|n]; cbn [firstn]; constructor; auto. apply IHForall. Qed.
Lemma toruses_skipn w n l : toruses w l -> toruses w (skipn n l). Proof. intros H. revert n. induction H; intros [|n]; cbn [skipn]; try constructor; auto. Qed.
Lemma toruses_rot w n l : toruses w l -> toruses w (rot_left n l).
Proof. intros. apply toruses_app; [now apply toruses_skipn|now apply toruses_firstn]. Qed.
Lemma toruses_neg_range w l : 0 <= w -> toruses w l -> forall lo hi, toruses w (neg_range w l lo hi).
Proof. intros Hw H. induction H; intros; cbn [neg_range]; constructor; auto. { destruct (_ && _); auto. now apply uwrap_torus. } apply IHForall. Qed.
Lemma poly_rot_torus w p d : 0 <= w -> toruses w p -> toruses w (poly_rot w p d).
Proof.
  intros Hw H. unfold poly_rot, poly_rot_neg, poly_rot_pos. cbv zeta.
  destruct (d <? 0); repeat destruct (Nat.eqb _ _); auto; try (apply toruses_map; intros; now apply uwrap_torus);
    destruct (Nat.ltb _ _); apply toruses_neg_range; auto; try (rewrite rot_right_left); now apply toruses_rot.
Qed.

Lemma poly_rot_pos_ok w p d k : (k < length p)%nat -> congr w (nth k (poly_rot_pos w p d) 0) (pmono (length p) (Z.of_nat d) (coef p) k).
Proof.
  intros Hk. set (N := length p) in *. unfold poly_rot_pos. fold N. set (e := (d mod (2 * N))%nat).
  assert (Hp : pmono N (Z.of_nat d) (coef p) k = pmono N (Z.of_nat e) (coef p) k).
  { apply pmono_mod; [lia|]. exists (Z.of_nat (d / (2 * N))). pose proof (Nat.div_mod d (2 * N) ltac:(lia)). unfold e. nia. }
  rewrite Hp. clear Hp. assert (He : (e < 2 * N)%nat) by (apply Nat.mod_upper_bound; lia). cbv zeta.
  destruct (Nat.eqb_spec e 0) as [->|]; [rewrite pmono_0 by lia; reflexivity|].
  destruct (Nat.eqb_spec e N) as [->|]; [rewrite pmono_N by lia; rewrite nth_map0 by lia; apply tneg_congr|].
  destruct (Nat.ltb_spec e N) as [Hlt|Hge].
  - rewrite (Nat.mod_small e N) by lia. rewrite neg_range_nth by (rewrite rot_right_left, rot_left_len; lia).
    rewrite rot_right_left. fold N. rewrite rot_left_nth by lia. fold N.
    destruct (Nat.leb_spec 0 k); [|lia]. cbn [andb]. destruct (Nat.ltb_spec k e), (Nat.ltb_spec (k + (N - e)) N); try lia.
    + rewrite (pmono_at N _ _ k (-1) (k + (N - e))) by lia. apply tneg_congr.
    + rewrite (pmono_at N _ _ k 0 (k + (N - e) - N)) by lia. reflexivity.
  - assert (Em : (e mod N = e - N)%nat) by (symmetry; apply (Nat.mod_unique _ _ 1); lia). rewrite Em.
    rewrite neg_range_nth by (rewrite rot_right_left, rot_left_len; lia). rewrite rot_right_left. fold N. rewrite rot_left_nth by lia. fold N.
    destruct (Nat.ltb_spec k N); [|lia]. rewrite andb_true_r.
    destruct (Nat.leb_spec (e - N) k), (Nat.ltb_spec (k + (N - (e - N))) N); try lia.
    + rewrite (pmono_at N _ _ k (-1) (k + (N - (e - N)) - N)) by lia. apply tneg_congr.
    + rewrite (pmono_at N _ _ k (-2) (k + (N - (e - N)))) by lia. reflexivity.
Qed.
Lemma poly_rot_neg_ok w p d k : (k < length p)%nat -> congr w (nth k (poly_rot_neg w p d) 0) (pmono (length p) (- Z.of_nat d) (coef p) k).
Proof.
  intros Hk. set (N := length p) in *. unfold poly_rot_neg. fold N. set (e := (d mod (2 * N))%nat).
  assert (Hp : pmono N (- Z.of_nat d) (coef p) k = pmono N (- Z.of_nat e) (coef p) k).
  { apply pmono_mod; [lia|]. exists (- Z.of_nat (d / (2 * N))). pose proof (Nat.div_mod d (2 * N) ltac:(lia)). unfold e. nia. }
  rewrite Hp. clear Hp. assert (He : (e < 2 * N)%nat) by (apply Nat.mod_upper_bound; lia). cbv zeta.
  destruct (Nat.eqb_spec e 0) as [->|]; [change (- Z.of_nat 0) with 0; rewrite pmono_0 by lia; reflexivity|].
  destruct (Nat.eqb_spec e N) as [->|]; [rewrite (pmono_at N _ _ k 1 k) by lia; rewrite nth_map0 by lia; apply tneg_congr|].
  destruct (Nat.ltb_spec e N) as [Hlt|Hge].
  - rewrite (Nat.mod_small e N) by lia. rewrite neg_range_nth by (rewrite rot_left_len; lia). rewrite rot_left_nth by lia. fold N.
    destruct (Nat.ltb_spec k N); [|lia]. rewrite andb_true_r. destruct (Nat.leb_spec (N - e) k), (Nat.ltb_spec (k + e) N); try lia.
    + rewrite (pmono_at N _ _ k 1 (k + e - N)) by lia. apply tneg_congr.
    + rewrite (pmono_at N _ _ k 0 (k + e)) by lia. reflexivity.
  - assert (Em : (e mod N = e - N)%nat) by (symmetry; apply (Nat.mod_unique _ _ 1); lia). rewrite Em.
    rewrite neg_range_nth by (rewrite rot_left_len; lia). rewrite rot_left_nth by lia. fold N.
    destruct (Nat.leb_spec 0 k); [|lia]. cbn [andb]. destruct (Nat.ltb_spec k (N - (e - N))), (Nat.ltb_spec (k + (e - N)) N); try lia.
    + rewrite (pmono_at N _ _ k 1 (k + (e - N))) by lia. apply tneg_congr.
    + rewrite (pmono_at N _ _ k 2 (k + (e - N) - N)) by lia. reflexivity.
Qed.
Lemma poly_rot_ok w p n : peq (length p) (2 ^ w) (coef (poly_rot w p n)) (pmono (length p) n (coef p)).
Proof.
  intros k Hk. unfold poly_rot, coef at 1. destruct (Z.ltb_spec n 0).
  - rewrite poly_rot_neg_ok by assumption. now replace (- Z.of_nat (Z.to_nat (- n))) with n by lia.
  - rewrite poly_rot_pos_ok by assumption. now replace (Z.of_nat (Z.to_nat n)) with n by lia.
Qed.

(** Rotation as a ring operation. *)
Lemma pmono_mor N q n f g : peq N q f g -> peq N q (pmono N n f) (pmono N n g).
Proof.
  intros H k Hk. unfold pmono. apply zeq_mul; [reflexivity|]. apply H.
  pose proof (Z.mod_pos_bound (Z.of_nat k - n) (Z.of_nat N) ltac:(lia)). lia.
Qed.
Lemma pmono_pxn_ex N n : (0 < N)%nat -> exists i, (forall f k, (k < N)%nat -> pmono N n f k = pxn N i f k).
Proof.
  intros HN. exists (Z.to_nat (n mod (2 * Z.of_nat N))). intros f k Hk. rewrite pmono_pxn by assumption.
  pose proof (Z.mod_pos_bound n (2 * Z.of_nat N) ltac:(lia)). rewrite Z2Nat.id by lia. apply pmono_mod; [assumption|].
  exists (n / (2 * Z.of_nat N)). pose proof (Z.div_mod n (2 * Z.of_nat N) ltac:(lia)). lia.
Qed.
Lemma pmono_mul_r N q n f g : (0 < N)%nat -> peq N q (pmul N f (pmono N n g)) (pmono N n (pmul N f g)).
Proof.
  intros HN. destruct (pmono_pxn_ex N n HN) as (i & Hi).
  transitivity (pmul N f (pxn N i g)). { apply pmul_mor; [reflexivity|]. apply peq_exact. auto. }
  rewrite pmul_pxn_r. apply peq_exact. intros k Hk. symmetry. auto.
Qed.
Lemma pmono_mul_l N q n f g : (0 < N)%nat -> peq N q (pmul N (pmono N n f) g) (pmono N n (pmul N f g)).
Proof.
  intros HN. rewrite (pmul_comm N q (pmono N n f) g), pmono_mul_r by assumption. apply pmono_mor, pmul_comm.
Qed.
