(** GLEV and GGSW: the gadget product, the external product, key switching. *)
From Verif Require Import Base Alu AluProofs PolyRing Tfhe TfheGlwe SpecTfhe SpecGlwe FluentIntProofs TfheProofs TfheProofs2 TfheProofs3 TfheGlweProofs TfheGlweProofs2.
Require Import Setoid Morphisms Ring.
Ltac Zify.zify_post_hook ::= idtac.
Open Scope Z_scope.

(** ** 1-norms *)

Definition pl1 (N : nat) (f : poly) : Z := zsum N (fun k => Z.abs (f k)).
Lemma zsum_nonneg n f : (forall i, (i < n)%nat -> 0 <= f i) -> 0 <= zsum n f.
Proof. intros H. rewrite <- (zsum_0 n (fun _ => 0)) by auto. apply zsum_le. exact H. Qed.
Lemma pl1_nonneg N f : 0 <= pl1 N f. Proof. apply zsum_nonneg. intros. lia. Qed.
Lemma pl1_px N f : pl1 N (px N f) = pl1 N f.
Proof.
  unfold pl1. destruct N as [|n]; [reflexivity|]. rewrite zsum_S_l. cbn [px]. replace (S n - 1)%nat with n by lia.
  rewrite Z.abs_opp. rewrite Z.add_comm. reflexivity.
Qed.
Lemma pl1_pxn N i f : pl1 N (pxn N i f) = pl1 N f.
Proof. induction i; cbn [pxn]; [reflexivity|]. now rewrite pl1_px. Qed.
Lemma pl1_mul N f g : pl1 N (pmul N f g) <= pl1 N f * pl1 N g.
Proof.
  unfold pl1 at 1. unfold pmul, psum, pscale.
  apply (Z.le_trans _ (zsum N (fun k => zsum N (fun i => Z.abs (f i) * Z.abs (pxn N i g k))))).
  - apply zsum_le. intros k Hk. eapply Z.le_trans; [apply zsum_abs|]. apply zsum_le. intros i Hi. rewrite Z.abs_mul. lia.
  - rewrite zsum_swap. unfold pl1 at 1. rewrite <- zsum_mulr. apply zsum_le. intros i Hi.
    rewrite zsum_mull. change (zsum N (fun k => Z.abs (pxn N i g k))) with (pl1 N (pxn N i g)). rewrite pl1_pxn. lia.
Qed.
Lemma l1bnd_mul N A B f g : l1bnd N A f -> l1bnd N B g -> l1bnd N (A * B) (pmul N f g).
Proof.
  unfold l1bnd. fold (pl1 N f) (pl1 N g) (pl1 N (pmul N f g)). intros Ha Hb. pose proof (pl1_mul N f g). pose proof (pl1_nonneg N f). pose proof (pl1_nonneg N g). nia.
Qed.
Lemma l1bnd_opp N A f : l1bnd N A f -> l1bnd N A (popp f).
Proof. unfold l1bnd, popp. intros H. rewrite (zsum_ext N _ (fun k => Z.abs (f k))); [assumption|]. intros. apply Z.abs_opp. Qed.
Lemma l1bnd_weaken N A B f : A <= B -> l1bnd N A f -> l1bnd N B f. Proof. unfold l1bnd. lia. Qed.
Lemma l1bnd_nonneg N A f : l1bnd N A f -> 0 <= A.
Proof. unfold l1bnd. pose proof (pl1_nonneg N f). unfold pl1 in *. lia. Qed.
Lemma l1bnd_binary N s : length s = N -> binary s -> l1bnd N (Z.of_nat N) (coef s).
Proof.
  intros Hl Hb. apply (l1bnd_weaken _ (Z.of_nat N * 1)); [lia|]. apply pbnd_l1. intros k Hk. unfold coef.
  assert (Hin : In (nth k s 0) s) by (apply nth_In; lia). pose proof (proj1 (Forall_forall _ _) Hb _ Hin) as [-> | ->]; cbn; lia.
Qed.

Section P.
Context (N : nat) (w : Z).
Local Notation "f == g" := (peq N (2 ^ w) f g) (at level 70).
Add Ring poly_ring_w3 : (poly_ring N (2 ^ w)) (setoid (peq_equiv N (2 ^ w)) (poly_ring_ext N (2 ^ w))).
Local Notation pn := (pnear N w).

(** Coefficient-wise nearness of lists. *)
Lemma pnear_lists E l l' : length l = N -> Forall2 (near w E) l l' -> pn E (coef l) (coef l').
Proof.
  intros Hl H. assert (exists es, length es = length l /\ forall k, (k < length l)%nat -> Z.abs (nth k es 0) <= E /\ congr w (nth k l 0) (nth k l' 0 + nth k es 0)) as (es & Le & He).
  { clear Hl. induction H as [|x y l l' (e & Hb & Hc) H (es & IH1 & IH2)]; [exists []; split; [reflexivity|intros; cbn [length] in *; lia]|].
    exists (e :: es). split; [cbn [length]; lia|]. intros [|k] Hk; cbn [nth length] in *; [split; assumption|]. apply IH2. lia. }
  exists (coef es). split.
  - intros k Hk. apply He. lia.
  - intros k Hk. unfold padd, coef. apply He. lia.
Qed.

(** ** The gadget product *)

Fixpoint gsum (log : Z) (sk : list (list Z)) (vs : list Z) (bs : list glwe) : poly :=
  match bs with
  | [] => p0
  | b :: bs => padd (pmul N (coef (map (sdig log) vs)) (glwe_phase N sk b)) (gsum log sk (map (snext log) vs) bs)
  end.

Lemma vec_next_map pr log vs : word w -> 1 <= log < w -> toruses w vs ->
  mapM (vec_next_digit pr w log) vs = Ok (map (fun v => (uwrap w (sdig log v), snext log v)) vs).
Proof. intros Hw Hl Hv. apply mapM_ok. intros x Hx. apply vec_next_ok; try assumption. apply (proj1 (Forall_forall _ _) Hv x Hx). Qed.

Lemma snexts_torus log vs : 1 <= log -> 0 <= w -> toruses w vs -> toruses w (map (snext log) vs).
Proof. intros Hl Hw H. induction H; cbn [map]; constructor; auto. now apply snext_range. Qed.

Lemma coef_uwrap (f : Z -> Z) l : coef (map (fun v => uwrap w (f v)) l) == coef (map f l).
Proof.
  intros k _. unfold coef. revert k. induction l as [|x l IH]; intros [|k]; cbn [map nth]; try reflexivity; [apply uwrap_congr|apply IH].
Qed.

Lemma glev_mad_loop_ok pr log count k bs : is_pow2 N = true -> word w -> 1 <= log < w ->
  forall vs l cur c, length vs = N -> toruses w vs -> (l + length bs <= count)%nat -> Forall (glwe_shape N k) bs -> glwe_shape N k c ->
  exists c', glev_mad_loop pr w log count k {| ri_scratch := vs; ri_level := l |} cur bs c = Ok c' /\ glwe_shape N k c' /\
    (glwe_wf w N k c -> glwe_wf w N k c') /\
    forall sk, glwe_phase N sk c' == padd (glwe_phase N sk c) (gsum log sk vs bs).
Proof.
  intros Hp Hw Hl. pose proof (word_pos w Hw). induction bs as [|b bs IH]; intros vs l cur c Hv Tv Hlv Hb Hc; cbn [glev_mad_loop].
  - exists c. split; [reflexivity|]. split; [assumption|]. split; [auto|]. intros sk. cbn [gsum]. ring.
  - cbn [length] in Hlv. unfold write_next. cbn [ri_level ri_scratch].
    destruct (Nat.eqb_spec l count) as [->|_]; [lia|]. rewrite vec_next_map by assumption. cbn [bind]. rewrite !map_map. cbn [fst snd].
    apply Forall_cons_iff in Hb as [Hb1 Hb].
    destruct (glwe_poly_mad_ok N w k c b (map (fun x => uwrap w (sdig log x)) vs) Hp Hc Hb1) as (c1 & E1 & S1 & T1 & P1). { now rewrite map_length. }
    rewrite E1. cbn [bind].
    destruct (IH (map (snext log) vs) (S l) (map (fun x => uwrap w (sdig log x)) vs) c1) as (c' & E2 & S2 & T2 & P2); try assumption.
    { now rewrite map_length. } { apply snexts_torus; (lia || assumption). } { lia. }
    exists c'. split; [assumption|]. split; [assumption|]. split; [intros; apply T2, T1; (lia || assumption)|].
    intros sk. cbn [gsum]. rewrite P2, P1, coef_uwrap. ring.
Qed.

Lemma gsum_near log sk E m bs : 1 <= log -> 0 <= E -> forall vs g, length vs = N ->
  (forall t b, nth_error bs t = Some b -> pn E (glwe_phase N sk b) (pscale (g * 2 ^ (log * Z.of_nat t)) m)) ->
  pn (Z.of_nat (length bs) * (2 ^ (log - 1) * (Z.of_nat N * E))) (gsum log sk vs bs)
     (pmul N (pscale g (coef (map (fun v => radix_value log (sdigs log (length bs) v)) vs))) m).
Proof.
  intros Hl HE. induction bs as [|b bs IH]; intros vs g Hv Hb; cbn [gsum length].
  - change (Z.of_nat 0 * _) with 0. apply pnear_refl.
    assert (coef (map (fun v => radix_value log (sdigs log 0 v)) vs) == p0) as -> by (apply coef_zeros, map_0).
    assert (pscale g p0 == p0) as ->. { intros k _. unfold pscale, p0. apply zeq_refl'. ring. } ring.
  - apply (pnear_weaken _ _ (2 ^ (log - 1) * (Z.of_nat N * E) + Z.of_nat (length bs) * (2 ^ (log - 1) * (Z.of_nat N * E)))); [lia|].
    eapply pnear_peq; [reflexivity| |apply pnear_add; [|apply (IH (map (snext log) vs) (g * 2 ^ log))]].
    2:{ apply (pnear_mul N w (2 ^ (log - 1)) E (coef (map (sdig log) vs)) (glwe_phase N sk b) (pscale g m)).
        - pose proof (pow_pos' (log - 1) ltac:(lia)). lia.
        - intros k Hk. unfold coef. rewrite nth_map0 by lia. pose proof (sdig_range log (nth k vs 0) Hl). lia.
        - eapply pnear_peq; [reflexivity| |apply (Hb O b eq_refl)]. change (Z.of_nat 0) with 0. rewrite Z.mul_0_r, Z.pow_0_r, Z.mul_1_r. reflexivity. }
    2:{ now rewrite map_length. }
    2:{ intros t b' Ht. eapply pnear_peq; [reflexivity| |apply (Hb (S t) b' Ht)].
        replace (g * 2 ^ log * 2 ^ (log * Z.of_nat t)) with (g * 2 ^ (log * Z.of_nat (S t))); [reflexivity|].
        rewrite <- Z.mul_assoc, <- Z.pow_add_r by nia. do 2 f_equal. lia. }
    rewrite map_map.
    assert (coef (map (fun v => radix_value log (sdigs log (S (length bs)) v)) vs) ==
            padd (coef (map (sdig log) vs)) (pscale (2 ^ log) (coef (map (fun x => radix_value log (sdigs log (length bs) (snext log x))) vs)))) as ->.
    { intros k Hk. unfold coef, padd, pscale. rewrite !nth_map0 by lia. cbn [sdigs radix_value]. reflexivity. }
    rewrite (pscale_as_mul N (2 ^ w) g m), (pscale_as_mul N (2 ^ w) g (padd _ _)), (pscale_as_mul N (2 ^ w) (g * 2 ^ log)).
    assert (pscale (g * 2 ^ log) p1 == pmul N (pscale g p1) (pscale (2 ^ log) p1)) as ->.
    { rewrite <- pscale_as_mul, pscale_pscale. reflexivity. }
    rewrite (pscale_as_mul N (2 ^ w) (2 ^ log) (coef _)). ring.
Qed.

Lemma nth_error_rev {A} (l : list A) t x : nth_error (rev l) t = Some x -> (t < length l)%nat /\ nth_error l (length l - 1 - t) = Some x.
Proof.
  intros H. assert (Ht : (t < length l)%nat). { rewrite <- rev_length. apply nth_error_Some. congruence. } split; [assumption|].
  rewrite (nth_error_nth' l x) by lia. rewrite <- H. symmetry.
  rewrite (nth_error_nth' (rev l) x) by (rewrite rev_length; lia). rewrite rev_nth by assumption. do 2 f_equal. lia.
Qed.

Lemma glev_mad_ok pr log count k c a glev : is_pow2 N = true -> word w -> 1 <= log -> (1 <= count)%nat -> log * Z.of_nat count < w ->
  poly_wf w N a -> length glev = count -> Forall (glwe_shape N k) glev -> glwe_shape N k c ->
  exists c', glev_mad pr w log count N k c a glev = Ok c' /\ glwe_shape N k c' /\ (glwe_wf w N k c -> glwe_wf w N k c') /\
    forall sk m M E, 0 <= E -> l1bnd N M m -> glev_enc N k w log E sk m glev ->
      pn (gadget_bound N count w log M E) (glwe_phase N sk c') (padd (glwe_phase N sk c) (pmul N (coef a) m)).
Proof.
  intros Hp Hw Hl Hc Hs [La Ta] Hlen Hall Sc. pose proof (word_pos w Hw). unfold glev_mad, radix_new.
  destruct (Z.ltb_spec (log * Z.of_nat count) w); [|lia]. destruct (Z.eqb_spec (log * Z.of_nat count) 0); [nia|]. cbn [andb negb].
  rewrite (mapM_ok _ (rnd w log count)).
  2:{ intros x Hx. apply radix_round_ok; try assumption. apply (proj1 (Forall_forall _ _) Ta x Hx). }
  cbn [bind].
  assert (Tr : toruses w (map (rnd w log count) a)).
  { apply Forall_forall. intros y Hy. apply in_map_iff in Hy as (x & <- & Hx). apply rnd_torus; try assumption. apply (proj1 (Forall_forall _ _) Ta x Hx). }
  destruct (glev_mad_loop_ok pr log count k (rev glev) Hp Hw ltac:(nia) (map (rnd w log count) a) 0 (zpoly N) c) as (c' & E1 & S1 & T1 & P1); try assumption.
  { now rewrite map_length. } { rewrite rev_length. lia. } { now apply Forall_rev. }
  exists c'. split; [assumption|]. split; [assumption|]. split; [assumption|].
  intros sk m M E HE HM Henc. eapply pnear_peq; [symmetry; apply P1|reflexivity|].
  apply (pnear_weaken _ _ (0 + gadget_bound N count w log M E)); [lia|]. apply pnear_add; [apply pnear_refl; reflexivity|].
  unfold gadget_bound. rewrite Z.add_comm. set (s := w - log * Z.of_nat count).
  assert (G := gsum_near log sk E m (rev glev) Hl HE (map (rnd w log count) a) (2 ^ s)). rewrite rev_length, Hlen in G.
  eapply pnear_trans; [apply G|].
  - now rewrite map_length.
  - intros t b Ht. apply nth_error_rev in Ht as [Ht Hn]. destruct (Henc _ _ Hn) as [_ Hne].
    replace (2 ^ s * 2 ^ (log * Z.of_nat t)) with (2 ^ (w - log * (Z.of_nat (length glev - 1 - t) + 1))); [assumption|].
    rewrite <- Z.pow_add_r by nia. f_equal. unfold s. nia.
  - apply pnear_mul_l1; [|assumption|].
    { pose proof (pow_pos' (s - 1) ltac:(unfold s; lia)). lia. }
    assert (pscale (2 ^ s) (coef (map (fun v => radix_value log (sdigs log count v)) (map (rnd w log count) a))) ==
            coef (map (fun x => radix_value log (sdigs log count (rnd w log count x)) * 2 ^ s) a)) as Ec.
    { intros k' Hk'. unfold pscale, coef. rewrite map_map, !nth_map0 by lia. apply zeq_refl'. ring. }
    eapply pnear_peq; [symmetry; exact Ec|reflexivity|]. apply pnear_lists; [now rewrite map_length|].
    clear - La Hw Hl Hc Hs. clear La. induction a as [|x a IH]; cbn [map]; constructor; auto. now apply digits_value.
Qed.

Lemma rows_mad_ok pr log count k polys rows : is_pow2 N = true -> word w -> 1 <= log -> (1 <= count)%nat -> log * Z.of_nat count < w ->
  Forall (poly_wf w N) polys -> length polys = length rows -> Forall (fun r => length r = count /\ Forall (glwe_shape N k) r) rows ->
  forall c, glwe_shape N k c ->
  exists c', rows_mad pr w log count N k c polys rows = Ok c' /\ glwe_shape N k c' /\ (glwe_wf w N k c -> glwe_wf w N k c') /\
    forall sk ms Ms E, 0 <= E -> Forall2 (l1bnd N) Ms ms -> Forall2 (glev_enc N k w log E sk) ms rows ->
      pn (fold_right Z.add 0 (map (fun M => gadget_bound N count w log M E) Ms)) (glwe_phase N sk c') (padd (glwe_phase N sk c) (pdotp N polys ms)).
Proof.
  intros Hp Hw Hl Hc Hs. revert rows. induction polys as [|a polys IH]; intros [|r rows] Ha Hlen Hr c Sc; cbn [length] in Hlen; try lia; cbn [rows_mad].
  - exists c. split; [reflexivity|]. split; [assumption|]. split; [auto|]. intros sk ms Ms E HE HM Henc. inversion Henc; subst. inversion HM; subst. cbn [map fold_right pdotp].
    apply pnear_refl. ring.
  - apply Forall_cons_iff in Ha as [Ha1 Ha]. apply Forall_cons_iff in Hr as [[Hr1 Hr2] Hr].
    destruct (glev_mad_ok pr log count k c a r) as (c1 & E1 & S1 & T1 & P1); try assumption. rewrite E1. cbn [bind].
    destruct (IH rows Ha ltac:(lia) Hr c1 S1) as (c' & E2 & S2 & T2 & P2).
    exists c'. split; [assumption|]. split; [assumption|]. split; [auto|].
    intros sk ms Ms E HE HM Henc. inversion Henc as [|m r' ms' rows' Hm Henc']; subst. inversion HM as [|M m' Ms' ms'' HM1 HM2]; subst. cbn [map fold_right pdotp].
    rewrite Z.add_comm. eapply pnear_trans; [apply (P2 sk ms' Ms' E); assumption|].
    eapply pnear_peq; [reflexivity| |apply (pnear_weaken N w (gadget_bound N (length r) w log M E + 0)); [lia|]; apply pnear_add; [apply (P1 sk m M E); assumption|apply pnear_refl; reflexivity]].
    ring.
Qed.

(** ** The external product *)

Lemma pdotp_app a b m n : length a = length m -> pdotp N (a ++ b) (m ++ n) == padd (pdotp N a m) (pdotp N b n).
Proof. revert m. induction a as [|x a IH]; intros [|y m] H; cbn [length] in H; try lia; cbn [app pdotp]; [ring|]. rewrite IH by lia. ring. Qed.
Lemma pdotp_scaled m a sk : length a = length sk ->
  pdotp N a (map (fun s => popp (pmul N m (coef s))) sk) == popp (pmul N m (pdots N a sk)).
Proof. revert sk. induction a as [|x a IH]; intros [|s sk] H; cbn [length] in H; try lia; cbn [map pdotp pdots]; [ring|]. rewrite IH by lia. ring. Qed.
Lemma pdotp_key a sk : length a = length sk -> pdotp N a (map coef sk) == pdots N a sk.
Proof. revert sk. induction a as [|x a IH]; intros [|s sk] H; cbn [length] in H; try lia; cbn [map pdotp pdots]; [ring|]. rewrite IH by lia. ring. Qed.

Lemma rows_split {A} k (g : list A) : length g = S k -> exists rows r, g = rows ++ [r] /\ length rows = k.
Proof.
  intros H. exists (firstn k g). destruct (nth_error g k) as [r|] eqn:E; [|apply nth_error_None in E; lia]. exists r. split; [|rewrite firstn_length; lia].
  rewrite <- (firstn_skipn k g) at 1. f_equal. assert (L : length (skipn k g) = 1%nat) by (rewrite skipn_length; lia).
  rewrite <- (firstn_skipn k g) in E. rewrite nth_error_app2 in E by (rewrite firstn_length; lia).
  rewrite firstn_length in E. replace (k - Nat.min k (length g))%nat with 0%nat in E by lia.
  destruct (skipn k g) as [|y [|]]; cbn [length] in L; try lia. cbn in E. congruence.
Qed.

Lemma Forall2_len {A B} (R : A -> B -> Prop) l l' : Forall2 R l l' -> length l = length l'.
Proof. induction 1; cbn [length]; congruence. Qed.
Lemma Forall2_nth {A B} (R : A -> B -> Prop) l l' : length l = length l' -> (forall i x y, nth_error l i = Some x -> nth_error l' i = Some y -> R x y) -> Forall2 R l l'.
Proof.
  revert l'. induction l as [|x l IH]; intros [|y l'] Hl H; cbn [length] in Hl; try lia; constructor.
  - apply (H O x y eq_refl eq_refl).
  - apply IH; [lia|]. intros i x' y' Hx Hy. apply (H (S i) x' y' Hx Hy).
Qed.
Lemma ggsw_rows k count log E sk m g : length sk = k -> ggsw_enc N k count w log E sk m g ->
  Forall2 (glev_enc N k w log E sk) (map (fun s => popp (pmul N m (coef s))) sk ++ [m]) g.
Proof.
  intros Hk (Lg & _ & H1 & H2). destruct (rows_split k g Lg) as (rows & r & -> & Lr). apply Forall2_app.
  - assert (H : forall i s r', nth_error sk i = Some s -> nth_error rows i = Some r' -> glev_enc N k w log E sk (popp (pmul N m (coef s))) r').
    { intros i s r' Hs Hr. apply (H1 i s r' Hs). rewrite nth_error_app1; [assumption|]. apply nth_error_Some. congruence. }
    apply Forall2_nth; [rewrite map_length; congruence|]. intros i x y Hx Hy. rewrite nth_error_map in Hx. destruct (nth_error sk i) as [s|] eqn:Es; [|discriminate].
    cbn [option_map] in Hx. inversion Hx; subst x. now apply (H i).
  - constructor; [|constructor]. apply H2. rewrite nth_error_app2 by lia. rewrite Lr, Nat.sub_diag. reflexivity.
Qed.

(** The noise an external product adds. *)
Definition extprod_bound (k count : nat) (log S M E : Z) : Z :=
  Z.of_nat k * gadget_bound N count w log (M * S) E + gadget_bound N count w log M E.

Lemma fold_repeat f (l : list (list Z)) (z : Z) : fold_right Z.add 0 (map f (map (fun _ => z) l)) = Z.of_nat (length l) * f z.
Proof. induction l; cbn [map fold_right length]; [reflexivity|]. rewrite IHl. lia. Qed.
Lemma fold_app a b : fold_right Z.add 0 (a ++ b) = fold_right Z.add 0 a + fold_right Z.add 0 b.
Proof. induction a; cbn [app fold_right]; lia. Qed.

Lemma glwe_ggsw_mad_ok pr log count k c a g : is_pow2 N = true -> word w -> 1 <= log -> (1 <= count)%nat -> log * Z.of_nat count < w ->
  glwe_shape N k c -> glwe_wf w N k a -> length g = S k -> Forall (fun r => length r = count /\ Forall (glwe_shape N k) r) g ->
  exists c', glwe_ggsw_mad pr w log count N k c a g = Ok c' /\ glwe_shape N k c' /\ (glwe_wf w N k c -> glwe_wf w N k c') /\
    forall sk m S M E, 0 <= E -> length sk = k -> Forall (fun s => l1bnd N S (coef s)) sk -> l1bnd N M m -> ggsw_enc N k count w log E sk m g ->
      pn (extprod_bound k count log S M E) (glwe_phase N sk c') (padd (glwe_phase N sk c) (pmul N m (glwe_phase N sk a))).
Proof.
  intros Hp Hw Hl Hc Hs Sc ([Sa La] & Fa & Ta) Lg Hg. unfold glwe_ggsw_mad. destruct Sa as [Lga Fga].
  destruct (rows_mad_ok pr log count k (ga a ++ [gb a]) g Hp Hw Hl Hc Hs) with (c := c) as (c' & E1 & S1 & T1 & P1); try assumption.
  { apply Forall_app. split; [|constructor; [split; assumption|constructor]]. apply Forall_forall. intros x Hx. split; [apply (proj1 (Forall_forall _ _) Fga x Hx)|apply (proj1 (Forall_forall _ _) Fa x Hx)]. }
  { rewrite app_length. cbn [length]. lia. }
  exists c'. split; [assumption|]. split; [assumption|]. split; [assumption|].
  intros sk m S0 M E HE Hk HS HM Henc.
  specialize (P1 sk (map (fun s => popp (pmul N m (coef s))) sk ++ [m]) (map (fun _ => M * S0) sk ++ [M]) E HE).
  rewrite map_app, fold_app, fold_repeat, Hk in P1. cbn [map fold_right] in P1. rewrite Z.add_0_r in P1. unfold extprod_bound.
  eapply pnear_peq; [reflexivity| |apply P1].
  - rewrite pdotp_app by (rewrite map_length; congruence). rewrite pdotp_scaled by congruence. cbn [pdotp]. unfold glwe_phase at 3. ring.
  - apply Forall2_app; [|constructor; [assumption|constructor]]. clear P1 Hk Henc. induction HS as [|s sk Hs1 HS IH]; cbn [map]; constructor; auto.
    apply l1bnd_opp. now apply l1bnd_mul.
  - now apply ggsw_rows with (count := count).
Qed.

Lemma ggsw_valid_iff k count g : ggsw_valid N k count g = true <-> length g = S k /\ Forall (fun r => length r = count /\ Forall (glwe_shape N k) r) g.
Proof.
  unfold ggsw_valid. rewrite andb_true_iff, Nat.eqb_eq. rewrite (Nat.add_comm k 1). cbn [plus]. apply and_iff_compat_l. rewrite forallb_forall, Forall_forall.
  split; intros H r Hr; specialize (H r Hr).
  - unfold glev_valid in H. apply andb_true_iff in H as [H1 H2]. split; [now apply Nat.eqb_eq|]. apply Forall_forall. intros x Hx.
    apply glwe_valid_iff. now apply (proj1 (forallb_forall _ _) H2).
  - destruct H as [H1 H2]. unfold glev_valid. apply andb_true_iff. split; [now apply Nat.eqb_eq|]. apply forallb_forall. intros x Hx.
    apply glwe_valid_iff. apply (proj1 (Forall_forall _ _) H2 x Hx).
Qed.

(** ** Key switching *)

Lemma glwe_keyswitch_ok h pr log count k out ct ksk : is_pow2 N = true -> word w -> sub_exact h pr w -> 1 <= log -> (1 <= count)%nat -> log * Z.of_nat count < w ->
  glwe_shape N k out -> glwe_wf w N k ct -> length ksk = k -> Forall (fun r => length r = count /\ Forall (glwe_shape N k) r) ksk ->
  exists c', glwe_keyswitch h pr w log count N k out ct ksk = Ok c' /\ glwe_wf w N k c' /\
    forall oldsk newsk S E, 0 <= E -> Forall (fun s => l1bnd N S (coef s)) oldsk -> gksk_enc N k count w log E oldsk newsk ksk ->
      pn (Z.of_nat k * gadget_bound N count w log S E) (glwe_phase N newsk c') (glwe_phase N oldsk ct).
Proof.
  intros Hp Hw Hx Hl Hc Hs So ([Sa La] & Fa & Ta) Lk Hk. pose proof (word_pos w Hw). unfold glwe_keyswitch. destruct Sa as [Lga Fga].
  destruct (rows_mad_ok pr log count k (ga ct) ksk Hp Hw Hl Hc Hs) with (c := glwe_new N k) as (c1 & E1 & S1 & T1 & P1); try assumption.
  { apply Forall_forall. intros x Hx'. split; [apply (proj1 (Forall_forall _ _) Fga x Hx')|apply (proj1 (Forall_forall _ _) Fa x Hx')]. }
  { congruence. } { apply glwe_new_shape. }
  rewrite E1. cbn [bind]. destruct (glwe_trivial_ok N w k (glwe_new N k) (gb ct) (glwe_new_shape N k) La) as (St & _ & Tt & Pt).
  destruct (glwe_sub_ok N w k h pr out (glwe_trivial (glwe_new N k) (gb ct)) c1 Hw Hx So) as (c' & E2 & W2 & P2).
  { apply Tt; [lia|assumption]. } { apply T1. apply glwe_new_wf. lia. }
  exists c'. split; [assumption|]. split; [assumption|].
  intros oldsk newsk S0 E HE HS Henc. assert (Lo : length oldsk = k). { apply Forall2_len in Henc. congruence. }
  eapply pnear_peq; [symmetry; apply P2|reflexivity|].
  assert (HM : Forall2 (l1bnd N) (map (fun _ => S0) oldsk) (map coef oldsk)). { clear - HS. induction HS; cbn [map]; constructor; auto. }
  assert (HR : Forall2 (glev_enc N k w log E newsk) (map coef oldsk) ksk). { clear - Henc. induction Henc as [|s r a b [_ H] F IH]; cbn [map]; constructor; auto. }
  specialize (P1 newsk (map coef oldsk) (map (fun _ => S0) oldsk) E HE HM HR). rewrite fold_repeat, Lo in P1.
  rewrite <- (Z.add_0_l (Z.of_nat k * _)).
  eapply pnear_peq; [reflexivity| |apply pnear_sub; [apply pnear_refl, Pt|exact P1]].
  rewrite glwe_phase_new, pdotp_key by congruence. unfold glwe_phase. ring.
Qed.
End P.
