(** Proofs about scheme switching. *)
From Verif Require Import Base Alu AluProofs MuxGraph MuxGraphProofs PolyRing Tfhe TfheGlwe TfheBoot TfheTrace TfheSwitch SpecTfhe SpecGlwe SpecBoot SpecTrace SpecSwitch FluentIntProofs TfheProofs TfheProofs2 TfheProofs3 TfheGlweProofs TfheGlweProofs2 TfheGlweProofs3 TfheGlweProofs4 TfheBootProofs TfheBootProofs2 TfheBootProofs3 TfheBootProofs4 TfheTraceProofs TfheTraceProofs2.
Ltac Zify.zify_post_hook ::= idtac.
Open Scope Z_scope.

(** ** Triangular indices *)

Lemma tri_S n : (S n * (S n + 1) / 2 = n * (n + 1) / 2 + S n)%nat.
Proof. replace (S n * (S n + 1))%nat with (n * (n + 1) + S n * 2)%nat by lia. now rewrite Nat.div_add by lia. Qed.
Lemma tri_mono n m : (n <= m)%nat -> (n * (n + 1) / 2 <= m * (m + 1) / 2)%nat.
Proof. intros H. apply Nat.div_le_mono; [lia|]. nia. Qed.
Lemma tri_pairs_len {A} (l : list A) : length (tri_pairs l) = tri_count (length l).
Proof.
  unfold tri_count. induction l as [|x l IH]; [reflexivity|]. cbn [tri_pairs]. rewrite app_length, map_length, IH. cbn [length]. rewrite (tri_S (length l)). lia.
Qed.
Lemma tri_pairs_nth {A} (l : list A) i j x y : (i <= j)%nat -> nth_error l i = Some x -> nth_error l j = Some y ->
  nth_error (tri_pairs l) (length l * (length l + 1) / 2 - (length l - i) * ((length l - i) + 1) / 2 + j - i) = Some (x, y).
Proof.
  revert i j. induction l as [|z l IH]; intros i j Hij Hi Hj; [destruct i; discriminate|].
  assert (Lj : (j < length (z :: l))%nat) by (apply nth_error_Some; congruence). cbn [tri_pairs].
  destruct i as [|i].
  - cbn [nth_error] in Hi. injection Hi as ->. replace (length (x :: l) - 0)%nat with (length (x :: l)) by lia.
    rewrite Nat.sub_diag. cbn [Nat.add]. rewrite Nat.sub_0_r. rewrite nth_error_app1 by now rewrite map_length. now rewrite nth_error_map, Hj.
  - destruct j as [|j]; [lia|]. cbn [nth_error] in Hi, Hj. cbn [length] in *. pose proof (tri_mono (length l - i) (length l) ltac:(lia)) as M.
    rewrite (tri_S (length l)). replace (S (length l) - S i)%nat with (length l - i)%nat by lia.
    rewrite nth_error_app2 by (rewrite map_length; cbn [length]; lia). rewrite map_length. cbn [length].
    rewrite <- (IH i j ltac:(lia) Hi Hj). f_equal. lia.
Qed.
Lemma linear_index_ok {A} (l : list A) i j x y : nth_error l i = Some x -> nth_error l j = Some y ->
  exists idx, linear_index i j (length l) = Ok idx /\ nth_error (tri_pairs l) idx = Some (if (i <=? j)%nat then (x, y) else (y, x)).
Proof.
  intros Hi Hj. assert (Li : (i < length l)%nat) by (apply nth_error_Some; congruence). assert (Lj : (j < length l)%nat) by (apply nth_error_Some; congruence).
  unfold linear_index. rewrite (proj2 (Nat.ltb_lt _ _) Li), (proj2 (Nat.ltb_lt _ _) Lj). cbn [andb].
  destruct (Nat.leb_spec i j); (eexists; split; [reflexivity|]); apply tri_pairs_nth; try assumption; lia.
Qed.
Lemma skipn_cons {A} (l : list A) i x : nth_error l i = Some x -> skipn i l = x :: skipn (i + 1) l.
Proof. revert i. induction l as [|y l IH]; intros [|i] H; cbn in *; try discriminate; [congruence|]. now apply IH. Qed.
Lemma tri_collect_ok {A} (items : list A) fuel : forall o i x, nth_error items o = Some x -> (o <= i < length items)%nat ->
  tri_collect items (o, i) fuel = Ok (firstn fuel (map (fun y => (x, y)) (skipn i items) ++ tri_pairs (skipn (o + 1) items))).
Proof.
  induction fuel as [|fuel IH]; intros o i x Ho Hi; [reflexivity|]. cbn [tri_collect]. unfold tri_next.
  destruct (Nat.leb_spec (length items) o); [lia|]. rewrite Ho. destruct (nth_error items i) as [y|] eqn:Ey; [|apply nth_error_None in Ey; lia].
  cbn [bind]. rewrite (skipn_cons items i y Ey). cbn [map app firstn].
  destruct (Nat.leb_spec (length items) (i + 1)).
  - rewrite (skipn_all2 items) by lia. cbn [map app].
    destruct (nth_error items (o + 1)) as [x'|] eqn:Ex.
    + assert (o + 1 < length items)%nat by (apply nth_error_Some; congruence). rewrite (IH (o + 1)%nat (o + 1)%nat x' Ex ltac:(lia)). cbn [bind].
      do 3 f_equal. rewrite (skipn_cons items (o + 1) x' Ex) at 2. cbn [tri_pairs]. now rewrite <- (skipn_cons items (o + 1) x' Ex).
    + apply nth_error_None in Ex. rewrite (skipn_all2 items) by lia. cbn [tri_pairs]. rewrite firstn_nil.
      destruct fuel as [|fuel]; [reflexivity|]. cbn [tri_collect]. unfold tri_next. destruct (Nat.leb_spec (length items) (o + 1)); [reflexivity|lia].
  - rewrite (IH o (i + 1)%nat x Ho ltac:(lia)). reflexivity.
Qed.
Lemma tri_collect_all {A} (items : list A) fuel : tri_collect items (0, 0)%nat fuel = Ok (firstn fuel (tri_pairs items)).
Proof.
  destruct items as [|x items]; [destruct fuel; reflexivity|]. rewrite (tri_collect_ok (x :: items) fuel 0 0 x eq_refl) by (cbn; lia). reflexivity.
Qed.

Lemma setnth_len {A} (l : list A) i x : length (setnth l i x) = length l.
Proof. revert i. induction l; intros [|i]; cbn [setnth length]; auto. Qed.
Lemma setnth_Forall {A} (P : A -> Prop) l i x : Forall P l -> P x -> Forall P (setnth l i x).
Proof. intros H Hx. revert i. induction H; intros [|i]; cbn [setnth]; constructor; auto. Qed.
Lemma setnth_twice {A} (l : list A) i x y : setnth (setnth l i x) i y = setnth l i y.
Proof. revert i. induction l; intros [|i]; cbn [setnth]; congruence. Qed.
Lemma setnth_repeat {A} n i (x : A) : setnth (repeat x n) i x = repeat x n.
Proof. revert i. induction n; intros [|i]; cbn [setnth repeat]; congruence. Qed.

Section P.
Context (N : nat) (w : Z).
Notation "f == g" := (peq N (2 ^ w) f g) (at level 70).
Notation pn := (pnear N w).
Local Existing Instances peq_equiv padd_mor popp_mor psub_mor pscale_mor pmul_mor.
Add Ring poly_ring_sw : (poly_ring N (2 ^ w)) (setoid (peq_equiv N (2 ^ w)) (poly_ring_ext N (2 ^ w))).

Lemma pdots_set a j p s sk : length a = length sk -> nth_error sk j = Some s ->
  pdots N (setnth a j p) sk == padd (pdots N (setnth a j (zpoly N)) sk) (pmul N (coef p) (coef s)).
Proof.
  revert a j. induction sk as [|t sk IH]; intros [|x a] [|j] L H; cbn [length] in L; try discriminate; cbn [setnth pdots nth_error] in *.
  - injection H as ->. assert (Z0 : coef (zpoly N) == p0). { apply coef_zeros. unfold zpoly. apply Forall_forall. intros y Hy. symmetry. exact (repeat_spec _ _ _ Hy). }
    rewrite Z0. ring.
  - rewrite (IH a j ltac:(lia) H). ring.
Qed.

Lemma ss_mads_rows pr log count k ssk j polys : forall r c rows, length rows = length polys ->
  (forall i g, nth_error rows i = Some g -> exists idx, linear_index j (r + i) k = Ok idx /\ nth_error ssk idx = Some g) ->
  ss_mads pr w log count N k ssk j r polys c = rows_mad pr w log count N k c polys rows.
Proof.
  induction polys as [|a polys IH]; intros r c [|g rows] L H; try discriminate; [reflexivity|]. cbn [ss_mads rows_mad].
  destruct (H O g eq_refl) as (idx & E1 & E2). rewrite Nat.add_0_r in E1. rewrite E1. cbn [bind]. rewrite E2.
  destruct (glev_mad _ _ _ _ _ _ _ _ _); cbn [bind]; try reflexivity. apply IH; [cbn in L; lia|].
  intros i g' Hg. destruct (H (S i) g' Hg) as (idx' & Q1 & Q2). exists idx'. split; [|assumption]. now replace (S r + i)%nat with (r + S i)%nat by lia.
Qed.

(** The key row used for row [j]: entries (j, 0), ..., (j, k-1). *)
Lemma ssk_rows k count log E sk ssk j s : length sk = k -> ssk_enc N k count w log E sk ssk -> nth_error sk j = Some s ->
  exists rows, length rows = k /\ Forall (fun r => length r = count /\ Forall (glwe_shape N k) r) rows /\
    (forall i g, nth_error rows i = Some g -> exists idx, linear_index j i k = Ok idx /\ nth_error ssk idx = Some g) /\
    Forall2 (glev_enc N k w log E sk) (map (fun t => pmul N (coef s) (coef t)) sk) rows.
Proof.
  intros Lk He Hs.
  assert (G : forall n, (n <= k)%nat -> exists rows, length rows = n /\ Forall (fun r => length r = count /\ Forall (glwe_shape N k) r) rows /\
    (forall i g, nth_error rows i = Some g -> exists idx, linear_index j i k = Ok idx /\ nth_error ssk idx = Some g) /\
    Forall2 (glev_enc N k w log E sk) (map (fun t => pmul N (coef s) (coef t)) (firstn n sk)) rows).
  { induction n as [|n IH]; intros Hn.
    - exists []. repeat (split; [constructor || reflexivity|]). split; [intros [|i]; discriminate|constructor].
    - destruct (IH ltac:(lia)) as (rows & L & F & Q & En). destruct (nth_error sk n) as [t|] eqn:Et; [|apply nth_error_None in Et; lia].
      destruct (linear_index_ok sk j n s t Hs Et) as (idx & Ei & Ep). rewrite Lk in Ei.
      destruct (nth_error ssk idx) as [g|] eqn:Eg.
      2:{ exfalso. apply nth_error_None in Eg. pose proof (Forall2_len _ _ _ He) as FL. assert (idx < length (tri_pairs sk))%nat by (apply nth_error_Some; congruence). lia. }
      destruct (Forall2_nth_r _ _ _ idx _ g He Ep Eg) as (Sg & Eng).
      exists (rows ++ [g]). split; [rewrite app_length; cbn; lia|]. split; [apply Forall_app; split; [assumption|constructor; [assumption|constructor]]|]. split.
      + intros i g' Hg. destruct (Nat.lt_ge_cases i (length rows)).
        * rewrite nth_error_app1 in Hg by assumption. now apply Q.
        * rewrite nth_error_app2 in Hg by assumption. destruct (i - length rows)%nat as [|m] eqn:Em; [|destruct m; discriminate].
          cbn in Hg. injection Hg as <-. exists idx. split; [|assumption]. now replace i with n by lia.
      + assert (Ef : firstn (S n) sk = firstn n sk ++ [t]).
        { clear - Et. revert sk Et. induction n as [|n IH]; intros [|z sk] H; try discriminate; cbn in *; [congruence|]. f_equal. now apply IH. }
        rewrite Ef, map_app. apply Forall2_app; [assumption|]. constructor; [|constructor].
        destruct (j <=? n)%nat; cbn [fst snd] in Eng; [exact Eng|]. eapply glev_enc_peq; [|exact Eng]. ring. }
  destruct (G k (le_n k)) as (rows & L & F & Q & En). rewrite firstn_all2 in En by lia. exists rows. auto.
Qed.

Lemma pdotp_common a sk s : length a = length sk -> pdotp N a (map (fun t => pmul N (coef s) (coef t)) sk) == pmul N (pdots N a sk) (coef s).
Proof.
  revert sk. induction a as [|x a IH]; intros [|t sk] L; try discriminate; cbn [pdotp map pdots]; [ring|]. rewrite IH by (cbn in L; lia). ring.
Qed.

(** One entry of the output: the body moves to mask position [j], and the products are accumulated. *)
Lemma ss_entry_ok pr log count k sk ssk E j s x y : word w -> is_pow2 N = true -> 1 <= log -> (1 <= count)%nat -> log * Z.of_nat count < w -> 0 <= E ->
  polys_shape N k sk -> binary_polys sk -> ssk_enc N k count w log E sk ssk -> nth_error sk j = Some s -> glwe_wf w N k x -> glwe_shape N k y ->
  exists y0 r, fill_a N k y (gb x) j = Ok y0 /\ y0 = {| ga := setnth (ga y) j (gb x); gb := gb y |} /\ ss_mads pr w log count N k ssk j 0 (ga x) y0 = Ok r /\ glwe_shape N k r /\ (glwe_wf w N k y -> glwe_wf w N k r) /\
    pn (Z.of_nat k * gadget_bound N count w log (Z.of_nat N * Z.of_nat N) E) (glwe_phase N sk r)
       (padd (glwe_phase N sk {| ga := setnth (ga y) j (zpoly N); gb := gb y |}) (popp (pmul N (glwe_phase N sk x) (coef s)))).
Proof.
  intros Hw HP Hl Hc Hs HE Hsk Hb He Hj (((La & Fa) & Lb) & Ta & Tb) ((Ly & Fy) & Lyb). pose proof (word_pos w Hw) as Hwp. destruct Hsk as (Lsk & Fsk).
  assert (Hjk : (j < k)%nat) by (rewrite <- Lsk; apply nth_error_Some; congruence).
  unfold fill_a. rewrite (proj2 (Nat.ltb_lt _ _) Hjk), (proj2 (Nat.eqb_eq _ _) Lb). cbn [andb]. set (y0 := {| ga := setnth (ga y) j (gb x); gb := gb y |}).
  destruct (ssk_rows k count log E sk ssk j s Lsk He Hj) as (rows & Lr & Fr & Qr & Er).
  assert (Sy0 : glwe_shape N k y0) by (split; [split; [cbn [y0 ga]; now rewrite setnth_len|apply setnth_Forall; assumption]|assumption]).
  destruct (rows_mad_ok N w pr log count k (ga x) rows HP Hw Hl Hc Hs) with (c := y0) as (r & E1 & S1 & T1 & P1); try assumption.
  { apply Forall_forall. intros p Hp. split; [apply (proj1 (Forall_forall _ _) Fa p Hp)|apply (proj1 (Forall_forall _ _) Ta p Hp)]. }
  { congruence. }
  exists y0, r. split; [reflexivity|]. split; [reflexivity|]. split; [rewrite (ss_mads_rows pr log count k ssk j (ga x) 0 y0 rows); [assumption|congruence|exact Qr]|]. split; [assumption|]. split.
  { intros (_ & Tya & Tyb). apply T1. split; [assumption|]. split; [apply setnth_Forall; assumption|assumption]. }
  specialize (P1 sk (map (fun t => pmul N (coef s) (coef t)) sk) (repeat (Z.of_nat N * Z.of_nat N) k) E HE).
  assert (Bs : l1bnd N (Z.of_nat N) (coef s)).
  { apply nth_error_In in Hj. apply l1bnd_binary; [apply (proj1 (Forall_forall _ _) Fsk s Hj)|apply (proj1 (Forall_forall _ _) Hb s Hj)]. }
  assert (F2 : Forall2 (l1bnd N) (repeat (Z.of_nat N * Z.of_nat N) k) (map (fun t => pmul N (coef s) (coef t)) sk)).
  { rewrite <- Lsk. clear - Bs Fsk Hb. induction sk as [|t sk IH]; cbn [length repeat map]; constructor.
    - apply Forall_cons_iff in Fsk as [F1 _]. apply Forall_cons_iff in Hb as [B1 _]. apply l1bnd_mul; [assumption|now apply l1bnd_binary].
    - apply IH; [now apply Forall_cons_iff in Fsk as [_ F]|now apply Forall_cons_iff in Hb as [_ B]]. }
  specialize (P1 F2 Er).
  assert (Bd : fold_right Z.add 0 (map (fun M => gadget_bound N count w log M E) (repeat (Z.of_nat N * Z.of_nat N) k)) = Z.of_nat k * gadget_bound N count w log (Z.of_nat N * Z.of_nat N) E).
  { clear. induction k as [|n IH]; [reflexivity|]. cbn [repeat map fold_right]. rewrite IH. lia. }
  rewrite Bd in P1. eapply pnear_peq; [reflexivity| |exact P1].
  unfold glwe_phase. cbn [ga gb y0]. rewrite (pdots_set (ga y) j (gb x) s sk) by (congruence || assumption). rewrite pdotp_common by congruence. ring.
Qed.

Lemma neg_s_near k sk E0 s f g : polys_shape N k sk -> binary_polys sk -> In s sk -> 0 <= E0 -> pn E0 f g -> pn (Z.of_nat N * E0) (popp (pmul N f (coef s))) (popp (pmul N g (coef s))).
Proof.
  intros (_ & Fs) Hb Hin HE H. rewrite Z.mul_comm. apply pnear_opp. apply pnear_mul_l1; [assumption| |assumption].
  apply l1bnd_binary; [apply (proj1 (Forall_forall _ _) Fs s Hin)|apply (proj1 (Forall_forall _ _) Hb s Hin)].
Qed.

Section Loop.
Context (pr : profile) (log : Z) (count k : nat) (sk : list (list Z)) (ssk : list (list glwe)) (E : Z).
Context (Hw : word w) (HP : is_pow2 N = true) (Hl : 1 <= log) (Hc : (1 <= count)%nat) (Hs : log * Z.of_nat count < w) (HE : 0 <= E)
  (Hsk : polys_shape N k sk) (Hb : binary_polys sk) (He : ssk_enc N k count w log E sk ssk).
Let K := Z.of_nat k * gadget_bound N count w log (Z.of_nat N * Z.of_nat N) E.

Lemma ss_row_ok j s : nth_error sk j = Some s -> forall xs row enc p, length xs = length row -> Forall (glwe_wf w N k) xs ->
  poly_wf w N p -> enc = {| ga := setnth (repeat (zpoly N) k) j p; gb := zpoly N |} ->
  exists p' ys, ss_row pr w log count N k ssk j enc xs row = Ok ({| ga := setnth (repeat (zpoly N) k) j p'; gb := zpoly N |}, ys) /\ poly_wf w N p' /\
    Forall2 (fun x y => glwe_wf w N k y /\ pn K (glwe_phase N sk y) (popp (pmul N (glwe_phase N sk x) (coef s)))) xs ys.
Proof.
  intros Hj. induction xs as [|x xs IH]; intros [|y row] enc p L Fx Hp ->; try discriminate; cbn [ss_row].
  - exists p, []. split; [reflexivity|]. split; [assumption|constructor].
  - apply Forall_cons_iff in Fx as [Wx Fx]. set (enc := {| ga := setnth (repeat (zpoly N) k) j p; gb := zpoly N |}). pose proof (word_pos w Hw) as Hwp.
    pose proof (glwe_new_wf N w k ltac:(lia)) as ((Sn & Lnb) & Tna & Tnb). unfold glwe_new in Sn, Lnb, Tna, Tnb. cbn [ga gb] in Sn, Lnb, Tna, Tnb.
    assert (We : glwe_wf w N k enc).
    { split; [split; [split; [cbn [enc ga]; rewrite setnth_len; apply Sn|apply setnth_Forall; [apply Sn|apply Hp]]|assumption]|].
      split; [apply setnth_Forall; [assumption|apply Hp]|assumption]. }
    destruct (ss_entry_ok pr log count k sk ssk E j s x enc Hw HP Hl Hc Hs HE Hsk Hb He Hj Wx (proj1 We)) as (y0 & r & E1 & -> & E2 & S1 & W1 & P1).
    cbn [enc ga gb] in E1, E2, P1. fold enc in E1, E2. rewrite setnth_twice in E1, E2, P1. fold enc in E1. rewrite E1. cbn [bind]. rewrite E2. cbn [bind].
    destruct (IH row {| ga := setnth (repeat (zpoly N) k) j (gb x); gb := zpoly N |} (gb x)) as (p' & ys & E3 & Hp' & F3); [cbn in L; lia|assumption|split; [apply Wx|apply Wx]|reflexivity|].
    rewrite E3. cbn [bind]. exists p', (r :: ys). split; [reflexivity|]. split; [assumption|]. constructor; [|assumption]. split; [now apply W1|].
    rewrite setnth_repeat in P1. eapply pnear_peq; [reflexivity| |exact P1].
    pose proof (glwe_phase_new N w k sk) as Z0. unfold glwe_new in Z0. rewrite Z0. ring.
Qed.

Lemma ss_rows_ok glev cg E0 m : 0 <= E0 -> length glev = cg -> Forall (glwe_wf w N k) glev -> forall rows j enc p logg, (j + length rows = S k)%nat -> Forall (fun r => length r = cg) rows ->
  poly_wf w N p -> enc = {| ga := setnth (repeat (zpoly N) k) (if (j =? 0)%nat then k - 1 else j - 1) p; gb := zpoly N |} ->
  exists rows', ss_rows pr w log count N k ssk glev j enc rows = Ok rows' /\ length rows' = length rows /\
    Forall (fun r => length r = cg /\ Forall (glwe_wf w N k) r) rows' /\
    (glev_enc N k w logg E0 sk m glev -> forall i r, nth_error rows' i = Some r ->
      match nth_error sk (j + i) with
      | Some s => glev_enc N k w logg (ss_noise N k count w log E0 E) sk (popp (pmul N m (coef s))) r
      | None => r = glev
      end).
Proof.
  intros HE0 Lg Fg. induction rows as [|row rows IH]; intros j enc p logg Hlen Fr Hp ->; cbn [ss_rows].
  - exists []. split; [reflexivity|]. split; [reflexivity|]. split; [constructor|]. intros _ [|i]; discriminate.
  - cbn [length] in Hlen. apply Forall_cons_iff in Fr as [Lr Fr]. destruct (Nat.eqb_spec j k) as [->|Hjk].
    + assert (rows = []) as -> by (destruct rows; [reflexivity|cbn in Hlen; lia]). cbn [ss_rows bind]. exists [glev]. split; [reflexivity|]. split; [reflexivity|].
      split; [constructor; [split; assumption|constructor]|]. intros He' [|i] r Hr; cbn in Hr; [|destruct i; discriminate]. injection Hr as <-.
      destruct (nth_error sk (k + 0)) eqn:Es; [|reflexivity]. assert (k + 0 < length sk)%nat by (apply nth_error_Some; congruence). destruct Hsk. lia.
    + assert (Hlt : (j < k)%nat) by lia. unfold zero_a. destruct (Nat.ltb_spec (if (j =? 0)%nat then k - 1 else j - 1) k) as [_|Hbad]; [|destruct (j =? 0)%nat; lia].
      cbn [bind ga gb]. rewrite setnth_twice, setnth_repeat. destruct (nth_error sk j) as [s|] eqn:Es; [|apply nth_error_None in Es; destruct Hsk; lia].
      pose proof (word_pos w Hw) as Hwp.
      assert (Wz : poly_wf w N (zpoly N)). { unfold zpoly. split; [apply repeat_length|]. apply Forall_forall. intros y Hy. apply repeat_spec in Hy. subst. unfold torus. pose proof (pow_pos' w ltac:(lia)). lia. }
      destruct (ss_row_ok j s Es glev row {| ga := repeat (zpoly N) k; gb := zpoly N |} (zpoly N)) as (p' & ys & E1 & Hp' & F1); [congruence|assumption|assumption|now rewrite setnth_repeat|].
      rewrite E1. cbn [bind].
      destruct (IH (S j) {| ga := setnth (repeat (zpoly N) k) j p'; gb := zpoly N |} p' logg ltac:(lia) Fr Hp') as (rows' & E2 & L2 & F2 & P2).
      { cbn [Nat.eqb]. now replace (S j - 1)%nat with j by lia. }
      rewrite E2. cbn [bind]. exists (ys :: rows'). split; [reflexivity|]. split; [cbn; lia|]. split.
      * constructor; [|assumption]. split; [rewrite <- (Forall2_len _ _ _ F1); assumption|]. clear - F1. induction F1 as [|x y xs ys H F IH]; constructor; [apply H|assumption].
      * intros He' [|i] r Hr; cbn [nth_error] in Hr.
        -- injection Hr as <-. rewrite Nat.add_0_r, Es. intros i y Hy.
           destruct (nth_error glev i) as [x|] eqn:Ex; [|apply nth_error_None in Ex; rewrite (Forall2_len _ _ _ F1) in Ex; assert (i < length ys)%nat by (apply nth_error_Some; congruence); lia].
           destruct (Forall2_nth_r _ _ _ i x y F1 Ex Hy) as (Wy & Py). split; [apply Wy|]. destruct (He' i x Ex) as (_ & Px).
           unfold ss_noise. fold K. rewrite Z.add_comm. eapply pnear_trans; [exact Py|].
           eapply pnear_peq; [reflexivity| |apply (neg_s_near k sk E0 s _ _ Hsk Hb (nth_error_In _ _ Es) HE0 Px)].
           set (C := 2 ^ (w - logg * (Z.of_nat i + 1))). rewrite (pscale_as_mul N (2 ^ w) C m), (pscale_as_mul N (2 ^ w) C (popp (pmul N m (coef s)))). ring.
        -- specialize (P2 He' i r Hr). now replace (j + S i)%nat with (S j + i)%nat by lia.
Qed.

(** The FFT version: what is in the output is accumulated into, except mask polynomial [j]. *)
Lemma ss_op_fft_ok j s y x d D : nth_error sk j = Some s -> glwe_wf w N k x -> glwe_wf w N k y -> 0 <= D -> fft_err N k D d ->
  exists r, ss_op_fft pr w log count N k ssk j y x d = Ok r /\ glwe_wf w N k r /\
    pn (K + D * (1 + Z.of_nat k * Z.of_nat N)) (glwe_phase N sk r)
       (padd (glwe_phase N sk {| ga := setnth (ga y) j (zpoly N); gb := gb y |}) (popp (pmul N (glwe_phase N sk x) (coef s)))).
Proof.
  intros Hj Wx Wy HD Hd. unfold ss_op_fft. destruct Hsk as (Lsk & Fsk) eqn:EH. assert (j < length sk)%nat by (apply nth_error_Some; congruence).
  destruct (Nat.eqb_spec j k) as [->|_]; [lia|].
  destruct (ss_entry_ok pr log count k sk ssk E j s x y Hw HP Hl Hc Hs HE Hsk Hb He Hj Wx (proj1 Wy)) as (y0 & r & E1 & -> & E2 & S1 & W1 & P1).
  rewrite E1. cbn [bind]. rewrite E2. cbn [bind]. destruct (glwe_perturb_ok N w k r d Hw (W1 Wy) (proj1 Hd)) as (W2 & P2).
  exists (glwe_perturb w r d). split; [reflexivity|]. split; [assumption|].
  eapply pnear_peq; [symmetry; apply P2| |apply pnear_add; [exact P1|exact (fft_err_phase N w k D d sk HD Hd Hsk Hb)]]. ring.
Qed.
Lemma ss_row_fft_ok j s D : nth_error sk j = Some s -> 0 <= D -> forall xs row ds, length xs = length row -> Forall (glwe_wf w N k) xs -> Forall (glwe_wf w N k) row -> (forall i, fft_err N k D (ds i)) ->
  exists ys, ss_row_fft pr w log count N k ssk j xs row ds = Ok ys /\ length ys = length row /\ Forall (glwe_wf w N k) ys /\
    forall i x y y', nth_error xs i = Some x -> nth_error row i = Some y -> nth_error ys i = Some y' ->
      pn (K + D * (1 + Z.of_nat k * Z.of_nat N)) (glwe_phase N sk y')
       (padd (glwe_phase N sk {| ga := setnth (ga y) j (zpoly N); gb := gb y |}) (popp (pmul N (glwe_phase N sk x) (coef s)))).
Proof.
  intros Hj HD. induction xs as [|x xs IH]; intros [|y row] ds L Fx Fy Hd; try discriminate; cbn [ss_row_fft].
  - exists []. repeat (split; [constructor || reflexivity|]). intros [|i]; discriminate.
  - apply Forall_cons_iff in Fx as [Wx Fx]. apply Forall_cons_iff in Fy as [Wy Fy].
    destruct (ss_op_fft_ok j s y x (ds O) D Hj Wx Wy HD (Hd O)) as (r & E1 & W1 & P1). rewrite E1. cbn [bind].
    destruct (IH row (fun i => ds (S i))) as (ys & E2 & L2 & F2 & P2); [cbn in L; lia|assumption|assumption|intros; apply Hd|]. rewrite E2. cbn [bind].
    exists (r :: ys). split; [reflexivity|]. split; [cbn; lia|]. split; [constructor; assumption|]. intros [|i] x' y' z Hx Hy Hz; cbn [nth_error] in *.
    + injection Hx as <-. injection Hy as <-. injection Hz as <-. exact P1.
    + eapply P2; eassumption.
Qed.
Lemma ss_last_fft_ok D : 0 <= D -> forall xs row ds, length xs = length row -> Forall (glwe_wf w N k) xs -> (forall i, fft_err N k D (ds i)) ->
  exists ys, ss_row_fft pr w log count N k ssk k xs row ds = Ok ys /\ length ys = length row /\ Forall (glwe_wf w N k) ys /\
    forall i x y', nth_error xs i = Some x -> nth_error ys i = Some y' -> pn (D * (1 + Z.of_nat k * Z.of_nat N)) (glwe_phase N sk y') (glwe_phase N sk x).
Proof.
  intros HD. induction xs as [|x xs IH]; intros [|y row] ds L Fx Hd; try discriminate; cbn [ss_row_fft].
  - exists []. repeat (split; [constructor || reflexivity|]). intros [|i]; discriminate.
  - apply Forall_cons_iff in Fx as [Wx Fx]. unfold ss_op_fft. rewrite Nat.eqb_refl. cbn [bind].
    destruct (IH row (fun i => ds (S i))) as (ys & E2 & L2 & F2 & P2); [cbn in L; lia|assumption|intros; apply Hd|]. rewrite E2. cbn [bind].
    destruct (glwe_perturb_ok N w k x (ds O) Hw Wx (proj1 (Hd O))) as (W1 & P1).
    exists (glwe_perturb w x (ds O) :: ys). split; [reflexivity|]. split; [cbn; lia|]. split; [constructor; assumption|]. intros [|i] x' z Hx Hz; cbn [nth_error] in *.
    + injection Hx as <-. injection Hz as <-. replace (D * (1 + Z.of_nat k * Z.of_nat N)) with (0 + D * (1 + Z.of_nat k * Z.of_nat N)) by ring.
      eapply pnear_peq; [symmetry; apply P1| |apply pnear_add; [apply pnear_refl; reflexivity|exact (fft_err_phase N w k D (ds O) sk HD (Hd O) Hsk Hb)]]. ring.
    + eapply P2; eassumption.
Qed.
Lemma ss_rows_fft_ok glev cg D : 0 <= D -> length glev = cg -> Forall (glwe_wf w N k) glev -> forall rows j ds, (j + length rows = S k)%nat -> 
  Forall (fun r => length r = cg /\ Forall (glwe_wf w N k) r) rows -> (forall i t, fft_err N k D (ds i t)) ->
  exists rows', ss_rows_fft pr w log count N k ssk glev j rows ds = Ok rows' /\ length rows' = length rows /\
    Forall (fun r => length r = cg /\ Forall (glwe_wf w N k) r) rows' /\
    forall i t row row' x y y', nth_error rows i = Some row -> nth_error rows' i = Some row' -> nth_error glev t = Some x -> nth_error row t = Some y -> nth_error row' t = Some y' ->
      match nth_error sk (j + i) with
      | Some s => pn (K + D * (1 + Z.of_nat k * Z.of_nat N)) (glwe_phase N sk y')
       (padd (glwe_phase N sk {| ga := setnth (ga y) (j + i) (zpoly N); gb := gb y |}) (popp (pmul N (glwe_phase N sk x) (coef s))))
      | None => pn (D * (1 + Z.of_nat k * Z.of_nat N)) (glwe_phase N sk y') (glwe_phase N sk x)
      end.
Proof.
  intros HD Lg Fg. induction rows as [|row rows IH]; intros j ds Hlen Fr Hd; cbn [ss_rows_fft].
  - exists []. repeat (split; [constructor || reflexivity|]). intros [|i]; discriminate.
  - cbn [length] in Hlen. apply Forall_cons_iff in Fr as [[Lr Wr] Fr].
    destruct (IH (S j) ds ltac:(lia) Fr Hd) as (rows' & E2 & L2 & F2 & P2).
    assert (G : exists ys, ss_row_fft pr w log count N k ssk j glev row (ds j) = Ok ys /\ length ys = length row /\ Forall (glwe_wf w N k) ys /\
      forall t x y y', nth_error glev t = Some x -> nth_error row t = Some y -> nth_error ys t = Some y' ->
      match nth_error sk j with
      | Some s => pn (K + D * (1 + Z.of_nat k * Z.of_nat N)) (glwe_phase N sk y')
       (padd (glwe_phase N sk {| ga := setnth (ga y) j (zpoly N); gb := gb y |}) (popp (pmul N (glwe_phase N sk x) (coef s))))
      | None => pn (D * (1 + Z.of_nat k * Z.of_nat N)) (glwe_phase N sk y') (glwe_phase N sk x)
      end).
    { destruct (nth_error sk j) as [s|] eqn:Es.
      - destruct (ss_row_fft_ok j s D Es HD glev row (ds j)) as (ys & A1 & A2 & A3 & A4); [congruence|assumption|assumption|intros; apply Hd|]. exists ys. auto.
      - apply nth_error_None in Es. assert (j = k) as -> by (destruct Hsk; lia).
        destruct (ss_last_fft_ok D HD glev row (ds k)) as (ys & A1 & A2 & A3 & A4); [congruence|assumption|intros; apply Hd|]. exists ys. split; [assumption|]. split; [assumption|]. split; [assumption|].
        intros t x y y' H1 _ H2. now apply (A4 t). }
    destruct G as (ys & E1 & L1 & W1 & P1). rewrite E1. cbn [bind]. rewrite E2. cbn [bind]. exists (ys :: rows'). split; [reflexivity|]. split; [cbn; lia|].
    split; [constructor; [split; [congruence|assumption]|assumption]|]. intros [|i] t r r' x y y' H1 H2 Hx Hy Hy'; cbn [nth_error] in *.
    + injection H1 as <-. injection H2 as <-. rewrite Nat.add_0_r. now apply (P1 t).
    + replace (j + S i)%nat with (S j + i)%nat by lia. now apply (P2 i t r r').
Qed.
End Loop.

(** Key generation. *)
Lemma ssk_loop_ok pr log count k sk fmul E : word w -> is_pow2 N = true -> 1 <= log -> (1 <= count)%nat -> log * Z.of_nat count <= w -> polys_shape N k sk -> 0 <= E ->
  forall pairs ssk rnd, (forall p, In p pairs -> length (fmul (fst p) (snd p)) = N /\ coef (fmul (fst p) (snd p)) == pmul N (coef (fst p)) (coef (snd p))) ->
  length pairs = length ssk -> Forall (fun r => length r = count /\ Forall (glwe_fresh N k) r) ssk ->
  (forall i, length (rnd i) = count /\ Forall (glwe_rnd_ok N k w E) (rnd i)) ->
  exists ssk', ssk_loop pr w log count N k sk fmul pairs ssk rnd = Ok ssk' /\
    Forall2 (fun p g => (length g = count /\ Forall (glwe_shape N k) g) /\ glev_enc N k w log E sk (pmul N (coef (fst p)) (coef (snd p))) g) pairs ssk'.
Proof.
  intros Hw HP Hl Hc Hs Hsk HE. induction pairs as [|[s t] pairs IH]; intros [|g ssk] rnd Hm L F Hr; try discriminate; cbn [ssk_loop].
  - exists []. split; [reflexivity|constructor].
  - apply Forall_cons_iff in F as [[Lg Fg] F]. destruct (Hm (s, t) (or_introl eq_refl)) as (Lm & Pm). cbn [fst snd] in Lm, Pm. destruct (Hr O) as (Lr & Fr).
    destruct (glev_encrypt_ok N w pr log count k sk (fmul s t) E g (rnd O) Hw HP Hl Hc Hs Hsk Lm HE Lg Fg Lr Fr) as (g' & E1 & L1 & W1 & P1). rewrite E1. cbn [bind].
    destruct (IH ssk (fun i => rnd (S i))) as (ssk' & E2 & P2); [intros p Hp; apply Hm; now right|cbn in L; lia|assumption|intros; apply Hr|]. rewrite E2. cbn [bind].
    exists (g' :: ssk'). split; [reflexivity|]. constructor; [|assumption]. cbn [fst snd]. split; [|eapply glev_enc_peq; [exact Pm|exact P1]].
    split; [assumption|]. eapply Forall_impl; [|exact W1]. intros a Ha. apply Ha.
Qed.
End P.
