(** GLWE, GLEV, GGSW: encryption, key generation, decryption and public-key encryption. *)
From Verif Require Import Base Alu AluProofs PolyRing Tfhe TfheGlwe SpecTfhe SpecGlwe FluentIntProofs TfheProofs TfheProofs2 TfheProofs3 TfheGlweProofs TfheGlweProofs2 TfheGlweProofs3.
Require Import Setoid Morphisms Ring.
Ltac Zify.zify_post_hook ::= idtac.
Open Scope Z_scope.

Lemma list_eq_nth (l l' : list Z) : length l = length l' -> (forall k, (k < length l)%nat -> nth k l 0 = nth k l' 0) -> l = l'.
Proof.
  revert l'. induction l as [|x l IH]; intros [|y l'] Hl H; cbn [length] in Hl; try lia; [reflexivity|]. f_equal.
  - apply (H O). cbn [length]. lia.
  - apply IH; [lia|]. intros k Hk. apply (H (S k)). cbn [length]. lia.
Qed.

Section P.
Context (N : nat) (w : Z).
Local Notation "f == g" := (peq N (2 ^ w) f g) (at level 70).
Add Ring poly_ring_w4 : (poly_ring N (2 ^ w)) (setoid (peq_equiv N (2 ^ w)) (poly_ring_ext N (2 ^ w))).
Local Notation pn := (pnear N w).

Lemma dim_valid k : glwe_dim_valid N k = true -> is_pow2 N = true /\ (0 < N)%nat /\ (0 < k)%nat.
Proof. unfold glwe_dim_valid. rewrite !andb_true_iff, !Nat.ltb_lt. tauto. Qed.

(** The encoding of a message polynomial. *)
Definition penc (p : Z) (pt : list Z) : poly := pscale (2 ^ (w - p)) (coef pt).

Lemma encodes_ok p pt : word w -> 0 < p < w -> mapM (fun x => t_encode w x p) pt = Ok (map (fun x => (x * 2 ^ (w - p)) mod 2 ^ w) pt).
Proof. intros Hw Hp. apply mapM_ok. intros x _. now apply t_encode_ok. Qed.
Lemma penc_coef p pt : coef (map (fun x => (x * 2 ^ (w - p)) mod 2 ^ w) pt) == penc p pt.
Proof.
  intros k _. unfold penc, pscale, coef. revert k. induction pt as [|x pt IH]; intros [|k]; cbn [map nth]; try (apply zeq_refl'; ring).
  - transitivity (x * 2 ^ (w - p)); [apply zeq_mod|]. apply zeq_refl'. unfold coef. cbn [nth]. ring.
  - apply IH.
Qed.

(** Decoding returns the message whenever the noise is below half an encoding step. *)
Lemma glwe_decode_ok pr k sk ct p pt B : word w -> glwe_dim_valid N k = true -> glwe_wf w N k ct -> polys_shape N k sk -> 0 < p < w -> p < 32 -> length pt = N ->
  B < 2 ^ (w - p - 1) -> pn B (glwe_phase N sk ct) (penc p pt) ->
  glwe_decrypt_decode pr w N k sk ct p = Ok (map (fun x => x mod 2 ^ p) pt).
Proof.
  intros Hw Hd (Sh & Fc & Tc) Hs Hp Hp' Lp HB (e & He & Hc). pose proof (word_pos w Hw). destruct (dim_valid k Hd) as (P2 & HN & Hk).
  unfold glwe_decrypt_decode. rewrite Hd, (proj2 (glwe_valid_iff N k ct) Sh). destruct (Z.ltb_spec p w); [|lia]. cbn [andb].
  destruct (glwe_decrypt_ok N w k (zpoly N) ct sk P2 (zpoly_len N) Sh Hs) as (m & E & L & T & P). rewrite E. cbn [bind].
  specialize (T ltac:(lia) Tc).
  rewrite (mapM_ok _ (fun x => ((x + 2 ^ (w - p - 1)) / 2 ^ (w - p)) mod 2 ^ p)).
  2:{ intros x Hx. apply t_decode_ok; try assumption. apply (proj1 (Forall_forall _ _) T x Hx). }
  f_equal. apply list_eq_nth; rewrite !map_length; [congruence|]. intros i Hi. rewrite !nth_map0 by lia.
  apply (decode_near w p (nth i pt 0) (e i)); try assumption.
  { specialize (He i ltac:(lia)). lia. }
  rewrite <- (uwrap_small w (nth i m 0)) by (apply (proj1 (Forall_forall _ _) T), nth_In; lia). apply uwrap_eq.
  change (congr w (coef m i) (nth i pt 0 * 2 ^ (w - p) + e i)). rewrite (P i ltac:(lia)), (Hc i ltac:(lia)). unfold padd, penc, pscale, coef. apply zeq_refl'. ring.
Qed.

Lemma coef0 l : Forall (eq 0) l -> coef l == p0. Proof. apply coef_zeros. Qed.
Lemma zeros_torus l : 0 <= w -> Forall (eq 0) l -> toruses w l.
Proof. intros Hw H. eapply Forall_impl; [|exact H]. cbn. intros a <-. split; [lia|]. apply pow_pos'. lia. Qed.

Lemma glwe_encrypt_fresh k c msg sk r E : word w -> is_pow2 N = true -> glwe_fresh N k c -> length msg = N -> polys_shape N k sk -> 0 <= E -> glwe_rnd_ok N k w E r ->
  exists c', glwe_encrypt w N c msg sk (fst r) (snd r) = Ok c' /\ glwe_wf w N k c' /\ pn E (glwe_phase N sk c') (coef msg).
Proof.
  intros Hw Hp [Sh Z0] Hm Hs HE (Sm & Tm & He). pose proof (word_pos w Hw).
  destruct (glwe_encrypt_ok N w k c msg sk (fst r) (snd r) Hp Sh Hm Hs Sm) as (c' & E1 & G & S1 & T & P).
  { destruct (snd r); [apply He|auto]. }
  exists c'. split; [assumption|]. split.
  { split; [assumption|]. rewrite G. split; [assumption|]. apply T; [lia|]. apply zeros_torus; [lia|assumption]. }
  rewrite (coef0 _ Z0) in P. eapply pnear_peq; [symmetry; exact P|reflexivity|].
  assert (He' : pn E (err_poly (snd r)) p0). { destruct (snd r); [apply He|]. apply (pnear_weaken _ _ 0); [assumption|]. apply pnear_refl. reflexivity. }
  rewrite <- (Z.add_0_l E). eapply pnear_peq; [| |apply pnear_add; [apply (pnear_refl N w (coef msg) (coef msg)); reflexivity|exact He']].
  - ring.
  - ring.
Qed.

Lemma glwe_new_fresh k : glwe_fresh N k (glwe_new N k).
Proof. split; [apply glwe_new_shape|apply repeat_0]. Qed.

(** ** GLEV *)

Lemma scale_msg_ok pr log msg j : word w -> 1 <= log -> log * (Z.of_nat j + 1) <= w -> length msg = N ->
  exists m, scale_msg pr w log msg j = Ok m /\ length m = N /\ coef m == pscale (2 ^ (w - log * (Z.of_nat j + 1))) (coef msg).
Proof.
  intros Hw Hl Hj Hm. unfold scale_msg. rewrite gadget_factor_ok by assumption. cbn [bind]. eexists. split; [reflexivity|].
  split; [unfold poly_scalar_mul; now rewrite zip_assign_len|]. now apply coef_scalar_mul.
Qed.

Lemma glev_enc_loop_ok pr log k sk msg E : word w -> is_pow2 N = true -> 1 <= log -> polys_shape N k sk -> length msg = N -> 0 <= E ->
  forall glev rnd j, log * (Z.of_nat (j + length glev)) <= w -> Forall (glwe_fresh N k) glev -> length glev = length rnd -> Forall (glwe_rnd_ok N k w E) rnd ->
  exists g', glev_enc_loop pr w log N sk msg j glev rnd = Ok g' /\ length g' = length glev /\ Forall (glwe_wf w N k) g' /\
    forall i c, nth_error g' i = Some c -> pn E (glwe_phase N sk c) (pscale (2 ^ (w - log * (Z.of_nat (j + i) + 1))) (coef msg)).
Proof.
  intros Hw Hp Hl Hs Hm HE. induction glev as [|c glev IH]; intros [|[masks e] rnd] j Hj Hf Hlen Hr; cbn [length] in *; try lia; cbn [glev_enc_loop].
  - exists []. split; [reflexivity|]. split; [reflexivity|]. split; [constructor|]. intros i c Hc. destruct i; discriminate.
  - apply Forall_cons_iff in Hf as [Hf1 Hf]. apply Forall_cons_iff in Hr as [Hr1 Hr].
    destruct (scale_msg_ok pr log msg j Hw Hl ltac:(nia) Hm) as (m & E1 & L1 & P1). rewrite E1. cbn [bind].
    destruct (glwe_encrypt_fresh k c m sk (masks, e) E Hw Hp Hf1 L1 Hs HE Hr1) as (c' & E2 & W2 & P2). cbn [fst snd] in E2. rewrite E2. cbn [bind].
    destruct (IH rnd (S j) ltac:(replace (S j + length glev)%nat with (j + S (length glev))%nat by lia; assumption) Hf ltac:(lia) Hr) as (g' & E3 & L3 & F3 & P3). rewrite E3. cbn [bind].
    exists (c' :: g'). split; [reflexivity|]. split; [cbn [length]; lia|]. split; [constructor; assumption|].
    intros [|i] c0 Hc; cbn [nth_error] in Hc.
    + inversion Hc; subst c0. rewrite Nat.add_0_r. eapply pnear_peq; [reflexivity|exact P1|exact P2].
    + replace (j + S i)%nat with (S j + i)%nat by lia. now apply P3.
Qed.

Lemma glev_valid_iff k count g : glev_valid N k count g = true <-> length g = count /\ Forall (glwe_shape N k) g.
Proof.
  unfold glev_valid. rewrite andb_true_iff, Nat.eqb_eq. apply and_iff_compat_l. rewrite forallb_forall, Forall_forall.
  split; intros H x Hx; specialize (H x Hx); now apply glwe_valid_iff.
Qed.
Lemma fresh_shapes k g : Forall (glwe_fresh N k) g -> Forall (glwe_shape N k) g.
Proof. intros H. eapply Forall_impl; [|exact H]. intros a [Ha _]. exact Ha. Qed.
Lemma radix_valid_iff log count : radix_valid w log count = true <-> (1 <= count)%nat /\ 1 <= log /\ log * Z.of_nat count <= w.
Proof. unfold radix_valid. rewrite !andb_true_iff, !Z.ltb_lt, Z.leb_le. rewrite (Z.mul_comm (Z.of_nat count)). lia. Qed.

Lemma glev_encrypt_ok pr log count k sk msg E glev rnd : word w -> is_pow2 N = true -> 1 <= log -> (1 <= count)%nat -> log * Z.of_nat count <= w ->
  polys_shape N k sk -> length msg = N -> 0 <= E -> length glev = count -> Forall (glwe_fresh N k) glev -> length rnd = count -> Forall (glwe_rnd_ok N k w E) rnd ->
  exists g', glev_encrypt pr w log count N k glev msg sk rnd = Ok g' /\ length g' = count /\ Forall (glwe_wf w N k) g' /\ glev_enc N k w log E sk (coef msg) g'.
Proof.
  intros Hw Hp Hl Hc Hs Hk Hm HE Lg Fg Lr Fr. unfold glev_encrypt.
  rewrite (proj2 (radix_valid_iff log count)) by auto. rewrite (proj2 (glev_valid_iff k count glev)) by (split; [assumption|now apply fresh_shapes]).
  rewrite (proj2 (Nat.eqb_eq _ _) Hm), (proj2 (polys_valid_iff N k sk) Hk). cbn [andb].
  destruct (glev_enc_loop_ok pr log k sk msg E Hw Hp Hl Hk Hm HE glev rnd 0) as (g' & E1 & L1 & F1 & P1); try assumption.
  { cbn [plus]. now rewrite Lg. } { congruence. }
  exists g'. split; [assumption|]. split; [congruence|]. split; [assumption|]. intros j c Hc'. split; [|now apply P1].
  apply (proj1 (Forall_forall _ _) F1 c). eapply nth_error_In; eassumption.
Qed.

(** ** GGSW *)

Lemma ggsw_loop_ok pr log count k sk msg E : word w -> is_pow2 N = true -> 1 <= log -> (1 <= count)%nat -> log * Z.of_nat count <= w ->
  polys_shape N k sk -> length msg = N -> 0 <= E ->
  forall ss i rows rnd, Forall (fun s => length s = N) ss -> (i + length ss = k)%nat -> length rows = S (length ss) -> length rnd = length rows ->
  Forall (fun r => length r = count /\ Forall (glwe_fresh N k) r) rows -> Forall (fun r => length r = count /\ Forall (glwe_rnd_ok N k w E) r) rnd ->
  exists g', ggsw_enc_loop pr w log count N k sk ss msg i rows rnd = Ok g' /\ length g' = length rows /\
    Forall (fun r => length r = count /\ Forall (glwe_wf w N k) r) g' /\
    Forall2 (glev_enc N k w log E sk) (map (fun s => popp (pmul N (coef msg) (coef s))) ss ++ [coef msg]) g'.
Proof.
  intros Hw Hp Hl Hc Hs Hk Hm HE. induction ss as [|s ss IH]; intros i [|row rows] [|r rnd] Fs Hi Lr Lrnd Fr Frnd; cbn [length] in *; try lia;
    cbn [ggsw_enc_loop]; apply Forall_cons_iff in Fr as [[Lr1 Fr1] Fr]; apply Forall_cons_iff in Frnd as [[Lq1 Fq1] Frnd].
  - destruct (Nat.ltb_spec i k); [lia|]. cbn [bind].
    destruct (glev_encrypt_ok pr log count k sk msg E row r) as (g1 & E1 & L1 & W1 & P1); try assumption. rewrite E1. cbn [bind].
    destruct rows; cbn [length] in *; [|lia]. destruct rnd; cbn [length] in *; [|lia]. cbn [ggsw_enc_loop bind].
    exists [g1]. split; [reflexivity|]. split; [reflexivity|]. split; [constructor; [split; assumption|constructor]|]. cbn [map app]. constructor; [assumption|constructor].
  - apply Forall_cons_iff in Fs as [Fs1 Fs]. destruct (Nat.ltb_spec i k); [|lia].
    destruct (poly_mad_ok w N (zpoly N) msg s Hp Hm Fs1 (zpoly_len N)) as (ms & E0 & L0 & _ & P0). rewrite E0. cbn [bind].
    assert (Ln : length (map (tneg w) ms) = N) by (now rewrite map_length).
    destruct (glev_encrypt_ok pr log count k sk (map (tneg w) ms) E row r) as (g1 & E1 & L1 & W1 & P1); try assumption. rewrite E1. cbn [bind tl].
    destruct (IH (S i) rows rnd) as (g' & E2 & L2 & F2 & P2); try assumption; try lia. rewrite E2. cbn [bind].
    exists (g1 :: g'). split; [reflexivity|]. split; [cbn [length]; lia|]. split; [constructor; [split; assumption|assumption]|]. cbn [map app]. constructor; [|assumption].
    intros j c Hj. destruct (P1 j c Hj) as [A B]. split; [assumption|]. eapply pnear_peq; [reflexivity| |exact B].
    assert (coef (map (tneg w) ms) == popp (pmul N (coef msg) (coef s))) as ->; [|reflexivity].
    change (map (tneg w) ms) with (poly_negate w ms). rewrite coef_neg by assumption. rewrite P0, zpoly_coef. ring.
Qed.

Lemma Forall2_nth_r {A B} (R : A -> B -> Prop) l l' i x y : Forall2 R l l' -> nth_error l i = Some x -> nth_error l' i = Some y -> R x y.
Proof. intros H. revert i. induction H; intros [|i] Hx Hy; cbn [nth_error] in *; try discriminate; [congruence|eauto]. Qed.

Lemma ggsw_encrypt_ok pr log count k sk msg E ggsw p rnd : word w -> is_pow2 N = true -> 1 <= log -> (1 <= count)%nat -> log * Z.of_nat count <= w ->
  polys_shape N k sk -> length msg = N -> 0 <= E -> 0 <= p < w -> Forall (fun x => 0 <= x < 2 ^ p) msg ->
  length ggsw = S k -> Forall (fun r => length r = count /\ Forall (glwe_fresh N k) r) ggsw ->
  length rnd = S k -> Forall (fun r => length r = count /\ Forall (glwe_rnd_ok N k w E) r) rnd ->
  exists g', ggsw_encrypt pr w log count N k ggsw msg sk p rnd = Ok g' /\ Forall (fun r => length r = count /\ Forall (glwe_wf w N k) r) g' /\
    ggsw_enc N k count w log E sk (coef msg) g'.
Proof.
  intros Hw Hp Hl Hc Hs [Lk Fk] Hm HE Hp' Fm Lg Fg Lr Fr. pose proof (word_le w Hw). unfold ggsw_encrypt.
  rewrite ushl_ok by lia. cbn [bind]. rewrite Z.mul_1_l.
  assert (Eu : uwrap w (uwrap 64 (2 ^ p)) = 2 ^ p).
  { pose proof (pow_pos' p ltac:(lia)). pose proof (pow_pos' (w - p) ltac:(lia)). assert (2 ^ p < 2 ^ w) by (apply Z.pow_lt_mono_r; lia). assert (2 ^ w <= 2 ^ 64) by (apply Z.pow_le_mono_r; lia).
    rewrite (uwrap_small 64) by (unfold torus; lia). apply uwrap_small. unfold torus. lia. }
  rewrite Eu. rewrite (proj2 (forallb_forall _ _)). 2:{ intros x Hx. apply Z.ltb_lt. apply (proj1 (Forall_forall _ _) Fm x Hx). }
  destruct (ggsw_loop_ok pr log count k sk msg E Hw Hp Hl Hc Hs (conj Lk Fk) Hm HE sk 0 ggsw rnd) as (g' & E1 & L1 & F1 & P1); try assumption; try congruence; try lia.
  exists g'. split; [assumption|]. split; [assumption|]. split; [congruence|]. split; [eapply Forall_impl; [|exact F1]; cbn; tauto|]. split.
  - intros i s r Hs' Hr. eapply (Forall2_nth_r _ _ _ i); [exact P1| |exact Hr]. rewrite nth_error_app1 by (rewrite map_length; apply nth_error_Some; congruence).
    rewrite nth_error_map, Hs'. reflexivity.
  - intros r Hr. eapply (Forall2_nth_r _ _ _ k); [exact P1| |exact Hr]. rewrite nth_error_app2 by (rewrite map_length; lia). rewrite map_length, Lk, Nat.sub_diag. reflexivity.
Qed.

(** ** Decrypting one entry of a GLEV ciphertext *)

Lemma mask_split pr log : word w -> 1 <= log < w -> exists one mask, ushl pr 64 1 log = Ok one /\ usub pr 64 one 1 = Ok mask /\ uwrap w mask = 2 ^ log - 1.
Proof.
  intros Hw Hl. destruct (next_mask pr w log Hw Hl) as (m & Hm & Em). destruct (ushl pr 64 1 log) as [one| |] eqn:E; cbn [bind] in Hm; try discriminate.
  exists one, m. auto.
Qed.

Lemma glev_decrypt_at_ok pr log count k msg glev sk idx m B c : word w -> glwe_dim_valid N k = true -> 1 <= log < w -> (1 <= count)%nat -> log * Z.of_nat count <= w ->
  length msg = N -> length glev = count -> Forall (glwe_shape N k) glev -> polys_shape N k sk -> length m = N ->
  nth_error glev idx = Some c -> toruses w (gb c) -> log * (Z.of_nat idx + 1) < w -> B < 2 ^ (w - log * (Z.of_nat idx + 1) - 1) ->
  pn B (glwe_phase N sk c) (pscale (2 ^ (w - log * (Z.of_nat idx + 1))) (coef m)) ->
  glev_decrypt_at pr w log count N k msg glev sk idx = Ok (map (fun x => x mod 2 ^ log) m).
Proof.
  intros Hw Hd Hl Hc Hs Lm Lg Fg Hk Hm Hn Tb Hi HB (e & He & Hph). pose proof (word_pos w Hw). pose proof (word_le w Hw). destruct (dim_valid k Hd) as (P2 & HN & Hk0).
  unfold glev_decrypt_at. rewrite (proj2 (radix_valid_iff log count)) by (repeat split; (assumption || lia)).
  rewrite (proj2 (Nat.eqb_eq _ _) Lm), Hd. rewrite (proj2 (glev_valid_iff k count glev)) by auto. rewrite (proj2 (polys_valid_iff N k sk) Hk). cbn [andb].
  rewrite Hn. assert (Sc : glwe_shape N k c) by (apply (proj1 (Forall_forall _ _) Fg); eapply nth_error_In; eassumption).
  destruct (glwe_decrypt_ok N w k msg c sk P2 Lm Sc Hk) as (x & E & L & T & P). rewrite E. cbn [bind]. specialize (T ltac:(lia) Tb).
  destruct (mask_split pr log Hw Hl) as (one & mask & E1 & E2 & E3). rewrite E1. cbn [bind]. rewrite E2. cbn [bind].
  set (s := w - log * (Z.of_nat idx + 1)) in *. assert (1 <= s < w) by (unfold s; nia).
  rewrite (mapM_ok _ (fun x => ((x + 2 ^ (s - 1)) / 2 ^ s) mod 2 ^ log)).
  2:{ intros y Hy. assert (Ty : torus w y) by (apply (proj1 (Forall_forall _ _) T y Hy)). unfold torus in Ty.
      rewrite usub_ok by lia. cbn [bind]. fold s. rewrite ushr_ok by lia. cbn [bind]. rewrite usub_ok by lia. cbn [bind]. rewrite ushr_ok by lia. cbn [bind].
      rewrite land_1. assert (Q : y / 2 ^ s < 2 ^ (w - s)). { apply Z.div_lt_upper_bound; [apply pow_pos'; lia|]. rewrite <- pow_split by lia. replace (s + (w - s)) with w by lia. lia. }
      assert (R : 2 * 2 ^ (w - s) <= 2 ^ w). { change 2 with (2 ^ 1) at 1. rewrite <- Z.pow_add_r by lia. apply Z.pow_le_mono_r; lia. }
      pose proof (pow_pos' (w - s) ltac:(lia)). pose proof (Z.mod_pos_bound (y / 2 ^ (s - 1)) 2 ltac:(lia)).
      rewrite uadd_ok by lia. cbn [bind]. rewrite E3, land_mask by lia. rewrite round_shift by lia. reflexivity. }
  f_equal. apply list_eq_nth; rewrite !map_length; [congruence|]. intros i Hi'. rewrite !nth_map0 by lia.
  assert (D : ((nth i x 0 + 2 ^ (s - 1)) / 2 ^ s) mod 2 ^ (w - s) = nth i m 0 mod 2 ^ (w - s)).
  { replace s with (w - (w - s)) at 1 2 by lia. apply (decode_near w (w - s) (nth i m 0) (e i)); try assumption; try lia.
    { replace (w - (w - s) - 1) with (s - 1) by lia. specialize (He i ltac:(lia)). lia. }
    rewrite <- (uwrap_small w (nth i x 0)) by (apply (proj1 (Forall_forall _ _) T), nth_In; lia). apply uwrap_eq.
    change (congr w (coef x i) (nth i m 0 * 2 ^ (w - (w - s)) + e i)). rewrite (P i ltac:(lia)), (Hph i ltac:(lia)). unfold padd, pscale, coef.
    replace (w - (w - s)) with s by lia. apply zeq_refl'. ring. }
  assert (Ex : 2 ^ (w - s) = 2 ^ log * 2 ^ (log * Z.of_nat idx)). { rewrite <- Z.pow_add_r by nia. f_equal. unfold s. lia. }
  assert (M : forall v, v mod 2 ^ log = (v mod 2 ^ (w - s)) mod 2 ^ log).
  { intros v. rewrite Ex. pose proof (pow_pos' log ltac:(lia)). pose proof (pow_pos' (log * Z.of_nat idx) ltac:(nia)).
    rewrite Z.rem_mul_r by lia. rewrite Z.mul_comm, Z.mod_add by lia. now rewrite Z.mod_mod by lia. }
  rewrite (M (_ / _)), D, <- M. reflexivity.
Qed.

(** ** GLWE key-switch keys *)

Lemma gksk_loop_ok pr log count k newsk E : word w -> is_pow2 N = true -> 1 <= log -> log * Z.of_nat count <= w -> polys_shape N k newsk -> 0 <= E ->
  forall oldsk rows rnd, Forall (fun s => length s = N) oldsk -> length oldsk = length rows -> length rnd = length rows ->
  Forall (fun r => length r = count /\ Forall (glwe_fresh N k) r) rows -> Forall (fun r => length r = count /\ Forall (glwe_rnd_ok N k w E) r) rnd ->
  exists g', gksk_loop pr w log N oldsk newsk rows rnd = Ok g' /\ length g' = length rows /\
    Forall (fun r => length r = count /\ Forall (glwe_wf w N k) r) g' /\ gksk_enc N k count w log E oldsk newsk g'.
Proof.
  intros Hw Hp Hl Hs Hk HE. induction oldsk as [|s oldsk IH]; intros [|row rows] [|r rnd] Fo Lo Lr Fr Frnd; cbn [length] in *; try lia; cbn [gksk_loop].
  - exists []. split; [reflexivity|]. split; [reflexivity|]. split; constructor.
  - apply Forall_cons_iff in Fo as [Fo1 Fo]. apply Forall_cons_iff in Fr as [[Lr1 Fr1] Fr]. apply Forall_cons_iff in Frnd as [[Lq1 Fq1] Frnd].
    destruct (glev_enc_loop_ok pr log k newsk s E Hw Hp Hl Hk Fo1 HE row r 0) as (g1 & E1 & L1 & W1 & P1); try assumption; try congruence.
    { cbn [plus]. now rewrite Lr1. }
    rewrite E1. cbn [bind]. destruct (IH rows rnd) as (g' & E2 & L2 & F2 & P2); try assumption; try lia. rewrite E2. cbn [bind].
    exists (g1 :: g'). split; [reflexivity|]. split; [cbn [length]; lia|]. split; [constructor; [split; [congruence|assumption]|assumption]|].
    constructor; [|assumption]. split; [congruence|]. intros j c Hj. split; [|now apply P1]. apply (proj1 (Forall_forall _ _) W1 c). eapply nth_error_In; eassumption.
Qed.

(** ** Public-key encryption *)

Lemma rlwe_public_ok ct msg pk u e0 e1 s : word w -> is_pow2 N = true -> length msg = N -> glwe_shape N 1 ct -> glwe_wf w N 1 pk ->
  length u = N -> length e0 = N -> length e1 = N -> length s = N ->
  exists c, rlwe_encrypt_public w N 1 ct msg pk u e0 e1 = Ok c /\ glwe_wf w N 1 c /\
    glwe_phase N [s] c == padd (coef msg) (padd (pmul N (coef u) (glwe_phase N [s] pk)) (psub (coef e1) (pmul N (coef e0) (coef s)))).
Proof.
  intros Hw Hp Hm Sc ([Sp Lp] & Fp & Tp) Hu H0 H1 Hs. pose proof (word_pos w Hw). unfold rlwe_encrypt_public.
  rewrite (proj2 (Nat.eqb_eq _ _) Hm), (proj2 (glwe_valid_iff N 1 ct) Sc), (proj2 (glwe_valid_iff N 1 pk) (conj Sp Lp)). cbn [andb Nat.eqb].
  destruct Sp as [Lpa Fpa]. unfold glwe_phase at 2. destruct (ga pk) as [|q [|]] eqn:Eq; cbn [length] in Lpa; try lia.
  apply Forall_cons_iff in Fpa as [Lq _]. apply Forall_cons_iff in Fp as [Tq _].
  destruct (poly_mad_ok w N (zpoly N) q u Hp Lq Hu (zpoly_len N)) as (a & E1 & L1 & T1 & P1). rewrite E1. cbn [bind].
  destruct (poly_mad_ok w N (zpoly N) (gb pk) u Hp Lp Hu (zpoly_len N)) as (b & E2 & L2 & T2 & P2). rewrite E2. cbn [bind].
  assert (Z0 : toruses w (zpoly N)) by (apply toruses_repeat; lia).
  eexists. split; [reflexivity|]. split.
  { split; [split; [split; [reflexivity|constructor; [|constructor]]|]|]; cbn [ga gb]; rewrite ?len_add; try assumption.
    split; [constructor; [|constructor]|]; repeat (apply toruses_zip; [intros; apply uwrap_torus; lia|]); [apply T1|apply T2]; (lia || assumption). }
  unfold glwe_phase. cbn [ga gb pdots]. rewrite coef_add by (rewrite ?len_add; assumption). rewrite coef_add by assumption. rewrite coef_add by assumption. rewrite P1, P2, zpoly_coef. ring.
Qed.
End P.
