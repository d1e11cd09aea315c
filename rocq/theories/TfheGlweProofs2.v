(** GLWE: lemmas about the linear operations and sample extraction. *)
From Verif Require Import Base Alu AluProofs PolyRing Tfhe TfheGlwe SpecTfhe SpecGlwe FluentIntProofs TfheProofs TfheProofs2 TfheProofs3 TfheGlweProofs.
Require Import Setoid Morphisms Ring.
Ltac Zify.zify_post_hook ::= idtac.
Open Scope Z_scope.

(** ** Element-wise addition and subtraction on the different machines *)

Lemma vec_add_ok h pr w a b : word w -> add_exact h pr w -> torus w a -> torus w b -> vec_add h pr w a b = Ok (tadd w a b).
Proof.
  intros Hw H Ha Hb. unfold vec_add. destruct (hw_x86 h && (w =? 64) && (hw_fma h && hw_avx2 h)) eqn:E; [|reflexivity].
  apply andb_true_iff in E as [E1 E2]. apply andb_true_iff in E1 as [E1 E3]. apply Z.eqb_eq in E3. subst w.
  destruct H as [H|[H|[H|H]]]; try congruence. subst pr. unfold uadd, tadd. destruct (Z.ltb_spec (a + b) (2 ^ 64)); [|reflexivity].
  f_equal. symmetry. apply uwrap_small. unfold torus in *. lia.
Qed.
Lemma vec_sub_ok h pr w a b : word w -> sub_exact h pr w -> torus w a -> torus w b -> vec_sub h pr w a b = Ok (tsub w a b).
Proof.
  intros Hw H Ha Hb. unfold vec_sub. destruct (hw_x86 h && (w =? 64)) eqn:E; [|reflexivity].
  apply andb_true_iff in E as [E1 E3]. apply Z.eqb_eq in E3. subst w.
  destruct H as [H|[H|[H ->]]]; try congruence. rewrite H. unfold usub, tsub. destruct (Z.leb_spec b a); [|reflexivity].
  f_equal. symmetry. apply uwrap_small. unfold torus in *. lia.
Qed.
Lemma nth_combine0 (a b : list Z) k : length a = length b -> nth k (combine a b) (0, 0) = (nth k a 0, nth k b 0).
Proof. intros H. apply combine_nth. assumption. Qed.
Lemma nth_map_combine (f : Z -> Z -> Z) (a b : list Z) k : length a = length b -> (k < length a)%nat ->
  nth k (map (fun xy => f (fst xy) (snd xy)) (combine a b)) 0 = f (nth k a 0) (nth k b 0).
Proof.
  intros H Hk. rewrite (nth_indep _ 0 ((fun xy => f (fst xy) (snd xy)) (0, 0))) by (rewrite map_length, combine_length; lia).
  rewrite (map_nth (fun xy => f (fst xy) (snd xy))). rewrite nth_combine0 by assumption. reflexivity.
Qed.

Lemma map_combine_torus w (f : Z -> Z -> Z) (a b : list Z) : (forall x y, torus w (f x y)) -> toruses w (map (fun xy => f (fst xy) (snd xy)) (combine a b)).
Proof. intros H. apply toruses_map. intros [x y]. apply H. Qed.

Section P.
Context (N : nat) (w : Z).
Local Notation "f == g" := (peq N (2 ^ w) f g) (at level 70).
Add Ring poly_ring_w2 : (poly_ring N (2 ^ w)) (setoid (peq_equiv N (2 ^ w)) (poly_ring_ext N (2 ^ w))).
Local Notation pn := (pnear N w).

Lemma poly_add_ok h pr c a b : word w -> add_exact h pr w -> length c = N -> poly_wf w N a -> poly_wf w N b ->
  exists r, poly_add h pr w c a b = Ok r /\ poly_wf w N r /\ coef r == padd (coef a) (coef b).
Proof.
  intros Hw He Hc [La Ta] [Lb Tb]. unfold poly_add. rewrite Hc, La, Lb, Nat.eqb_refl. cbn [andb].
  rewrite (mapM_ok _ (fun xy => tadd w (fst xy) (snd xy))).
  2:{ intros [x y] Hin. cbn [fst snd]. apply vec_add_ok; try assumption.
      - apply (proj1 (Forall_forall _ _) Ta). eapply in_combine_l; eassumption.
      - apply (proj1 (Forall_forall _ _) Tb). eapply in_combine_r; eassumption. }
  eexists. split; [reflexivity|]. split.
  { split; [rewrite map_length, combine_length; lia|]. apply map_combine_torus. intros. apply uwrap_torus. pose proof (word_pos w Hw). lia. }
  intros k Hk. unfold coef at 1. rewrite nth_map_combine by lia. apply tadd_congr.
Qed.
Lemma poly_sub_ok h pr c a b : word w -> sub_exact h pr w -> length c = N -> poly_wf w N a -> poly_wf w N b ->
  exists r, poly_sub h pr w c a b = Ok r /\ poly_wf w N r /\ coef r == psub (coef a) (coef b).
Proof.
  intros Hw He Hc [La Ta] [Lb Tb]. unfold poly_sub. rewrite Hc, La, Lb, Nat.eqb_refl. cbn [andb].
  rewrite (mapM_ok _ (fun xy => tsub w (fst xy) (snd xy))).
  2:{ intros [x y] Hin. cbn [fst snd]. apply vec_sub_ok; try assumption.
      - apply (proj1 (Forall_forall _ _) Ta). eapply in_combine_l; eassumption.
      - apply (proj1 (Forall_forall _ _) Tb). eapply in_combine_r; eassumption. }
  eexists. split; [reflexivity|]. split.
  { split; [rewrite map_length, combine_length; lia|]. apply map_combine_torus. intros. apply uwrap_torus. pose proof (word_pos w Hw). lia. }
  intros k Hk. unfold coef at 1. rewrite nth_map_combine by lia. apply tsub_congr.
Qed.

(** ** Ciphertext addition, subtraction, negation *)

Lemma glwe_add_ok k h pr c a b : word w -> add_exact h pr w -> glwe_shape N k c -> glwe_wf w N k a -> glwe_wf w N k b ->
  exists r, glwe_add h pr w c a b = Ok r /\ glwe_wf w N k r /\ forall sk, glwe_phase N sk r == padd (glwe_phase N sk a) (glwe_phase N sk b).
Proof.
  intros Hw He [Sc Lc] ([Sa La] & Fa & Ta) ([Sb Lb] & Fb & Tb). pose proof (word_pos w Hw). unfold glwe_add.
  rewrite (proj2 (Nat.eqb_eq _ _) (eq_trans (proj1 Sc) (eq_sym (proj1 Sa)))), (proj2 (Nat.eqb_eq _ _) (eq_trans (proj1 Sc) (eq_sym (proj1 Sb)))). cbn [andb].
  destruct (zip3M_ok N w k (poly_add h pr w) p1 p1 (ga c) (ga a) (ga b) Sc Sa Sb) as (r & E & S1 & T & P).
  { intros z x y Hx Hy Hz Lx Ly. destruct (poly_add_ok h pr z x y) as (r & E & [L T] & P); try assumption.
    - split; [assumption|]. apply (proj1 (Forall_forall _ _) Fa x Hx).
    - split; [assumption|]. apply (proj1 (Forall_forall _ _) Fb y Hy).
    - exists r. split; [assumption|]. split; [assumption|]. split; [auto|]. rewrite P. ring. }
  rewrite E. cbn [bind]. destruct (poly_add_ok h pr (gb c) (gb a) (gb b)) as (r' & E' & [L' T'] & P'); try assumption; try (split; assumption).
  rewrite E'. cbn [bind]. eexists. split; [reflexivity|]. split. { split; [split; assumption|]. cbn [ga gb]. split; [apply T; lia|assumption]. }
  intros sk. unfold glwe_phase. cbn [ga gb]. rewrite P, P'. ring.
Qed.
Lemma glwe_sub_ok k h pr c a b : word w -> sub_exact h pr w -> glwe_shape N k c -> glwe_wf w N k a -> glwe_wf w N k b ->
  exists r, glwe_sub h pr w c a b = Ok r /\ glwe_wf w N k r /\ forall sk, glwe_phase N sk r == psub (glwe_phase N sk a) (glwe_phase N sk b).
Proof.
  intros Hw He [Sc Lc] ([Sa La] & Fa & Ta) ([Sb Lb] & Fb & Tb). pose proof (word_pos w Hw). unfold glwe_sub.
  rewrite (proj2 (Nat.eqb_eq _ _) (eq_trans (proj1 Sc) (eq_sym (proj1 Sa)))), (proj2 (Nat.eqb_eq _ _) (eq_trans (proj1 Sc) (eq_sym (proj1 Sb)))). cbn [andb].
  destruct (zip3M_ok N w k (poly_sub h pr w) p1 (popp p1) (ga c) (ga a) (ga b) Sc Sa Sb) as (r & E & S1 & T & P).
  { intros z x y Hx Hy Hz Lx Ly. destruct (poly_sub_ok h pr z x y) as (r & E & [L T] & P); try assumption.
    - split; [assumption|]. apply (proj1 (Forall_forall _ _) Fa x Hx).
    - split; [assumption|]. apply (proj1 (Forall_forall _ _) Fb y Hy).
    - exists r. split; [assumption|]. split; [assumption|]. split; [auto|]. rewrite P. ring. }
  rewrite E. cbn [bind]. destruct (poly_sub_ok h pr (gb c) (gb a) (gb b)) as (r' & E' & [L' T'] & P'); try assumption; try (split; assumption).
  rewrite E'. cbn [bind]. eexists. split; [reflexivity|]. split. { split; [split; assumption|]. cbn [ga gb]. split; [apply T; lia|assumption]. }
  intros sk. unfold glwe_phase. cbn [ga gb]. rewrite P, P'. ring.
Qed.

Lemma zip2M_pure f c a : zip2M (fun x y => Ok (f x y)) c a = Ok (zip_assign f c a).
Proof. revert a. induction c as [|x c IH]; intros [|y a]; cbn [zip2M zip_assign]; try reflexivity. rewrite IH. reflexivity. Qed.

Lemma zipL_ok k (f : list Z -> list Z -> list Z) (g h : poly) c a : polys_shape N k c -> polys_shape N k a ->
  (forall x y, length x = N -> length y = N -> length (f x y) = N /\ (0 <= w -> toruses w x -> toruses w (f x y)) /\ coef (f x y) == padd (pmul N g (coef x)) (pmul N h (coef y))) ->
  polys_shape N k (zip_assign f c a) /\ (0 <= w -> Forall (toruses w) c -> Forall (toruses w) (zip_assign f c a)) /\
    forall sk, pdots N (zip_assign f c a) sk == padd (pmul N g (pdots N c sk)) (pmul N h (pdots N a sk)).
Proof.
  intros Hc Ha Hf. destruct (zip2M_ok N w k (fun x y => Ok (f x y)) g h c a Hc Ha) as (r & E & S1 & T & P).
  { intros x y Hx Hy. exists (f x y). split; [reflexivity|]. apply Hf; assumption. }
  rewrite zip2M_pure in E. inversion E; subst. split; [assumption|]. split; assumption.
Qed.

Lemma glwe_add_assign_ok k c a : word w -> glwe_dim_valid N k = true -> glwe_shape N k c -> glwe_shape N k a ->
  exists r, glwe_add_assign w N k c a = Ok r /\ glwe_shape N k r /\ (glwe_wf w N k c -> glwe_wf w N k r) /\
    forall sk, glwe_phase N sk r == padd (glwe_phase N sk c) (glwe_phase N sk a).
Proof.
  intros Hw Hd Hc Ha. pose proof (word_pos w Hw). unfold glwe_add_assign. rewrite Hd, (proj2 (glwe_valid_iff N k c) Hc), (proj2 (glwe_valid_iff N k a) Ha).
  cbn [andb]. destruct Hc as [Sc Lc], Ha as [Sa La].
  destruct (zipL_ok k (poly_add_assign w) p1 p1 (ga c) (ga a) Sc Sa) as (S1 & T & P).
  { intros x y Hx Hy. split; [unfold poly_add_assign; now rewrite zip_assign_len|]. split; [intros; apply toruses_zip; [intros; now apply uwrap_torus|assumption]|].
    rewrite coef_add by assumption. ring. }
  assert (S2 : length (poly_add_assign w (gb c) (gb a)) = N) by (unfold poly_add_assign; now rewrite zip_assign_len).
  eexists. split; [reflexivity|]. split; [split; assumption|]. split.
  { intros (_ & F1 & F2). split; [split; assumption|]. cbn [ga gb]. split; [apply T; [lia|assumption]|]. apply toruses_zip; [intros; apply uwrap_torus; lia|assumption]. }
  intros sk. unfold glwe_phase. cbn [ga gb]. rewrite P, coef_add by assumption. ring.
Qed.

Lemma polys_map k f (g : poly) a : polys_shape N k a ->
  (forall x, length x = N -> length (f x) = N /\ (0 <= w -> toruses w (f x)) /\ coef (f x) == pmul N g (coef x)) ->
  polys_shape N k (map f a) /\ (0 <= w -> Forall (toruses w) (map f a)) /\ forall sk, pdots N (map f a) sk == pmul N g (pdots N a sk).
Proof.
  intros [La Fa] Hf. subst k. induction a as [|x a IH]; cbn [map].
  - split; [split; auto|]. split; [auto|]. intros sk. destruct sk; cbn [pdots]; ring.
  - apply Forall_cons_iff in Fa as [Hx Fa]. destruct (IH Fa) as ([L1 F1] & T1 & P1). destruct (Hf x Hx) as (L2 & T2 & P2).
    split; [split; [cbn [length]; lia|constructor; assumption]|]. split; [intros; constructor; auto|].
    intros [|s sk]; cbn [pdots]; [ring|]. rewrite P1, P2. ring.
Qed.

Lemma glwe_negate_ok k c : word w -> glwe_shape N k c -> glwe_wf w N k (glwe_negate w c) /\
  forall sk, glwe_phase N sk (glwe_negate w c) == popp (glwe_phase N sk c).
Proof.
  intros Hw [Sc Lc]. pose proof (word_pos w Hw). destruct (polys_map k (poly_negate w) (popp p1) (ga c) Sc) as (S1 & T1 & P1).
  { intros x Hx. split; [unfold poly_negate; now rewrite map_length|]. split; [intros; apply toruses_map; intros; now apply uwrap_torus|].
    rewrite coef_neg by assumption. ring. }
  split.
  { split; [split; [assumption|]|]. - cbn [gb glwe_negate]. unfold poly_negate. now rewrite map_length.
    - cbn [ga gb glwe_negate]. split; [apply T1; lia|]. apply toruses_map. intros. apply uwrap_torus. lia. }
  intros sk. unfold glwe_phase. cbn [ga gb glwe_negate]. rewrite P1, coef_neg by assumption. ring.
Qed.

Lemma words_mul_add_release c a s : words_mul_add Release w c a s = Ok (poly_scalar_mad w c a s).
Proof.
  revert a. induction c as [|y c IH]; intros [|x a]; cbn [words_mul_add poly_scalar_mad zip_assign word_mul_add bind]; try reflexivity. rewrite IH. reflexivity.
Qed.
Lemma small_scalar_mad_ok h pr c a s : smad_exact h pr w N -> length c = N -> length a = N -> poly_small_scalar_mad h pr w c a s = Ok (poly_scalar_mad w c a s).
Proof.
  intros H Hc Ha. unfold poly_small_scalar_mad. destruct (hw_x86 h && (w =? 64) && hw_512f h) eqn:E.
  - destruct H as [(_ & _ & _ & Hd & Hm)|([H|[H|H]] & _)].
    + rewrite Hd, Hc, Ha, Hm, Nat.leb_refl. rewrite Nat.eqb_refl. cbn [andb]. now rewrite orb_true_r.
    + rewrite H in E. discriminate.
    + subst w. rewrite andb_comm in E. cbn in E. destruct (hw_512f h), (hw_x86 h); discriminate.
    + rewrite H, andb_false_r in E. discriminate.
  - destruct H as [(H1 & H2 & H3 & _)|(_ & ->)]; [rewrite H1, H2, H3 in E; discriminate|]. apply words_mul_add_release.
Qed.
Lemma zip2M_pure' (f : list Z -> list Z -> res (list Z)) g k c a : polys_shape N k c -> polys_shape N k a -> (forall x y, length x = N -> length y = N -> f x y = Ok (g x y)) ->
  zip2M f c a = Ok (zip_assign g c a).
Proof.
  intros [Lc Fc] [La Fa] H. subst k. revert a La Fa. induction c as [|x c IH]; intros [|y a] La Fa; cbn [length] in La; try lia; [reflexivity|]. cbn [zip2M zip_assign].
  apply Forall_cons_iff in Fc as [Hx Fc]. apply Forall_cons_iff in Fa as [Hy Fa]. rewrite H by assumption. cbn [bind]. rewrite IH by (assumption || lia). reflexivity.
Qed.
Lemma glwe_scalar_mad_ok h pr k c a s : word w -> smad_exact h pr w N -> glwe_shape N k c -> glwe_shape N k a ->
  exists c', glwe_scalar_mad h pr w c a s = Ok c' /\ glwe_shape N k c' /\ (glwe_wf w N k c -> glwe_wf w N k c') /\ forall sk, glwe_phase N sk c' == padd (glwe_phase N sk c) (pscale s (glwe_phase N sk a)).
Proof.
  intros Hw Hx [Sc Lc] [Sa La]. pose proof (word_pos w Hw). unfold glwe_scalar_mad.
  rewrite (zip2M_pure' _ (fun c a => poly_scalar_mad w c a s) k) by (assumption || (intros; now apply small_scalar_mad_ok)). cbn [bind].
  rewrite small_scalar_mad_ok by assumption. cbn [bind].
  destruct (zipL_ok k (fun c a => poly_scalar_mad w c a s) p1 (pscale s p1) (ga c) (ga a) Sc Sa) as (S1 & T & P).
  { intros x y Hx' Hy. split; [unfold poly_scalar_mad; now rewrite zip_assign_len|]. split; [intros; apply toruses_zip; [intros; now apply uwrap_torus|assumption]|].
    rewrite coef_scalar_mad by assumption. rewrite (pscale_as_mul N (2 ^ w) s (coef y)). ring. }
  assert (S2 : length (poly_scalar_mad w (gb c) (gb a) s) = N) by (unfold poly_scalar_mad; now rewrite zip_assign_len).
  eexists. split; [reflexivity|]. split; [split; assumption|]. split.
  { intros (_ & F1 & F2). split; [split; assumption|]. cbn [ga gb]. split; [apply T; [lia|assumption]|]. apply toruses_zip; [intros; apply uwrap_torus; lia|assumption]. }
  intros sk. unfold glwe_phase. cbn [ga gb]. rewrite P, coef_scalar_mad by assumption.
  rewrite (pscale_as_mul N (2 ^ w) s (coef (gb a))), (pscale_as_mul N (2 ^ w) s (psub _ _)). ring.
Qed.

Lemma glwe_rotate_ok k y x r : word w -> glwe_shape N k y -> glwe_wf w N k x ->
  glwe_wf w N k (glwe_rotate w y x r) /\ forall sk, glwe_phase N sk (glwe_rotate w y x r) == padd (glwe_phase N sk x) (fun _ => r).
Proof.
  intros Hw [[Ly Fy] Hy] ([Sx Lx] & Fx & Tx). pose proof (word_pos w Hw).
  assert (E : ga (glwe_rotate w y x r) = ga x). { cbn [ga glwe_rotate]. apply zip_copy. now rewrite (proj1 Sx). }
  assert (L : length (gb (glwe_rotate w y x r)) = N) by (cbn [gb glwe_rotate]; now rewrite zip_assign_len).
  split.
  { split; [split; [now rewrite E|assumption]|]. rewrite E. split; [assumption|]. cbn [gb glwe_rotate].
    clear - Hy Lx H. revert Hy Lx. generalize (gb x). generalize N. induction (gb y) as [|u l IH]; intros n [|v m] H1 H2; cbn [length] in *; cbn [zip_assign]; constructor; try (subst; lia).
    - apply uwrap_torus. lia.
    - apply (IH (length l)); lia. }
  intros sk. unfold glwe_phase. rewrite E. intros k' Hk'. unfold padd, psub. cbn [gb glwe_rotate]. unfold coef at 1. rewrite (nth_zip _ 0) by lia.
  rewrite tadd_congr. apply zeq_refl'. unfold coef. ring.
Qed.

(** ** Sample extraction *)

Lemma dotz_zsum (l s : list Z) : length l = length s -> dotz l s = zsum (length l) (fun j => nth j l 0 * nth j s 0).
Proof.
  revert s. induction l as [|x l IH]; intros [|y s] H; cbn [length] in H; try lia; cbn [dotz length]; [reflexivity|].
  rewrite zsum_S_l. cbn [nth]. f_equal. apply IH. lia.
Qed.
Lemma dotz_app a b s t : length a = length s -> dotz (a ++ b) (s ++ t) = dotz a s + dotz b t.
Proof. revert s. induction a as [|x a IH]; intros [|y s] H; cbn [length] in H; try lia; cbn [app dotz]; [reflexivity|]. rewrite IH by lia. ring. Qed.
Lemma nth_map_seq (f : nat -> Z) n k : (k < n)%nat -> nth k (map f (seq 0 n)) 0 = f k.
Proof. intros H. rewrite (nth_indep _ 0 (f 0%nat)) by (rewrite map_length, seq_length; lia). rewrite map_nth, seq_nth by lia. reflexivity. Qed.

Lemma extract_poly_len h p : length (extract_poly w N h p) = N.
Proof. unfold extract_poly. now rewrite map_length, seq_length. Qed.
Lemma extract_poly_ok h p s : (h < N)%nat -> length p = N -> length s = N -> congr w (dotz (extract_poly w N h p) s) (pmul N (coef p) (coef s) h).
Proof.
  intros Hh Lp Ls. rewrite (pmul_comm N (2 ^ w) (coef p) (coef s) h Hh). rewrite dotz_zsum by (rewrite extract_poly_len; congruence). rewrite extract_poly_len.
  unfold pmul, psum, pscale. apply zsum_zeq. intros j Hj. unfold extract_poly. rewrite nth_map_seq by assumption.
  rewrite pxn_closed by lia. destruct (Nat.leb_spec j h), (Nat.ltb_spec h j); try lia; unfold coef.
  - apply zeq_refl'. ring.
  - rewrite tneg_congr. apply zeq_refl'. rewrite (Nat.add_comm N h). ring.
Qed.
Lemma extract_polys_ok k h a sk : (h < N)%nat -> polys_shape N k a -> polys_shape N k sk ->
  congr w (dotz (concat (map (extract_poly w N h) a)) (concat sk)) (pdots N a sk h).
Proof.
  intros Hh. revert k sk. induction a as [|x a IH]; intros k [|s sk] [La Fa] [Ls Fs]; cbn [length] in *; try lia; cbn [map concat dotz pdots]; [reflexivity|].
  apply Forall_cons_iff in Fa as [Hx Fa]. apply Forall_cons_iff in Fs as [Hs Fs]. rewrite dotz_app by (rewrite extract_poly_len; congruence).
  unfold padd. apply zeq_add; [now apply extract_poly_ok|]. apply (IH (length a)); split; (lia || assumption).
Qed.
Lemma concat_len_polys k a : polys_shape N k a -> length (concat a) = (k * N)%nat.
Proof.
  intros [La Fa]. subst k. induction Fa as [|x a Hx Fa IH]; cbn [concat length]; [reflexivity|]. rewrite app_length, IH, Hx. reflexivity.
Qed.
Lemma sample_extract_ok k out c h : word w -> (h < N)%nat -> glwe_wf w N k c -> length (lwe_a out) = (k * N)%nat ->
  exists r, sample_extract w N k out c h = Ok r /\ lwe_wf w (k * N) r /\
    forall sk, polys_shape N k sk -> congr w (lwe_phase (to_lwe_sk sk) r) (glwe_phase N sk c h).
Proof.
  intros Hw Hh (Sh & Fc & Tc) Ho. pose proof (word_pos w Hw). unfold sample_extract.
  rewrite (proj2 (glwe_valid_iff N k c) Sh), (proj2 (Nat.ltb_lt _ _) Hh), (proj2 (Nat.eqb_eq _ _) Ho). cbn [andb].
  eexists. split; [reflexivity|]. destruct Sh as [Sc Lc].
  assert (S1 : polys_shape N k (map (extract_poly w N h) (ga c))).
  { destruct Sc as [L F]. split; [now rewrite map_length|]. apply Forall_forall. intros x Hx. apply in_map_iff in Hx as (y & <- & _). apply extract_poly_len. }
  split.
  { split; [now apply concat_len_polys|]. split; cbn [lwe_a lwe_b].
    - apply Forall_concat. apply Forall_forall. intros x Hx. apply in_map_iff in Hx as (y & <- & Hy). apply Forall_forall. intros z Hz.
      apply in_map_iff in Hz as (j & <- & Hj). apply in_seq in Hj. destruct Sc as [L F]. pose proof (proj1 (Forall_forall _ _) F y Hy) as Hyl. cbn beta in Hyl.
      pose proof (proj1 (Forall_forall _ _) Fc y Hy) as Ty. destruct (Nat.leb_spec j h); [|apply uwrap_torus; lia].
      apply (proj1 (Forall_forall _ _) Ty). apply nth_In. lia.
    - apply (proj1 (Forall_forall _ _) Tc). apply nth_In. lia. }
  intros sk Hs. unfold lwe_phase, glwe_phase, to_lwe_sk, psub. cbn [lwe_a lwe_b]. apply zeq_sub; [reflexivity|]. now apply extract_polys_ok with (k := k).
Qed.
End P.
