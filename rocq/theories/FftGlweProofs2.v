(** The CMUX through the FFT is the exact CMUX plus a bounded error. *)
From Coq Require Import Reals ZArith List Lia Lra Bool.
From Coquelicot Require Import Complex.
From Verif Require Import Base Alu AluProofs MuxGraph PolyRing Tfhe TfheGlwe TfheBoot SpecTfhe SpecGlwe SpecBoot FluentIntProofs TfheProofs TfheProofs2 TfheProofs3
  TfheGlweProofs TfheGlweProofs2 TfheGlweProofs3 TfheGlweProofs4 TfheBootProofs.
From Verif Require Import Fft FftGlwe SpecFft FftProofs FftProofs2 FftProofs3 FftProofs4 FftProofs5 FftProofs6 FftGlweProofs.
Import ListNotations.
Ltac Zify.zify_post_hook ::= idtac.
Open Scope Z_scope.

(** ** Generic *)
Lemma mapM_inv {A B} (f : A -> res B) (da : A) (db : B) l : forall r, mapM f l = Ok r -> length r = length l /\ forall j, (j < length l)%nat -> f (nth j l da) = Ok (nth j r db).
Proof.
  induction l as [|x l IH]; intros r; cbn [mapM length].
  - intros E. injection E as <-. split; [reflexivity|]. intros; lia.
  - destruct (f x) as [y| |] eqn:Ex; try discriminate. cbn [bind]. destruct (mapM f l) as [ys| |] eqn:El; try discriminate. cbn [bind].
    intros E. injection E as <-. destruct (IH ys eq_refl) as (L & H). cbn [length]. split; [lia|]. intros [|j] Hj; cbn [nth]; [exact Ex|]. apply H. lia.
Qed.
Lemma mapM_exists {A B} (f : A -> res B) (P : B -> Prop) l : (forall x, In x l -> exists y, f x = Ok y /\ P y) ->
  exists r, mapM f l = Ok r /\ Forall P r.
Proof.
  induction l as [|x l IH]; intros H; cbn [mapM]; [exists []; auto|].
  destruct (H x) as (y & E & HP); [now left|]. rewrite E. cbn [bind]. destruct IH as (r & Er & F); [intros; apply H; now right|].
  rewrite Er. cbn [bind]. exists (y :: r). auto.
Qed.
Lemma mapM_rev {A B} (f : A -> res B) l r : mapM f l = Ok r -> Forall2 (fun x y => f x = Ok y) (rev l) (rev r).
Proof.
  revert r. induction l as [|x l IH]; intros r; cbn [mapM].
  - intros E. injection E as <-. constructor.
  - destruct (f x) as [y| |] eqn:Ex; try discriminate. cbn [bind]. destruct (mapM f l) as [ys| |]; try discriminate. cbn [bind].
    intros E. injection E as <-. cbn [rev]. apply Forall2_app; auto.
Qed.
Lemma mapM_F2 {A B} (f : A -> res B) l : forall r, mapM f l = Ok r -> Forall2 (fun x y => f x = Ok y) l r.
Proof.
  induction l as [|x l IH]; intros r; cbn [mapM].
  - intros E. injection E as <-. constructor.
  - destruct (f x) as [y| |] eqn:Ex; try discriminate. cbn [bind]. destruct (mapM f l) as [ys| |]; try discriminate. cbn [bind].
    intros E. injection E as <-. constructor; auto.
Qed.

Definition compf (j : nat) (c : glwe_fft) : list C := nth j (fa c ++ [fb c]) [].
Lemma compf_a j c : (j < length (fa c))%nat -> compf j c = nth j (fa c) []. Proof. intros. unfold compf. now rewrite app_nth1. Qed.
Lemma compf_b k c : length (fa c) = k -> compf k c = fb c. Proof. intros <-. unfold compf. rewrite app_nth2, Nat.sub_diag by lia. reflexivity. Qed.
Definition shapef (n k : nat) (c : glwe_fft) : Prop := length (fa c) = k /\ Forall (fun p => length p = n) (fa c) /\ length (fb c) = n.
Lemma compf_len n k j c : shapef n k c -> (j <= k)%nat -> length (compf j c) = n.
Proof.
  intros (L & F & Lb) Hj. destruct (Nat.eq_dec j k) as [->|Ne].
  - rewrite compf_b by assumption. exact Lb.
  - rewrite compf_a by lia. apply (proj1 (Forall_forall _ _) F). apply nth_In. lia.
Qed.
Lemma mad_loop_len f a : forall c b, length (mad_loop f c a b) = length c.
Proof. induction a as [|y a IH]; intros [|x c] [|z b]; cbn [mad_loop length]; auto. Qed.

Lemma half_twice n : (2 * n / 2 = n)%nat. Proof. rewrite Nat.mul_comm, Nat.div_mul; lia. Qed.

Section Shape.
Context (X : ext) (x86 : bool) (m : mad_kernel) (n : nat).
Context (Hx86 : x86 = true -> (n mod 8 = 0)%nat).

Lemma multiply_add_ok c a b : length c = n -> length a = n -> length b = n ->
  exists c', multiply_add X x86 m c a b = Ok c' /\ length c' = n.
Proof using All.
  intros Lc La Lb. unfold multiply_add. rewrite Lc, La, Lb, Nat.eqb_refl. cbn [andb].
  destruct x86; cbn [andb].
  - rewrite Hx86 by reflexivity. cbn [Nat.eqb negb]. eexists. split; [reflexivity|]. now rewrite mad_loop_len.
  - eexists. split; [reflexivity|]. now rewrite mad_loop_len.
Qed.
Lemma zip_mad_ok a : forall c b, length c = length a -> Forall (fun p => length p = n) c -> Forall (fun p => length p = n) a -> length b = n ->
  exists r, zip_mad X x86 m c a b = Ok r /\ length r = length c /\ Forall (fun p => length p = n) r /\
    forall j, (j < length c)%nat -> multiply_add X x86 m (nth j c []) (nth j a []) b = Ok (nth j r []).
Proof using All.
  induction a as [|y a IH]; intros [|x c] b Lc Fc Fa Lb; cbn [length] in Lc; try lia; cbn [zip_mad].
  - exists []. split; [reflexivity|]. split; [reflexivity|]. split; [constructor|]. intros j Hj. cbn [length] in Hj. lia.
  - apply Forall_cons_iff in Fc as [Hx Fc]. apply Forall_cons_iff in Fa as [Hy Fa].
    destruct (multiply_add_ok x y b Hx Hy Lb) as (x' & E & L). rewrite E. cbn [bind].
    destruct (IH c b) as (r & Er & Lr & Fr & Hr); try assumption; [lia|]. rewrite Er. cbn [bind].
    exists (x' :: r). split; [reflexivity|]. split; [cbn [length]; lia|]. split; [now constructor|].
    intros [|j] Hj; cbn [nth]; [exact E|]. apply Hr. cbn [length] in Hj. lia.
Qed.
Lemma glwe_poly_mad_fft_ok k c a b : shapef n k c -> shapef n k a -> length b = n ->
  exists c', glwe_poly_mad_fft X x86 m k c a b = Ok c' /\ shapef n k c' /\
    forall j, (j <= k)%nat -> multiply_add X x86 m (compf j c) (compf j a) b = Ok (compf j c').
Proof using All.
  intros (Lc & Fc & Bc) (La & Fa & Ba) Lb. unfold glwe_poly_mad_fft. rewrite Lc, La, Nat.eqb_refl. cbn [andb].
  destruct (zip_mad_ok (fa a) (fa c) b) as (r & Er & Lr & Fr & Hr); try assumption; [lia|]. rewrite Er. cbn [bind].
  destruct (multiply_add_ok (fb c) (fb a) b Bc Ba Lb) as (y & Ey & Ly). rewrite Ey. cbn [bind].
  eexists. split; [reflexivity|]. split; [split; [cbn [fa]; lia|split; assumption]|].
  intros j Hj. destruct (Nat.eq_dec j k) as [->|Ne].
  - rewrite !compf_b by (cbn [fa]; lia). exact Ey.
  - rewrite !compf_a by (cbn [fa]; lia). cbn [fa]. apply Hr. lia.
Qed.
End Shape.

Lemma list_choice {A} (da : A) (P : nat -> A -> Prop) K : (forall j, (j < K)%nat -> exists x, P j x) ->
  exists l, length l = K /\ forall j, (j < K)%nat -> P j (nth j l da).
Proof.
  induction K as [|K IH]; intros H; [exists []; split; [reflexivity|intros; lia]|].
  destruct IH as (l & L & Hl'); [intros; apply H; lia|]. destruct (H K) as (x & Hx); [lia|].
  exists (l ++ [x]). split; [rewrite app_length; cbn [length]; lia|]. intros j Hj. destruct (Nat.eq_dec j K) as [->|Ne].
  - rewrite app_nth2, L, Nat.sub_diag by lia. exact Hx.
  - rewrite app_nth1 by lia. apply Hl'. lia.
Qed.
Lemma list_eq_nth (l l' : list Z) : length l = length l' -> (forall i, (i < length l)%nat -> nth i l 0 = nth i l' 0) -> l = l'.
Proof. intros L H. apply (nth_ext _ _ 0 0 L H). Qed.

Lemma sint_bound w x : word w -> torus w x -> Z.abs (sint w x) <= 2 ^ (w - 1).
Proof.
  intros Hw [H0 H1]. pose proof (word_pos w Hw). pose proof (pow_half w ltac:(lia)). unfold sint. destruct (Z.ltb_spec x (2 ^ (w - 1))); lia.
Qed.
Lemma IZR_abs_le x b : Z.abs x <= b -> (Rabs (IZR x) <= IZR b)%R.
Proof. intros H. rewrite <- abs_IZR. now apply IZR_le. Qed.

Lemma comp_torus w n k j c : glwe_wf w (2 * n) k c -> (j <= k)%nat -> toruses w (comp j c).
Proof.
  intros (([L F] & Lb) & Ta & Tb) Hj. destruct (Nat.eq_dec j k) as [->|Ne].
  - rewrite comp_b' by assumption. exact Tb.
  - rewrite comp_a by lia. apply (proj1 (Forall_forall _ _) Ta). apply nth_In. lia.
Qed.
Lemma comp_ext k (c c' : glwe) : length (ga c) = k -> length (ga c') = k -> (forall j, (j <= k)%nat -> comp j c = comp j c') -> c = c'.
Proof.
  intros L L' H. destruct c as [a b], c' as [a' b']. cbn [ga] in *. f_equal.
  - apply (nth_ext _ _ [] []); [lia|]. intros j Hj. specialize (H j ltac:(lia)). rewrite !comp_a in H by (cbn [ga]; lia). exact H.
  - specialize (H k ltac:(lia)). rewrite !comp_b' in H by assumption. exact H.
Qed.
Lemma comp_perturb w k c d j : length (ga c) = k -> length (ga d) = k -> (j <= k)%nat ->
  comp j (glwe_perturb w c d) = poly_add_assign w (comp j c) (comp j d).
Proof.
  intros L L' Hj. assert (Z1 : forall a a' : list (list Z), length a = length a' -> length (zip_assign (poly_add_assign w) a a') = length a).
  { induction a as [|x a IH]; intros [|y a']; cbn [zip_assign length]; intros; try lia; auto. }
  assert (Z2 : forall (a a' : list (list Z)) i, length a = length a' -> (i < length a)%nat -> nth i (zip_assign (poly_add_assign w) a a') [] = poly_add_assign w (nth i a []) (nth i a' [])).
  { induction a as [|x a IH]; intros [|y a'] [|i]; cbn [zip_assign length nth]; intros; try lia; auto. apply IH; lia. }
  destruct (Nat.eq_dec j k) as [->|Ne].
  - rewrite !comp_b' by (try assumption; cbn [ga glwe_perturb]; rewrite Z1; lia). reflexivity.
  - rewrite !comp_a by (cbn [ga glwe_perturb]; try rewrite Z1; lia). cbn [ga glwe_perturb]. apply Z2; lia.
Qed.

Lemma compf_zero n k j : (j <= k)%nat -> compf j (glwe_fft_zero (2 * n) k) = repeat (RtoC 0) n.
Proof.
  intros Hj. assert (L : length (fa (glwe_fft_zero (2 * n) k)) = k) by (cbn [fa glwe_fft_zero]; apply repeat_length).
  destruct (Nat.eq_dec j k) as [->|Ne].
  - rewrite compf_b by assumption. cbn [fb glwe_fft_zero]. now rewrite half_twice.
  - rewrite compf_a by lia. cbn [fa glwe_fft_zero]. rewrite half_twice. rewrite (nth_indep _ [] (repeat (RtoC 0) n)) by (rewrite repeat_length; lia).
    apply nth_repeat.
Qed.
Lemma comp_new n k j i : (j <= k)%nat -> nth i (comp j (glwe_new (2 * n) k)) 0 = 0.
Proof.
  intros Hj. assert (L : length (ga (glwe_new (2 * n) k)) = k) by (cbn [ga glwe_new]; apply repeat_length).
  assert (Z0 : forall K, nth i (repeat 0 K) 0 = 0) by (intros; apply nth_repeat).
  destruct (Nat.eq_dec j k) as [->|Ne].
  - rewrite comp_b' by assumption. apply Z0.
  - rewrite comp_a by lia. cbn [ga glwe_new]. rewrite (nth_indep _ [] (zpoly (2 * n))) by (rewrite repeat_length; lia). rewrite nth_repeat. apply Z0.
Qed.


Section Any.
Context (X : ext) (n : nat) (u eta tau delta : R) (Hac : accurate X n u eta tau delta) (Hn : (0 < n)%nat).
Context (w : Z) (Hw : word w) (Hp2 : is_pow2 n = true) (Hlog : (2 * n <= 4096)%nat).
Context (x86 : bool) (m : mad_kernel) (Hx86 : x86 = true -> (n mod 8 = 0)%nat) (k : nat).

Lemma poly_fft_total p : length p = (2 * n)%nat -> exists F, poly_fft X w p n = Ok F /\ length F = n.
Proof using All.
  intros Lp. assert (Hp2' : is_pow2 (2 * n) = true) by (rewrite is_pow2_half; assumption).
  unfold poly_fft. rewrite Lp, Hp2'. replace (2 * n =? n * 2)%nat with true by (symmetry; apply Nat.eqb_eq; lia). cbn [andb].
  pose proof (log_lt n Hn Hlog) as HL. unfold get_fft. rewrite (proj2 (Nat.ltb_lt _ _) HL).
  assert (E2 : (2 ^ Nat.log2 (2 * n) = 2 * n)%nat).
  { unfold is_pow2 in Hp2'. apply andb_true_iff in Hp2' as [_ E]. now apply Nat.eqb_eq in E. }
  rewrite E2. unfold twisted_new. rewrite Hp2'. cbn [bind]. unfold forward. cbn [tf_len tf_twist]. rewrite map_length, Lp, !half_twice.
  replace (2 * n =? n * 2)%nat with true by (symmetry; apply Nat.eqb_eq; lia).
  eexists. split; [reflexivity|]. apply (ac_fwd X n u eta tau delta Hac).
  match goal with |- context [complex_twist _ _ _ ?t] => set (tw := t) end. assert (Lt : length tw = n) by (unfold tw; now rewrite map_length, seq_length).
  assert (G : forall re im t : list _, length re = length t -> length im = length t -> length (complex_twist (ef_fl X) re im t) = length t).
  { induction re as [|x re IH]; intros [|y im] [|z t]; cbn [length complex_twist]; intros; try lia. rewrite IH; lia. }
  rewrite G; rewrite ?Lt; [reflexivity| |].
  - rewrite firstn_length, map_length, Lp. lia.
  - rewrite skipn_length, map_length, Lp. lia.
Qed.

Lemma glwe_to_fft_ok c : glwe_shape (2 * n) k c -> exists f, glwe_to_fft X w (2 * n) k c = Ok f /\ shapef n k f /\
  forall j, (j <= k)%nat -> poly_fft X w (comp j c) n = Ok (compf j f).
Proof using All.
  intros Sc. unfold glwe_to_fft. rewrite (proj2 (glwe_valid_iff (2 * n) k c) Sc), half_twice. destruct Sc as ([L F] & Lb).
  destruct (mapM_exists (fun p => poly_fft X w p n) (fun p => length p = n) (ga c)) as (a & Ea & Fa).
  { intros p Hp. apply poly_fft_total. apply (proj1 (Forall_forall _ _) F p Hp). }
  rewrite Ea. cbn [bind]. destruct (poly_fft_total (gb c) Lb) as (b & Eb & Lb'). rewrite Eb. cbn [bind].
  destruct (mapM_inv _ [] [] _ _ Ea) as (La & Ha).
  eexists. split; [reflexivity|]. split; [split; [cbn [fa]; lia|split; assumption]|].
  intros j Hj. destruct (Nat.eq_dec j k) as [->|Ne].
  - rewrite comp_b', compf_b by (cbn [fa]; lia). exact Eb.
  - rewrite comp_a, compf_a by (cbn [fa]; lia). apply Ha. lia.
Qed.

Definition fstep (c : glwe_fft) (s : glwe_fft * list Z) : res glwe_fft :=
  d <- poly_fft X w (snd s) n ;; glwe_poly_mad_fft X x86 m k c (fst s) d.
Definition fsame (s : glwe * list Z) (f : glwe_fft * list Z) : Prop := glwe_to_fft X w (2 * n) k (fst s) = Ok (fst f) /\ snd s = snd f.

Lemma steps_fft : forall ss fs c, Forall (step_ok (2 * n) k) ss -> Forall2 fsame ss fs -> shapef n k c ->
  exists c', foldM fstep fs c = Ok c' /\ shapef n k c' /\ forall j, (j <= k)%nat ->
    mad_products X x86 m w n (compf j c) (pairs j ss) = Ok (compf j c').
Proof using All.
  induction ss as [|[b d] ss IH]; intros fs c Fs F2 Sc; inversion F2 as [|? f ? fs' [H1 H2] F2']; subst; cbn [foldM].
  - exists c. split; [reflexivity|]. split; [assumption|]. reflexivity.
  - destruct f as [bf d']. apply Forall_cons_iff in Fs as [(Sb & Ld) Fs]. cbn [fst snd] in *. subst d'.
    destruct (glwe_to_fft_ok b Sb) as (bf' & Eb & Sbf & Hb). rewrite H1 in Eb. injection Eb as <-.
    destruct (poly_fft_total d Ld) as (df & Ed & Ldf). unfold fstep at 1. cbn [fst snd]. rewrite Ed. cbn [bind].
    destruct (glwe_poly_mad_fft_ok X x86 m n Hx86 k c bf df Sc Sbf Ldf) as (c1 & E1 & S1 & M1). rewrite E1. cbn [bind].
    destruct (IH fs' c1 Fs F2' S1) as (c' & E2 & S2 & M2). exists c'. split; [exact E2|]. split; [exact S2|].
    intros j Hj. cbn [pairs map fst snd mad_products]. rewrite (Hb j Hj). cbn [bind]. rewrite Ed. cbn [bind]. rewrite (M1 j Hj). cbn [bind]. apply (M2 j Hj).
Qed.

(** The loops of fft_ops.rs as folds over the same digits as the exact loops. *)
Context (pr : profile) (log : Z) (count : nat) (Hl : 1 <= log) (Hcount : (1 <= count)%nat) (Hs : log * Z.of_nat count < w).

Lemma loop_steps_fft bs : forall vs l cur c, toruses w vs -> (l + length bs <= count)%nat ->
  glev_mad_loop_fft X x86 m pr w log count (2 * n) k {| ri_scratch := vs; ri_level := l |} cur bs c =
  foldM fstep (combine bs (digit_polys w log (length bs) vs)) c.
Proof using All.
  assert (Hlw : 1 <= log < w) by nia. pose proof (word_pos w Hw).
  induction bs as [|b bs IH]; intros vs l cur c Tv Hlv; cbn [glev_mad_loop_fft length digit_polys combine foldM]; [reflexivity|].
  cbn [length] in Hlv. unfold write_next. cbn [ri_level ri_scratch]. destruct (Nat.eqb_spec l count) as [->|_]; [lia|].
  rewrite (vec_next_map w) by assumption. cbn [bind]. rewrite !map_map. cbn [fst snd]. rewrite half_twice. unfold fstep at 1. cbn [fst snd].
  destruct (poly_fft _ _ _ _); cbn [bind]; try reflexivity.
  destruct (glwe_poly_mad_fft _ _ _ _ _ _ _); cbn [bind]; try reflexivity. apply IH; [apply snexts_torus; (lia || assumption)|lia].
Qed.
Lemma rows_mad_steps_fft polys : forall rows c, Forall (toruses w) polys -> Forall (fun r => length r = count) rows ->
  rows_mad_fft X x86 m pr w log count (2 * n) k c polys rows = foldM fstep (rows_steps w log count polys rows) c.
Proof using All.
  induction polys as [|a polys IH]; intros [|r rows] c Tp Lr; cbn [rows_mad_fft rows_steps foldM]; try reflexivity.
  apply Forall_cons_iff in Tp as [Ta Tp]. apply Forall_cons_iff in Lr as [L1 Lr].
  rewrite foldM_app. unfold glev_mad_fft. rewrite (radix_new_eq w Hw pr log count Hl Hcount Hs a Ta). cbn [bind].
  rewrite loop_steps_fft by (try apply (round_torus w Hw log count Hl Hcount Hs); try rewrite rev_length; (assumption || lia)).
  unfold glev_steps. rewrite rev_length. destruct (foldM _ _ _); cbn [bind]; try reflexivity. apply IH; assumption.
Qed.

Lemma steps_same polys : forall rows rowsf, Forall (toruses w) polys -> mapM (glev_to_fft X w (2 * n) k) rows = Ok rowsf ->
  Forall2 fsame (rows_steps w log count polys rows) (rows_steps w log count polys rowsf).
Proof using All.
  induction polys as [|a polys IH]; intros rows rowsf Tp E; cbn [rows_steps]; [constructor|].
  apply mapM_F2 in E. inversion E as [|r rf rows' rowsf' E1 E2]; subst; [constructor|]. apply Forall_cons_iff in Tp as [Ta Tp].
  apply Forall2_app.
  - unfold glev_steps. assert (Lr : length rf = length r) by (destruct (mapM_inv _ {| ga := []; gb := [] |} {| fa := []; fb := [] |} _ _ E1); assumption). rewrite Lr.
    apply mapM_rev in E1. generalize (digit_polys w log (length r) (map (rnd w log count) a)). intros ds. revert ds.
    induction E1 as [|x y l l' Hx E1 IH1]; intros [|d ds]; cbn [combine]; constructor; [split; [exact Hx|reflexivity]|apply IH1].
  - apply IH; [assumption|]. clear - E2. induction E2; cbn [mapM]; [reflexivity|]. rewrite H. cbn [bind]. rewrite IHE2. reflexivity.
Qed.

(** ** The error of the product *)
Context (Hr : f64_rounding (ef_fl X)).
Definition prod_bound : R := SpecFft.fft_err n u eta tau delta (IZR (2 ^ (w - 1))) (IZR (2 ^ (log - 1))) ((k + 1) * count) + 3 / 2.

Lemma product_fft a g gf D : glwe_wf w (2 * n) k a -> length g = S k -> Forall (fun r => length r = count /\ Forall (glwe_wf w (2 * n) k) r) g ->
  mapM (glev_to_fft X w (2 * n) k) g = Ok gf -> (prod_bound <= IZR D)%R ->
  exists pf pe d, glwe_ggsw_mad_fft X x86 m pr w log count (2 * n) k (glwe_fft_zero (2 * n) k) a gf = Ok pf /\
    glwe_ggsw_mad pr w log count (2 * n) k (glwe_new (2 * n) k) a g = Ok pe /\
    glwe_from_fft X w (2 * n) pf = Ok (glwe_perturb w pe d) /\ SpecBoot.fft_err (2 * n) k D d.
Proof using All.
  intros Wa Lg Fg Eg HD. pose proof (word_pos w Hw) as Wp. assert (Hw1000 : (1 <= w <= 1000)%Z) by (destruct Hw; lia).
  assert (Hp2' : is_pow2 (2 * n) = true) by (rewrite is_pow2_half; assumption).
  destruct Wa as (([La Fa] & Lab) & Ta & Tab).
  set (polys := ga a ++ [gb a]).
  assert (Tp : Forall (toruses w) polys) by (apply Forall_app; auto).
  assert (Lp : Forall (fun p => length p = (2 * n)%nat) polys) by (apply Forall_app; auto).
  assert (Lpn : length polys = S k) by (unfold polys; rewrite app_length; cbn [length]; lia).
  assert (Fg' : Forall (fun r => length r = count /\ Forall (glwe_shape (2 * n) k) r) g).
  { eapply Forall_impl; [|exact Fg]. intros r (A & B). split; [exact A|]. eapply Forall_impl; [|exact B]. intros c Hc. apply Hc. }
  assert (Lgf : Forall (fun r => length r = count) gf).
  { apply mapM_F2 in Eg. clear - Eg Fg. revert Fg. induction Eg as [|r rf l l' E Eg IH]; intros Fg; constructor; apply Forall_cons_iff in Fg as [[Lr _] Fg]; [|now apply IH].
    destruct (mapM_inv _ {| ga := []; gb := [] |} {| fa := []; fb := [] |} _ _ E) as (L & _). lia. }
  assert (Lg1 : Forall (fun r => length r = count) g) by (eapply Forall_impl; [|exact Fg']; intros r H; apply H).
  set (ss := rows_steps w log count polys g).
  destruct (step_ok_rows (2 * n) w log count k Hl Hcount Hs polys g Lp Fg') as (So & Sd & Sl).
  fold ss in So, Sd, Sl. rewrite Lpn, Lg, Nat.min_id in Sl.
  pose proof (steps_same polys g gf Tp Eg) as Ss. fold ss in Ss.
  assert (Szero : shapef n k (glwe_fft_zero (2 * n) k)).
  { split; [apply repeat_length|]. cbn [fa fb glwe_fft_zero]. rewrite half_twice. split; [|apply repeat_length].
    apply Forall_forall. intros x Hx. apply repeat_spec in Hx. subst. apply repeat_length. }
  destruct (steps_fft ss (rows_steps w log count polys gf) _ So Ss Szero) as (pf & Epf & Spf & Mpf).
  destruct (steps_exact (2 * n) w Hw count k Hcount Hp2' ss (glwe_new (2 * n) k) So (glwe_new_wf (2 * n) w k ltac:(lia))) as (pe & Epe & Wpe & Hpe).
  exists pf, pe.
  (* every component *)
  assert (HC : forall j, (j < S k)%nat -> exists d, (length d = (2 * n)%nat /\ Forall (fun x => Z.abs x <= D) d) /\
     poly_ifft X w (compf j pf) (2 * n) = Ok (poly_add_assign w (comp j pe) d)).
  { intros j Hj. assert (Hjk : (j <= k)%nat) by lia.
    assert (HL : Forall (pair_len (2 * n)) (pairs j ss)).
    { unfold pairs. apply Forall_forall. intros p Hp. apply in_map_iff in Hp as (s & <- & Hin).
      destruct (proj1 (Forall_forall _ _) So s Hin) as (S1 & S2). split; cbn [fst snd]; [|exact S2]. apply comp_len with (k := k) (count := count); assumption. }
    assert (Wss : Forall (fun s => glwe_wf w (2 * n) k (fst s)) ss).
    { unfold ss. clear - Fg. revert g Fg. induction polys as [|p ps IH]; intros [|r g] Fg; cbn [rows_steps]; try constructor.
      apply Forall_cons_iff in Fg as [[_ Fr] Fg]. apply Forall_app. split; [|now apply IH]. apply Forall_forall. intros [b d] Hin. cbn [fst].
      apply (proj1 (Forall_forall _ _) Fr). apply in_rev. eapply in_combine_l; exact Hin. }
    assert (HB : Forall (pair_bound n w (IZR (2 ^ (w - 1))) (IZR (2 ^ (log - 1)))) (pairs j ss)).
    { unfold pairs. apply Forall_forall. intros p Hp. apply in_map_iff in Hp as (s & <- & Hin).
      pose proof (proj1 (Forall_forall _ _) Wss s Hin) as W1. pose proof (proj1 (Forall_forall _ _) Sd s Hin) as D1. cbv beta in W1, D1.
      destruct (proj1 (Forall_forall _ _) So s Hin) as (S1 & S2).
      split; cbn [fst snd]; intros i Hi; apply IZR_abs_le; unfold scoef.
      - apply sint_bound; [assumption|]. apply (proj1 (Forall_forall _ _) (comp_torus w n k j _ W1 Hjk)). apply nth_In. rewrite (comp_len (2 * n) count k Hcount j _ S1 Hjk). exact Hi.
      - apply (proj1 (Forall_forall _ _) D1). apply nth_In. lia. }
    assert (PA : (0 <= IZR (2 ^ (w - 1)))%R) by (apply IZR_le; apply Z.pow_nonneg; lia).
    assert (PB : (0 <= IZR (2 ^ (log - 1)))%R) by (apply IZR_le; apply Z.pow_nonneg; lia).
    destruct (float_err X n u eta tau delta Hac Hn w _ _ PA PB Hp2 Hlog x86 m Hx86 Hw1000 Hr (pairs j ss) HL HB) as (out & Eo & Lo & Ho).
    unfold fft_sum_of_products in Eo. rewrite <- (compf_zero n k j Hjk), (Mpf j Hjk) in Eo. cbn [bind] in Eo. rewrite (Nat.mul_comm n 2) in Eo.
    destruct (list_choice 0 (fun i d => Z.abs d <= D /\ nth i out 0 = (sum_of_products (2 * n) w (pairs j ss) i + d) mod 2 ^ w) (2 * n)) as (d & Ld & Hd).
    { intros i Hi. destruct (Ho i Hi) as (d & Bd & Ed). exists d. split; [|exact Ed]. apply le_IZR. rewrite abs_IZR.
      eapply Rle_trans; [exact Bd|]. eapply Rle_trans; [|exact HD]. unfold prod_bound, pairs. rewrite map_length, Sl. replace (S k) with (k + 1)%nat by lia. apply Rle_refl. }
    exists d. split; [split; [exact Ld|]|].
    - apply Forall_forall. intros x Hx. apply (In_nth _ _ 0) in Hx as (i & Hi & <-). apply Hd. lia.
    - rewrite Eo. f_equal. assert (Lc : length (comp j pe) = (2 * n)%nat) by (apply comp_len with (k := k) (count := count); [exact Hcount|apply Wpe|exact Hjk]).
      apply list_eq_nth.
      + unfold poly_add_assign. rewrite Lo. symmetry. clear - Lc Ld. rewrite <- Lc in *. revert d Ld. generalize (comp j pe). induction l as [|x l IH]; intros [|y d]; cbn [zip_assign length]; intros; try lia. rewrite IH; lia.
      + intros i Hi. rewrite Lo in Hi. unfold poly_add_assign. rewrite (nth_zip _ 0) by lia. destruct (Hd i Hi) as (_ & ->).
        unfold tadd, uwrap. pose proof (Hpe j i Hjk Hi) as HH. rewrite (comp_new n k j i Hjk), Z.add_0_l in HH. unfold zeq in HH.
        rewrite <- (Zplus_mod_idemp_l (nth i (comp j pe) 0)), HH, Zplus_mod_idemp_l. reflexivity. }
  destruct (list_choice [] _ (S k) HC) as (ds & Lds & Hds).
  set (d := {| ga := firstn k ds; gb := nth k ds [] |}).
  assert (Ld : length (ga d) = k) by (cbn [ga d]; rewrite firstn_length; lia).
  assert (Cd : forall j, (j <= k)%nat -> comp j d = nth j ds []).
  { intros j Hj. destruct (Nat.eq_dec j k) as [->|Ne].
    - now rewrite comp_b' by assumption.
    - rewrite comp_a by lia. cbn [ga d]. clear - Hj Ne. revert j Hj Ne. generalize k as K. induction ds as [|y ds IH]; intros [|K] [|j] Hj Ne; cbn [firstn nth]; try reflexivity; try lia. apply IH; lia. }
  exists d. split; [|split; [|split]].
  - unfold glwe_ggsw_mad_fft. fold polys. rewrite (rows_mad_steps_fft polys gf _ Tp Lgf). exact Epf.
  - unfold glwe_ggsw_mad. fold polys. rewrite (rows_mad_steps (2 * n) w Hw pr log count k Hl Hcount Hs polys g _ Tp Lg1). exact Epe.
  - assert (Lpe : length (ga pe) = k) by apply Wpe.
    destruct (Spf) as (Lfa & Ffa & Lfb).
    unfold glwe_from_fft. 
    assert (EA : mapM (fun p => poly_ifft X w p (2 * n)) (fa pf) = Ok (map (fun j => comp j (glwe_perturb w pe d)) (seq 0 k))).
    { assert (E1 : fa pf = map (fun j => compf j pf) (seq 0 k)).
      { apply (nth_ext _ _ [] []); [now rewrite map_length, seq_length|]. intros j Hj. rewrite (nth_indep (map _ _) [] (compf 0 pf)) by (rewrite map_length, seq_length; lia).
        rewrite (map_nth (fun j => compf j pf)), seq_nth by lia. cbn [Nat.add]. rewrite compf_a by lia. reflexivity. }
      rewrite E1. clear E1. assert (G : forall l, (forall j, In j l -> (j < k)%nat) -> mapM (fun p => poly_ifft X w p (2 * n)) (map (fun j => compf j pf) l) = Ok (map (fun j => comp j (glwe_perturb w pe d)) l)).
      { induction l as [|j l IH]; intros Hin; cbn [map mapM]; [reflexivity|]. assert (Hj : (j < k)%nat) by (apply Hin; now left).
        destruct (Hds j ltac:(lia)) as (_ & ->). cbn [bind]. rewrite IH by (intros; apply Hin; now right). cbn [bind].
        rewrite (comp_perturb w k pe d j Lpe Ld), Cd by lia. reflexivity. }
      apply G. intros j Hj. apply in_seq in Hj. lia. }
    rewrite EA. cbn [bind]. rewrite <- (compf_b k pf Lfa). destruct (Hds k ltac:(lia)) as (_ & ->). cbn [bind]. f_equal.
    assert (Lq : length (ga (glwe_perturb w pe d)) = k).
    { cbn [ga glwe_perturb]. transitivity (length (ga pe)); [|exact Lpe]. clear - Lpe Ld. assert (length (ga pe) = length (ga d)) as L by lia. clear Lpe Ld. revert L. generalize (ga d). induction (ga pe) as [|x l IH]; intros [|y l']; cbn [zip_assign length]; intros; try lia. rewrite IH; lia. }
    apply (comp_ext k); [cbn [ga]; now rewrite map_length, seq_length|exact Lq|].
    intros j Hj. destruct (Nat.eq_dec j k) as [->|Ne].
    + rewrite comp_b' by (cbn [ga]; now rewrite map_length, seq_length). cbn [gb]. rewrite (comp_perturb w k pe d k Lpe Ld) by lia. rewrite Cd by lia. reflexivity.
    + rewrite comp_a by (cbn [ga]; rewrite map_length, seq_length; lia). cbn [ga]. rewrite (nth_indep _ [] (comp 0 (glwe_perturb w pe d))) by (rewrite map_length, seq_length; lia).
      rewrite (map_nth (fun j => comp j (glwe_perturb w pe d))), seq_nth by lia. reflexivity.
  - split; [split; [split|]|split].
    + exact Ld.
    + apply Forall_forall. intros x Hx. apply (In_nth _ _ []) in Hx as (j & Hj & <-). rewrite <- comp_a, Cd by lia. apply Hds. lia.
    + rewrite <- (comp_b' k d Ld), Cd by lia. apply Hds. lia.
    + apply Forall_forall. intros x Hx. apply (In_nth _ _ []) in Hx as (j & Hj & <-). rewrite <- comp_a, Cd by lia. apply Hds. lia.
    + rewrite <- (comp_b' k d Ld), Cd by lia. apply Hds. lia.
Qed.
End Any.
