(** Ciphertexts in the Fourier domain as approximations of integer ciphertexts: what each operation does to the error. *)
From Coq Require Import Reals ZArith List Lia Lra Bool.
From Coquelicot Require Import Complex.
From Verif Require Import Base Alu AluProofs MuxGraph PolyRing Tfhe TfheGlwe TfheBoot SpecTfhe SpecGlwe SpecBoot FluentIntProofs TfheProofs TfheProofs2 TfheProofs3
  TfheGlweProofs TfheGlweProofs2 TfheGlweProofs3 TfheGlweProofs4 TfheBootProofs TfheBootProofs2 TfheBootProofs3 TfheBootProofs4.
From Verif Require Import Fft FftGlwe SpecFft FftProofs FftProofs2 FftProofs3 FftProofs4 FftProofs5 FftProofs6 FftGlweProofs FftGlweProofs2 SpecFftGlwe.
Import ListNotations.
Ltac Zify.zify_post_hook ::= idtac.
Open Scope Z_scope.

Section Rep.
Context (X : ext) (n : nat) (u eta tau delta : R) (Hac : accurate X n u eta tau delta) (Hn : (0 < n)%nat).
Context (w : Z) (Hw : word w) (Hp2 : is_pow2 n = true) (Hlog : (2 * n <= 4096)%nat).
Context (x86 : bool) (m : mad_kernel) (Hx86 : x86 = true -> (n mod 8 = 0)%nat) (k : nat).
Notation fe := (fwd_err n u eta tau delta).
Notation fq := (freq n).

(** The points [F] are the values of the integer polynomial [v] up to [e]; those values are at most [s]. *)
Definition rep (e s : R) (F : list C) (v : nat -> Z) : Prop :=
  length F = n /\ forall t, (t < n)%nat -> (Cmod (nth t F (RtoC 0) - ev n t v)%C <= e)%R /\ (Cmod (ev n t v) <= s)%R.
(** The transforms [f] approximate some integer polynomials congruent to those of [c]. *)
Definition crep (e s : R) (f : glwe_fft) (c : glwe) : Prop :=
  shapef n k f /\ forall j, (j <= k)%nat -> exists v, rep e s (compf j f) v /\ forall i, (i < 2 * n)%nat -> congr w (v i) (nth i (comp j c) 0).

Lemma rep_pos e s F v : rep e s F v -> (0 <= e /\ 0 <= s)%R.
Proof using Hn. intros (_ & H). destruct (H 0%nat Hn) as [A B]. split; (eapply Rle_trans; [apply Cmod_ge_0|]); eassumption. Qed.

Lemma mad_step_gen (c a b ec ea eb : C) e s e1 s1 e2 s2 :
  (Cmod (c - ec)%C <= e)%R -> (Cmod ec <= s)%R -> (Cmod (a - ea)%C <= e1)%R -> (Cmod ea <= s1)%R ->
  (Cmod (b - eb)%C <= e2)%R -> (Cmod eb <= s2)%R ->
  (Cmod (mad_elem m (ef_fl X) c a b - (ec + ea * eb))%C <= mad_gen_err u eta e1 s1 e2 s2 e s)%R.
Proof using Hac.
  intros Hc Bc Ha Ba Hb Bb. pose proof (Hu X n u eta tau delta Hac) as Hu. pose proof (Heta X n u eta tau delta Hac) as Heta.
  eapply Rle_trans; [apply (mod_split _ (c + a * b)%C)|].
  pose proof (mad_err (ef_fl X) u eta Hu Heta (ac_fl _ _ _ _ _ _ Hac) m c a b) as E1.
  replace (c + a * b - (ec + ea * eb))%C with ((c - ec) + (a * b - ea * eb))%C by ring.
  pose proof (Cmod_triangle (c - ec)%C (a * b - ea * eb)%C) as E2.
  pose proof (mul_err ea a eb b _ _ Ha Hb) as E3.
  assert (Ma : (Cmod a <= s1 + e1)%R) by (pose proof (mod_sub a ea); lra).
  assert (Mb : (Cmod b <= s2 + e2)%R) by (pose proof (mod_sub b eb); lra).
  assert (Mc : (Cmod c <= s + e)%R) by (pose proof (mod_sub c ec); lra).
  pose proof (Cmod_ge_0 (a - ea)%C). pose proof (Cmod_ge_0 (b - eb)%C). pose proof (Cmod_ge_0 a). pose proof (Cmod_ge_0 b).
  pose proof (Cmod_ge_0 eb).
  assert (T1 : (Cmod a * e2 <= (s1 + e1) * e2)%R) by (apply Rmult_le_compat_r; lra).
  assert (T2 : (e1 * Cmod eb <= e1 * s2)%R) by (apply Rmult_le_compat_l; lra).
  assert (T3 : (Cmod a * Cmod b <= (s1 + e1) * (s2 + e2))%R) by (apply Rmult_le_compat; lra).
  assert (T4 : (14 * u * (Cmod c + Cmod a * Cmod b) <= 14 * u * (s + e + (s1 + e1) * (s2 + e2)))%R).
  { apply Rmult_le_compat_l; lra. }
  unfold mad_gen_err. lra.
Qed.

Lemma pow2_2n : is_pow2 (2 * n) = true.
Proof using Hn Hp2. rewrite is_pow2_half; assumption. Qed.

Lemma poly_fft_rep p F D : length p = (2 * n)%nat -> (0 <= D)%R -> (forall i, (i < 2 * n)%nat -> (Rabs (IZR (scoef w p i)) <= D)%R) ->
  poly_fft X w p n = Ok F -> rep (fe D) (fq D) F (scoef w p).
Proof using Hac Hn Hp2 Hlog.
  intros Lp HD Hb E. destruct (poly_fft_err X n u eta tau delta Hac Hn w pow2_2n (log_lt n Hn Hlog) p D Lp HD Hb) as (F' & E' & L & H).
  rewrite E in E'. injection E' as <-. split; [exact L|]. intros t Ht. split; [apply H, Ht|]. apply ev_bound, Hb.
Qed.

Lemma multiply_add_rep c a b c' v x y e s e1 s1 e2 s2 : rep e s c v -> rep e1 s1 a x -> rep e2 s2 b y -> multiply_add X x86 m c a b = Ok c' ->
  rep (mad_gen_err u eta e1 s1 e2 s2 e s) (s + s1 * s2) c' (fun i => v i + negacyclic (2 * n) x y i).
Proof using Hac Hn Hx86.
  intros (Lc & Hc) (La & Ha) (Lb & Hb) E. unfold multiply_add in E. rewrite Lc, La, Lb, Nat.eqb_refl in E. cbn [andb] in E.
  assert (E' : Ok (mad_loop (mad_elem m (ef_fl X)) c a b) = Ok c').
  { destruct x86; [|exact E]. rewrite Hx86 in E by reflexivity. exact E. }
  injection E' as <-. destruct (mad_loop_spec (mad_elem m (ef_fl X)) c a b n Lc La Lb) as [Lm Nm]. split; [exact Lm|].
  intros t Ht. rewrite Nm by exact Ht. rewrite ev_add, ev_mul by exact Hn.
  destruct (Hc t Ht), (Ha t Ht), (Hb t Ht). split; [now apply mad_step_gen|].
  eapply Rle_trans; [apply Cmod_triangle|]. rewrite Cmod_mult. apply Rplus_le_compat; [assumption|]. apply Rmult_le_compat; auto using Cmod_ge_0.
Qed.

Lemma to_fft_rep c f : glwe_wf w (2 * n) k c -> glwe_to_fft X w (2 * n) k c = Ok f ->
  crep (fe (IZR (2 ^ (w - 1)))) (fq (IZR (2 ^ (w - 1)))) f c.
Proof using All.
  intros Wc E. pose proof (word_pos w Hw) as Wp. destruct (glwe_to_fft_ok X n u eta tau delta Hac Hn w Hw Hp2 Hlog x86 m Hx86 k c (proj1 Wc)) as (f' & E' & Sf & H).
  rewrite E in E'. injection E' as <-. split; [exact Sf|]. intros j Hj. exists (scoef w (comp j c)).
  assert (Lc : length (comp j c) = (2 * n)%nat) by (apply (comp_len (2 * n) 1 k (le_n 1)); [apply Wc|exact Hj]).
  split; [|intros i Hi; apply sint_congr].
  apply poly_fft_rep; [exact Lc| | |exact (H j Hj)].
  - apply IZR_le. apply Z.pow_nonneg. lia.
  - intros i Hi. apply IZR_abs_le. unfold scoef. apply sint_bound; [exact Hw|].
    apply (proj1 (Forall_forall _ _) (comp_torus w n k j c Wc Hj)). apply nth_In. lia.
Qed.
Lemma zero_rep : crep 0 0 (glwe_fft_zero (2 * n) k) (glwe_new (2 * n) k).
Proof using Hn.
  split.
  - split; [apply repeat_length|]. cbn [fa fb glwe_fft_zero]. rewrite half_twice. split; [|apply repeat_length].
    apply Forall_forall. intros x Hx. apply repeat_spec in Hx. subst. apply repeat_length.
  - intros j Hj. exists (fun _ => 0%Z). split.
    + rewrite compf_zero by exact Hj. split; [apply repeat_length|]. intros t Ht. rewrite nth_repeat, ev_0. unfold Cminus. rewrite Cplus_opp_r, Cmod_0. lra.
    + intros i Hi. rewrite comp_new by exact Hj. reflexivity.
Qed.

(** One multiply-add of a ciphertext by a digit polynomial. *)
Lemma step_rep cf c bf b d e s e1 s1 B c' : crep e s cf c -> glwe_wf w (2 * n) k c -> crep e1 s1 bf b -> glwe_shape (2 * n) k b -> length d = (2 * n)%nat ->
  (0 <= B)%R -> (forall i, (i < 2 * n)%nat -> (Rabs (IZR (scoef w d i)) <= B)%R) ->
  estep w k c (b, d) = Ok c' ->
  exists cf', fstep X n w x86 m k cf (bf, d) = Ok cf' /\ crep (mad_gen_err u eta e1 s1 (fe B) (fq B) e s) (s + s1 * fq B) cf' c'.
Proof using All.
  intros (Sc & Hc) Wc (Sb & Hb) Shb Ld HB Bd Ec. pose proof (word_pos w Hw) as Wp.
  destruct (poly_fft_total X n u eta tau delta Hac Hn w Hw Hp2 Hlog x86 m Hx86 k d Ld) as (df & Ed & Ldf).
  unfold fstep. cbn [fst snd]. rewrite Ed. cbn [bind].
  destruct (glwe_poly_mad_fft_ok X x86 m n Hx86 k cf bf df Sc Sb Ldf) as (cf' & E1 & S1 & M1). exists cf'. split; [exact E1|]. split; [exact S1|].
  intros j Hj. destruct (Hc j Hj) as (v & Rv & Cv). destruct (Hb j Hj) as (x & Rx & Cx).
  exists (fun i => v i + negacyclic (2 * n) x (scoef w d) i)%Z. split.
  - exact (multiply_add_rep _ _ _ _ v x (scoef w d) e s e1 s1 (fe B) (fq B) Rv Rx (poly_fft_rep d df B Ld HB Bd Ed) (M1 j Hj)).
  - intros i Hi. unfold estep in Ec. cbn [fst snd] in Ec.
    assert (Em : poly_mad w (comp j c) (comp j b) d = Ok (comp j c')).
    { destruct (glwe_poly_mad_ok (2 * n) w k c b d pow2_2n (proj1 Wc) Shb Ld) as (c1 & E & S' & _). rewrite Ec in E. injection E as <-.
      clear - Ec Wc Shb Hj S'. unfold glwe_poly_mad in Ec. destruct Wc as (Sc & _). destruct Sc as [[Lc Fc] Lcb], Shb as [[Lb Fb] Lbb], S' as [[L1 F1] L1b].
      rewrite Lc, Lb, Nat.eqb_refl in Ec. cbn [andb] in Ec.
      destruct (zip2M _ _ _) as [a| |] eqn:Ex; try discriminate. cbn [bind] in Ec.
      destruct (poly_mad w (gb c) (gb b) d) as [y| |] eqn:Ey; try discriminate. cbn [bind] in Ec. injection Ec as <-. cbn [ga gb] in *.
      destruct (Nat.eq_dec j k) as [->|Ne].
      - rewrite !comp_b' by assumption. exact Ey.
      - rewrite !comp_a by (cbn [ga]; lia). cbn [ga]. apply (zip2M_nth _ _ _ _ Ex); lia. }
    destruct (poly_mad_ok w (2 * n) (comp j c) (comp j b) d pow2_2n) as (r & Er & _ & _ & P).
    1: apply (comp_len (2 * n) 1 k (le_n 1)); assumption.
    1: exact Ld.
    1: apply (comp_len (2 * n) 1 k (le_n 1)); [apply Wc|assumption].
    rewrite Em in Er. injection Er as <-. symmetry. etransitivity; [apply (P i Hi)|]. unfold padd. apply zeq_add; [symmetry; apply Cv, Hi|].
    rewrite negacyclic_pmul by exact Hi.
    assert (Q1 : peq (2 * n) (2 ^ w) (coef (comp j b)) x) by (intros t Ht; symmetry; apply Cx, Ht).
    assert (Q2 : peq (2 * n) (2 ^ w) (coef d) (scoef w d)) by (intros t Ht; symmetry; apply sint_congr).
    assert (Q : peq (2 * n) (2 ^ w) (pmul (2 * n) (coef (comp j b)) (coef d)) (pmul (2 * n) x (scoef w d))) by (rewrite Q1, Q2; reflexivity).
    apply (Q i Hi).
Qed.

Lemma steps_rep e1 s1 B : (0 <= B)%R -> forall ss fs cf c e s, Forall (step_ok (2 * n) k) ss ->
  Forall (fun s => forall i, (i < 2 * n)%nat -> (Rabs (IZR (scoef w (snd s) i)) <= B)%R) ss ->
  Forall2 (fun s f => crep e1 s1 (fst f) (fst s) /\ snd s = snd f) ss fs ->
  glwe_wf w (2 * n) k c -> crep e s cf c ->
  exists cf' c', foldM (fstep X n w x86 m k) fs cf = Ok cf' /\ foldM (estep w k) ss c = Ok c' /\ glwe_wf w (2 * n) k c' /\
    crep (mads_err u eta e1 s1 (fe B) (fq B) (length ss) e s) (s + INR (length ss) * (s1 * fq B)) cf' c'.
Proof using All.
  intros HB. pose proof (word_pos w Hw) as Wp. induction ss as [|[b d] ss IH]; intros fs cf c e s Fs Fd F2 Wc Rc; inversion F2 as [|? f ? fs' [H1 H2] F2']; subst; cbn [foldM].
  - exists cf, c. split; [reflexivity|]. split; [reflexivity|]. split; [exact Wc|]. cbn [length mads_err INR]. replace (s + 0 * (s1 * fq B))%R with s by ring. exact Rc.
  - destruct f as [bf d']. apply Forall_cons_iff in Fs as [(Sb & Ld) Fs]. apply Forall_cons_iff in Fd as [Bd Fd]. cbn [fst snd] in *. subst d'.
    destruct (glwe_poly_mad_ok (2 * n) w k c b d pow2_2n (proj1 Wc) Sb Ld) as (c1 & E1 & S1 & W1 & _). specialize (W1 ltac:(lia) Wc).
    destruct (step_rep cf c bf b d e s e1 s1 B c1 Rc Wc H1 Sb Ld HB Bd E1) as (cf1 & Ef1 & R1).
    rewrite Ef1. unfold estep at 1. cbn [fst snd]. rewrite E1. cbn [bind].
    destruct (IH fs' cf1 c1 _ _ Fs Fd F2' W1 R1) as (cf' & c' & A & B' & C' & D'). exists cf', c'. split; [exact A|]. split; [exact B'|]. split; [exact C'|].
    cbn [length mads_err]. rewrite S_INR. replace (s + (INR (length ss) + 1) * (s1 * fq B))%R with (s + s1 * fq B + INR (length ss) * (s1 * fq B))%R by ring. exact D'.
Qed.

(** ** Gadget products *)
Context (pr : profile) (log : Z) (count : nat) (Hl : 1 <= log) (Hcount : (1 <= count)%nat) (Hs : log * Z.of_nat count < w).
Notation B := (IZR (2 ^ (log - 1))).

Definition rowrep (e s : R) (rf : list glwe_fft) (r : list glwe) : Prop := Forall2 (crep e s) rf r.
Definition rows_wf (rows : list (list glwe)) : Prop := Forall (fun r => length r = count /\ Forall (glwe_wf w (2 * n) k) r) rows.

Lemma F2_rev {A C} (R : A -> C -> Prop) l l' : Forall2 R l l' -> Forall2 R (rev l) (rev l').
Proof. induction 1; cbn [rev]; [constructor|]. apply Forall2_app; [assumption|]. repeat constructor; assumption. Qed.
Lemma F2_len {A C} (R : A -> C -> Prop) l l' : Forall2 R l l' -> length l = length l'.
Proof. induction 1; cbn [length]; congruence. Qed.

Lemma steps_same_rep e1 s1 polys : forall rows rowsf, Forall2 (rowrep e1 s1) rowsf rows ->
  Forall2 (fun s f => crep e1 s1 (fst f) (fst s) /\ snd s = snd f) (rows_steps w log count polys rows) (rows_steps w log count polys rowsf).
Proof using All.
  induction polys as [|a polys IH]; intros rows rowsf E; cbn [rows_steps]; [constructor|].
  inversion E as [|rf r rowsf' rows' E1 E2]; subst; [constructor|].
  apply Forall2_app; [|now apply IH]. unfold glev_steps. rewrite (F2_len _ _ _ E1). apply F2_rev in E1.
  generalize (digit_polys w log (length r) (map (rnd w log count) a)). revert E1. generalize (rev rf) (rev r). intros l l' E1.
  induction E1 as [|x y l l' Hx E1 IH1]; intros [|d ds]; cbn [combine]; constructor; [split; [exact Hx|reflexivity]|apply IH1].
Qed.

Lemma rows_rep e1 s1 polys rows rowsf cf c e s : Forall (toruses w) polys -> Forall (fun p => length p = (2 * n)%nat) polys -> length polys = length rows ->
  rows_wf rows -> Forall2 (rowrep e1 s1) rowsf rows -> glwe_wf w (2 * n) k c -> crep e s cf c ->
  exists cf' c', rows_mad_fft X x86 m pr w log count (2 * n) k cf polys rowsf = Ok cf' /\ rows_mad pr w log count (2 * n) k c polys rows = Ok c' /\
    glwe_wf w (2 * n) k c' /\
    crep (mads_err u eta e1 s1 (fe B) (fq B) (length rows * count) e s) (s + INR (length rows * count) * (s1 * fq B)) cf' c'.
Proof using All.
  intros Tp Lp Lpn Fr Hrep Wc Rc.
  assert (Fr' : Forall (fun r => length r = count /\ Forall (glwe_shape (2 * n) k) r) rows).
  { eapply Forall_impl; [|exact Fr]. intros r (A & B). split; [exact A|]. eapply Forall_impl; [|exact B]. intros x Hx. apply Hx. }
  assert (Lr : Forall (fun r => length r = count) rows) by (eapply Forall_impl; [|exact Fr']; intros r H; apply H).
  assert (Lrf : Forall (fun r => length r = count) rowsf).
  { clear - Hrep Lr. induction Hrep as [|rf r l l' E Hrep IH]; [constructor|]. apply Forall_cons_iff in Lr as [L Lr]. constructor; [|now apply IH].
    pose proof (F2_len _ _ _ E) as Q. lia. }
  destruct (step_ok_rows (2 * n) w log count k Hl Hcount Hs polys rows Lp Fr') as (So & Sd & Sl). rewrite Lpn, Nat.min_id in Sl.
  rewrite (rows_mad_steps_fft X n u eta tau delta Hac Hn w Hw Hp2 Hlog x86 m Hx86 k pr log count Hl Hcount Hs polys rowsf cf Tp Lrf).
  rewrite (rows_mad_steps (2 * n) w Hw pr log count k Hl Hcount Hs polys rows c Tp Lr).
  rewrite <- Sl. apply steps_rep.
  - apply IZR_le. apply Z.pow_nonneg. lia.
  - exact So.
  - apply Forall_forall. intros s0 Hin i Hi. apply IZR_abs_le. unfold scoef.
    apply (proj1 (Forall_forall _ _) (proj1 (Forall_forall _ _) Sd s0 Hin)). apply nth_In. rewrite (proj2 (proj1 (Forall_forall _ _) So s0 Hin)). exact Hi.
  - now apply steps_same_rep.
  - exact Wc.
  - exact Rc.
Qed.

(** ** Back to integers *)
Context (Hr : f64_rounding (ef_fl X)).

Lemma poly_ifft_rep e s F v : rep e s F v -> exists out, poly_ifft X w F (2 * n) = Ok out /\ length out = (2 * n)%nat /\
  forall i, (i < 2 * n)%nat -> exists d : Z, (Rabs (IZR d) <= untwist_err n u eta tau delta e s + 3 / 2)%R /\ nth i out 0 = (v i + d) mod 2 ^ w.
Proof using All.
  intros R. destruct (rep_pos e s F v R) as (He & Hs'). destruct R as (L & H). assert (Hw1000 : 1 <= w <= 1000) by (destruct Hw; lia).
  destruct (get_fft_new X n pow2_2n (log_lt n Hn Hlog)) as (t & G & T).
  destruct (reverse_err X n u eta tau delta Hac Hn (log_lt n Hn Hlog) x86 Hx86 t F v e s T L He Hs' H) as (out & R1 & R2 & R3).
  exists (map (mod_pow2_elem (ef_fl X) w) out). split; [|split].
  - unfold poly_ifft. rewrite L, Hp2. replace (2 * n =? n * 2)%nat with true by (symmetry; apply Nat.eqb_eq; lia). cbn [andb]. rewrite G. cbn [bind]. rewrite R1.
    replace (n * 2 =? 2 * n)%nat with true by (symmetry; apply Nat.eqb_eq; lia). reflexivity.
  - rewrite map_length. exact R2.
  - intros i Hi. destruct (R3 i Hi) as (y0 & Hy & He').
    rewrite (nth_indep _ 0%Z (mod_pow2_elem (ef_fl X) w 0)) by (rewrite map_length; lia).
    rewrite (map_nth (mod_pow2_elem (ef_fl X) w)), Hy.
    rewrite (mod_pow2_elem_f64 _ _ _ Hr Hw1000) by (apply f64_round, fr_f64, Hr).
    set (V := rround (ef_fl X y0)) in *. destruct (reduced_near w V ltac:(lia)) as (d & Hd & Ed).
    exists (V + d - v i)%Z. split.
    + rewrite minus_IZR, plus_IZR. pose proof (rround_near (ef_fl X y0)) as Hrn. fold V in Hrn.
      assert (Hdb : (Rabs (IZR d) <= 1)%R).
      { destruct Hd as [-> | ->]; [rewrite Rabs_R0; lra|]. rewrite Rabs_left; lra. }
      replace (IZR V + IZR d - IZR (v i))%R with ((IZR V - ef_fl X y0) + (ef_fl X y0 - IZR (v i)) + IZR d)%R by ring.
      eapply Rle_trans; [apply Rabs_triang|].
      pose proof (Rabs_triang (IZR V - ef_fl X y0) (ef_fl X y0 - IZR (v i))). lra.
    + rewrite Ed. f_equal. ring.
Qed.

Lemma from_fft_rep e s pf pe D : crep e s pf pe -> glwe_wf w (2 * n) k pe -> (untwist_err n u eta tau delta e s + 3 / 2 <= IZR D)%R ->
  exists d, glwe_from_fft X w (2 * n) pf = Ok (glwe_perturb w pe d) /\ SpecBoot.fft_err (2 * n) k D d.
Proof using All.
  intros (Spf & HR) Wpe HD.
  assert (HC : forall j, (j < S k)%nat -> exists d, (length d = (2 * n)%nat /\ Forall (fun x => Z.abs x <= D) d) /\
     poly_ifft X w (compf j pf) (2 * n) = Ok (poly_add_assign w (comp j pe) d)).
  { intros j Hj. assert (Hjk : (j <= k)%nat) by lia. destruct (HR j Hjk) as (v & Rv & Cv).
    destruct (poly_ifft_rep e s _ v Rv) as (out & Eo & Lo & Ho).
    destruct (list_choice 0 (fun i d => Z.abs d <= D /\ nth i out 0 = (v i + d) mod 2 ^ w) (2 * n)) as (d & Ld & Hd).
    { intros i Hi. destruct (Ho i Hi) as (d & Bd & Ed). exists d. split; [|exact Ed]. apply le_IZR. rewrite abs_IZR. lra. }
    exists d. split; [split; [exact Ld|]|].
    - apply Forall_forall. intros x Hx. apply (In_nth _ _ 0) in Hx as (i & Hi & <-). apply Hd. lia.
    - rewrite Eo. f_equal. assert (Lc : length (comp j pe) = (2 * n)%nat) by (apply (comp_len (2 * n) 1 k (le_n 1)); [apply Wpe|exact Hjk]).
      apply list_eq_nth.
      + unfold poly_add_assign. rewrite Lo. symmetry. clear - Lc Ld. rewrite <- Lc in *. revert d Ld. generalize (comp j pe). induction l as [|x l IH]; intros [|y d]; cbn [zip_assign length]; intros; try lia. rewrite IH; lia.
      + intros i Hi. rewrite Lo in Hi. unfold poly_add_assign. rewrite (nth_zip _ 0) by lia. destruct (Hd i Hi) as (_ & ->).
        unfold tadd, uwrap. pose proof (Cv i Hi) as HH. unfold zeq in HH.
        rewrite <- (Zplus_mod_idemp_l (nth i (comp j pe) 0)), <- HH, Zplus_mod_idemp_l. reflexivity. }
  destruct (list_choice [] _ (S k) HC) as (ds & Lds & Hds).
  set (d := {| ga := firstn k ds; gb := nth k ds [] |}).
  assert (Ld : length (ga d) = k) by (cbn [ga d]; rewrite firstn_length; lia).
  assert (Cd : forall j, (j <= k)%nat -> comp j d = nth j ds []).
  { intros j Hj. destruct (Nat.eq_dec j k) as [->|Ne].
    - now rewrite comp_b' by assumption.
    - rewrite comp_a by lia. cbn [ga d]. clear - Hj Ne. revert j Hj Ne. generalize k as K. induction ds as [|y ds IH]; intros [|K] [|j] Hj Ne; cbn [firstn nth]; try reflexivity; try lia. apply IH; lia. }
  exists d. split.
  - assert (Lpe : length (ga pe) = k) by apply Wpe.
    destruct (Spf) as (Lfa & Ffa & Lfb).
    unfold glwe_from_fft.
    assert (EA : mapM (fun p => poly_ifft X w p (2 * n)) (fa pf) = Ok (map (fun j => comp j (glwe_perturb w pe d)) (seq 0 k))).
    { assert (E1 : fa pf = map (fun j => compf j pf) (seq 0 k)).
      { apply (nth_ext _ _ [] []); [now rewrite map_length, seq_length|]. intros j Hj. rewrite (nth_indep (map _ _) [] (compf 0 pf)) by (rewrite map_length, seq_length; lia).
        rewrite (map_nth (fun j => compf j pf)), seq_nth by lia. cbn [Nat.add]. rewrite compf_a by lia. reflexivity. }
      rewrite E1. clear E1. assert (G : forall l, (forall j, In j l -> (j < k)%nat) -> mapM (fun p => poly_ifft X w p (2 * n)) (map (fun j => compf j pf) l) = Ok (map (fun j => comp j (glwe_perturb w pe d)) l)).
      { induction l as [|j l IH]; intros Hin; cbn [map mapM]; [reflexivity|]. assert (Hj : (j < k)%nat) by (apply Hin; now left).
        destruct (Hds j ltac:(lia)) as (_ & ->). cbn [bind]. rewrite IH by (intros; apply Hin; now right). cbn [bind].
        rewrite (comp_perturb w k pe d j Lpe Ld), Cd by lia. reflexivity. }
      apply G. intros j Hj. apply in_seq in Hj. lia. }
    rewrite EA. cbn [bind]. rewrite <- (compf_b k pf Lfa). destruct (Hds k ltac:(lia)) as (_ & ->). cbn [bind]. f_equal.
    assert (Lq : length (ga (glwe_perturb w pe d)) = k).
    { cbn [ga glwe_perturb]. transitivity (length (ga pe)); [|exact Lpe]. clear - Lpe Ld. assert (length (ga pe) = length (ga d)) as L by lia. clear Lpe Ld. revert L. generalize (ga d). induction (ga pe) as [|x l IH]; intros [|y l']; cbn [zip_assign length]; intros; try lia. rewrite IH; lia. }
    apply (comp_ext k); [cbn [ga]; now rewrite map_length, seq_length|exact Lq|].
    intros j Hj. destruct (Nat.eq_dec j k) as [->|Ne].
    + rewrite comp_b' by (cbn [ga]; now rewrite map_length, seq_length). cbn [gb]. rewrite (comp_perturb w k pe d k Lpe Ld) by lia. rewrite Cd by lia. reflexivity.
    + rewrite comp_a by (cbn [ga]; rewrite map_length, seq_length; lia). cbn [ga]. rewrite (nth_indep _ [] (comp 0 (glwe_perturb w pe d))) by (rewrite map_length, seq_length; lia).
      rewrite (map_nth (fun j => comp j (glwe_perturb w pe d))), seq_nth by lia. reflexivity.
  - split; [split; [split|]|split].
    + exact Ld.
    + apply Forall_forall. intros x Hx. apply (In_nth _ _ []) in Hx as (j & Hj & <-). rewrite <- comp_a, Cd by lia. apply Hds. lia.
    + rewrite <- (comp_b' k d Ld), Cd by lia. apply Hds. lia.
    + apply Forall_forall. intros x Hx. apply (In_nth _ _ []) in Hx as (j & Hj & <-). rewrite <- comp_a, Cd by lia. apply Hds. lia.
    + rewrite <- (comp_b' k d Ld), Cd by lia. apply Hds. lia.
Qed.

(** A product of rows of a key that is known up to [e1] with polynomials of words. *)
Definition key_bound (e1 s1 : R) (K : nat) : R :=
  untwist_err n u eta tau delta (mads_err u eta e1 s1 (fe B) (fq B) (K * count) 0 0) (INR (K * count) * (s1 * fq B)) + 3 / 2.
Lemma rows_product e1 s1 polys rows rowsf D : Forall (toruses w) polys -> Forall (fun p => length p = (2 * n)%nat) polys -> length polys = length rows ->
  rows_wf rows -> Forall2 (rowrep e1 s1) rowsf rows -> (key_bound e1 s1 (length rows) <= IZR D)%R ->
  exists pf pe d, rows_mad_fft X x86 m pr w log count (2 * n) k (glwe_fft_zero (2 * n) k) polys rowsf = Ok pf /\
    rows_mad pr w log count (2 * n) k (glwe_new (2 * n) k) polys rows = Ok pe /\ glwe_wf w (2 * n) k pe /\
    glwe_from_fft X w (2 * n) pf = Ok (glwe_perturb w pe d) /\ SpecBoot.fft_err (2 * n) k D d.
Proof using All.
  intros Tp Lp Lpn Fr Hrep HD. pose proof (word_pos w Hw) as Wp.
  destruct (rows_rep e1 s1 polys rows rowsf _ _ 0 0 Tp Lp Lpn Fr Hrep (glwe_new_wf (2 * n) w k ltac:(lia)) zero_rep) as (pf & pe & E1 & E2 & W & R).
  rewrite Rplus_0_l in R. destruct (from_fft_rep _ _ pf pe D R W HD) as (d & E3 & Hd). exists pf, pe, d. auto.
Qed.
End Rep.
