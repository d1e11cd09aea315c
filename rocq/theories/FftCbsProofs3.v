(** Circuit bootstrapping in the Fourier domain. *)
From Coq Require Import Reals ZArith List Lia Lra Bool.
From Coquelicot Require Import Complex.
From Verif Require Import Base Alu AluProofs MuxGraph PolyRing Tfhe TfheGlwe TfheBoot SpecTfhe SpecGlwe SpecBoot SpecTrace SpecSwitch SpecCbs FluentIntProofs TfheProofs TfheProofs2 TfheProofs3
  TfheGlweProofs TfheGlweProofs2 TfheGlweProofs3 TfheGlweProofs4 TfheBootProofs TfheBootProofs2 TfheBootProofs3 TfheBootProofs4 TfheSwitchProofs TfheCbsProofs Props_Switch.
From Verif Require Import Fft FftGlwe FftCbs SpecFft FftProofs FftProofs2 FftProofs3 FftProofs4 FftProofs5 FftProofs6 FftGlweProofs FftGlweProofs2 FftGlweProofs3 SpecFftGlwe FftRep FftCbsProofs FftCbsProofs2.
Import ListNotations.
Ltac Zify.zify_post_hook ::= idtac.
Open Scope Z_scope.

Section Words.
Context (w : Z) (Hw : word w) (N k : nat).
Lemma shr_round_torus pr x s y : shr_round pr w x s = Ok y -> torus w y.
Proof using Hw.
  pose proof (word_pos w Hw) as Wp. unfold shr_round. destruct (usub _ _ _ _); try discriminate. cbn [bind]. destruct (ushr pr w x _); try discriminate. cbn [bind].
  destruct (ushr _ _ _ _); try discriminate. cbn [bind]. intros Q. injection Q as <-. unfold tadd. apply uwrap_torus. lia.
Qed.
Lemma mapM_len {A C} (f : A -> res C) : forall l r, mapM f l = Ok r -> length r = length l.
Proof using Type.
  induction l as [|x l IH]; intros r; cbn [mapM]; [intros Q; now injection Q as <-|]. destruct (f x); try discriminate. cbn [bind]. destruct (mapM f l) eqn:E; try discriminate. cbn [bind].
  intros Q. injection Q as <-. cbn [length]. now rewrite (IH _ eq_refl).
Qed.
Lemma mapM_all {A C} (f : A -> res C) (P : A -> Prop) (Q : C -> Prop) : (forall x y, P x -> f x = Ok y -> Q y) -> forall l r, Forall P l -> mapM f l = Ok r -> Forall Q r.
Proof using Type.
  intros H. induction l as [|x l IH]; intros r F; cbn [mapM]; [intros E; injection E as <-; constructor|]. apply Forall_cons_iff in F as [F1 F].
  destruct (f x) eqn:Ex; try discriminate. cbn [bind]. destruct (mapM f l) eqn:E; try discriminate. cbn [bind]. intros Z. injection Z as <-. constructor; eauto.
Qed.
Lemma glwe_shr_round_wf pr c s r : glwe_shape N k c -> glwe_shr_round pr w c s = Ok r -> glwe_wf w N k r.
Proof using Hw.
  intros ([L F] & Lb). unfold glwe_shr_round. destruct (mapM _ _) as [a| |] eqn:Ea; try discriminate. cbn [bind]. destruct (poly_shr_round pr w (gb c) s) as [b| |] eqn:Eb; try discriminate. cbn [bind].
  intros Q. injection Q as <-.
  assert (G : forall p q, length p = N -> poly_shr_round pr w p s = Ok q -> length q = N /\ toruses w q).
  { intros p q Lp E. unfold poly_shr_round in E. split; [rewrite (mapM_len _ _ _ E); exact Lp|].
    apply (mapM_all _ (fun _ => True) (torus w)) in E; [exact E| |]; [intros x y _ Ey; exact (shr_round_torus pr x s y Ey)|]. apply Forall_forall. auto. }
  destruct (G _ _ Lb Eb) as (A & B).
  pose proof (mapM_all _ _ (fun q => length q = N /\ toruses w q) (fun p q Hp Hq => G p q Hp Hq) _ _ F Ea) as FA.
  split; [split; [split; cbn [ga]; [rewrite (mapM_len _ _ _ Ea); exact L|eapply Forall_impl; [|exact FA]; intros q Hq; apply Hq]|exact A]|].
  split; cbn [ga gb]; [eapply Forall_impl; [|exact FA]; intros q Hq; apply Hq|exact B].
Qed.
Lemma add_at_wf p i x r : length p = N -> toruses w p -> add_at w p i x = Ok r -> length r = N /\ toruses w r.
Proof using Hw.
  intros L T. pose proof (word_pos w Hw) as Wp. unfold add_at. destruct (_ <? _)%nat; [|discriminate]. intros Q. injection Q as <-. apply upd_wf; try assumption.
  intros y. unfold tadd. apply uwrap_torus. lia.
Qed.
End Words.

Section Cbs.
Context (X : ext) (n : nat) (u eta tau delta : R) (Hac : accurate X n u eta tau delta) (Hn : (0 < n)%nat).
Context (w : Z) (Hw : word w) (Hp2 : is_pow2 n = true) (Hlog : (2 * n <= 4096)%nat).
Context (h : hw) (m : mad_kernel) (Hx86 : hw_x86 h = true -> (n mod 8 = 0)%nat) (k : nat) (pr : profile).
Context (Hr : f64_rounding (ef_fl X)) (D : Z) (HD0 : 0 <= D).
Context (lp lt ls log : Z) (cp ct cs count : nat).
Context (Hlp : 1 <= lp) (Hcp : (1 <= cp)%nat) (Hlcp : lp * Z.of_nat cp < w).
Context (Hlt : 1 <= lt) (Hct : (1 <= ct)%nat) (Hlct : lt * Z.of_nat ct < w).
Context (Hls : 1 <= ls) (Hcs : (1 <= cs)%nat) (Hlcs : ls * Z.of_nat cs < w).
Context (Hl : 1 <= log).
Notation N := (2 * n)%nat.
Notation fe := (fwd_err n u eta tau delta).
Notation fq := (freq n).
Notation A63 := (IZR (2 ^ (w - 1))).
Context (HDp : (prod_bound n u eta tau delta w k lp cp <= IZR D)%R) (HDt : (key_bound n u eta tau delta lt ct (fe A63) (fq A63) k <= IZR D)%R).

Lemma hi_noise_refines nl rot out input bsk bskf : length bsk = nl -> Forall (ggsw_wf w N k cp) bsk -> bsk_to_fft X w nl N k cp bsk = Ok bskf ->
  exists ds, (forall i, SpecBoot.fft_err N k D (ds i)) /\
    cbs_hi_noise_freq X m h pr w lp log cp count nl N k rot out input bskf = cbs_hi_noise h pr w lp log cp count nl N k rot out input bsk ds.
Proof using All.
  intros Lb Fb Eb. unfold cbs_hi_noise_freq, cbs_hi_noise. pose proof (zero_err' n k D HD0) as ZE.
  assert (Z : exists ds : nat -> glwe, forall i, SpecBoot.fft_err N k D (ds i)) by (exists (fun _ => glwe_new N k); auto).
  destruct Z as (ds0 & Hds0). destruct (Nat.ltb_spec count 8) as [L8|]; [|exists ds0; auto].
  destruct (t_encode w 1 2) as [z| |]; cbn [bind]; [|exists ds0; auto|exists ds0; auto].
  destruct (lwe_rotate w nl rot input z) as [r| |]; cbn [bind]; [|exists ds0; auto|exists ds0; auto].
  destruct (Nat.eq_dec count 0) as [->|Nc]; [exists ds0; auto|].
  destruct (cbs_log_v count) as [lv| |]; cbn [bind]; [|exists ds0; auto|exists ds0; auto].
  destruct (cbs_lut_ok N w pr log count k Hw Hl ltac:(lia)) as (T & ET & WT & _). rewrite ET. cbn [bind].
  exact (generalized_pbs_refines X n u eta tau delta Hac Hn w Hw Hp2 Hlog h m Hx86 k pr lp cp Hlp Hcp Hlcp Hr D HDp HD0 nl out r T bsk bskf 0 (Z.of_nat lv) WT Fb Lb Eb).
Qed.

Lemma hi_noise_wf nl rot out input bsk ds lo : glwe_wf w N k out -> Forall (ggsw_wf w N k cp) bsk -> (forall i, SpecBoot.fft_err N k D (ds i)) ->
  cbs_hi_noise h pr w lp log cp count nl N k rot out input bsk ds = Ok lo -> glwe_wf w N k lo.
Proof using All.
  intros Wo Fb Hds. unfold cbs_hi_noise. destruct (Nat.ltb_spec count 8) as [L8|]; [|discriminate]. destruct (t_encode w 1 2) as [z| |]; try discriminate. cbn [bind].
  destruct (lwe_rotate w nl rot input z) as [r| |]; try discriminate. cbn [bind]. destruct (Nat.eq_dec count 0) as [->|Nc]; [discriminate|].
  destruct (cbs_log_v count) as [lv| |]; try discriminate. cbn [bind].
  destruct (cbs_lut_ok N w pr log count k Hw Hl ltac:(lia)) as (T & ET & WT & _). rewrite ET. cbn [bind]. unfold generalized_pbs. destruct (_ && _); [|discriminate].
  destruct (lwe_mod_switch _ _ _ _ _ _) as [c| |]; try discriminate. cbn [bind].
  assert (Wr : glwe_wf w N k (glwe_rot w out T (- lwe_b c))) by (apply glwe_rot_ok; try assumption; [lia|apply Wo]).
  revert Wr Fb Hds. generalize (glwe_rot w out T (- lwe_b c)) (lwe_a c) bsk ds. clear - Hw Hn HD0 Hlp Hcp Hlcp Hp2. intros g a. revert g. induction a as [|x a IH]; intros g [|q bsk] ds Wg Fb Hds; cbn [pbs_loop]; try (intros Q; injection Q as <-; exact Wg).
  apply Forall_cons_iff in Fb as [Wq Fb]. destruct (cmux h pr w lp cp N k g g (glwe_rot w (glwe_new N k) g x) q (ds O)) as [o| |] eqn:Ec; try discriminate. cbn [bind].
  apply IH; try assumption; [|intros; apply Hds].
  unfold cmux in Ec. destruct (_ && _); [|discriminate]. destruct (glwe_sub _ _ _ _ _ _) as [diff| |] eqn:Ed; try discriminate. cbn [bind] in Ec.
  assert (Wd : glwe_wf w N k diff). { eapply glwe_sub_wf; [exact Hw| |exact Wg|exact Ed]. apply glwe_rot_ok; try assumption; [lia|apply glwe_new_shape]. }
  assert (Hp2' : is_pow2 N = true) by (rewrite is_pow2_half; assumption). pose proof (word_pos w Hw) as Wp.
  destruct Wq as (Lq & Fq). destruct (glwe_ggsw_mad_ok N w pr lp cp k (glwe_new N k) diff q Hp2' Hw Hlp Hcp Hlcp (glwe_new_shape N k) Wd Lq) as (pe & Ep & Sp & Wpr & _).
  { eapply Forall_impl; [|exact Fq]. intros y (A & B). split; [exact A|]. eapply Forall_impl; [|exact B]. intros z Hz. apply Hz. }
  rewrite Ep in Ec. cbn [bind] in Ec. eapply glwe_add_wf; [exact Hw| |exact Wg|exact Ec]. apply perturb_wf; [exact Hw|]. apply Wpr. apply glwe_new_wf. lia.
Qed.

Lemma cbs_trace_loop_refines ak akf : length ak = Nat.log2 N -> Forall (gksk_wf n w k ct) ak -> ak_to_fft X w N k ak = Ok akf -> forall glev rot perm ks gk i,
  Forall (glwe_shape N k) glev -> glwe_wf w N k rot -> glwe_wf w N k perm -> glwe_wf w N k ks -> glwe_wf w N k gk ->
  exists ds, (forall i j, SpecBoot.fft_err N k D (ds i j)) /\
    cbs_trace_loop_freq X m h pr w lt log ct N k glev rot perm ks gk akf i = cbs_trace_loop h pr w lt log ct N k glev rot perm ks gk ak i ds /\
    forall r, cbs_trace_loop h pr w lt log ct N k glev rot perm ks gk ak i ds = Ok r -> length r = length glev /\ Forall (glwe_wf w N k) r.
Proof using All.
  intros La Fa Ea. pose proof (zero_err' n k D HD0) as ZE.
  induction glev as [|g glev IH]; intros rot perm ks gk i Fg Wr Wp Wk Wg; cbn [cbs_trace_loop_freq cbs_trace_loop].
  - exists (fun _ _ => glwe_new N k). split; [auto|]. split; [reflexivity|]. intros r Q. injection Q as <-. split; [reflexivity|constructor].
  - apply Forall_cons_iff in Fg as [Sg Fg].
    assert (Z : exists ds : nat -> nat -> glwe, forall i j, SpecBoot.fft_err N k D (ds i j)) by (exists (fun _ _ => glwe_new N k); auto). destruct Z as (ds0 & Hds0).
    destruct (t_encode w 1 (cbs_bits log i)) as [e| |] eqn:Ee; cbn [bind]; [|exists ds0; split; [auto|split; [reflexivity|discriminate]]|exists ds0; split; [auto|split; [reflexivity|discriminate]]].
    destruct (add_at w (gb rot) i e) as [b| |] eqn:Eb; cbn [bind]; [|exists ds0; split; [auto|split; [reflexivity|discriminate]]|exists ds0; split; [auto|split; [reflexivity|discriminate]]].
    set (rot' := {| ga := ga rot; gb := b |}). assert (Wr' : glwe_wf w N k rot').
    { destruct Wr as ((Sa & Lb) & Ta & Tb). destruct (add_at_wf w Hw N _ _ _ _ Lb Tb Eb). repeat split; cbn [rot' ga gb]; try assumption; apply Sa. }
    set (perm' := glwe_rot w perm rot' (- Z.of_nat i)). assert (Wp' : glwe_wf w N k perm') by (apply glwe_rot_ok; try assumption; [lia|apply Wp]).
    destruct (glwe_shr_round pr w perm' (Z.of_nat (Nat.log2 N))) as [sh| |] eqn:Es; cbn [bind]; [|exists ds0; split; [auto|split; [reflexivity|discriminate]]|exists ds0; split; [auto|split; [reflexivity|discriminate]]].
    pose proof (glwe_shr_round_wf w Hw N k _ _ _ _ (proj1 Wp') Es) as Ws.
    destruct (trace_refines X n u eta tau delta Hac Hn w Hw Hp2 Hlog h m Hx86 k pr lt ct Hlt Hct Hlct Hr D HD0 HDt g sh ks gk ak akf Ws Wk Wg La Fa Ea) as (d & Hd & Et & Wt). rewrite Et.
    destruct (trace h pr w lt ct N k g sh ks gk ak d) as [g'| |] eqn:Et'.
    2,3: (exists (fun _ => d); split; [auto|]; rewrite Et'; split; [reflexivity|discriminate]).
    destruct (IH rot' perm' ks gk (S i) Fg Wr' Wp' Wk Wg) as (ds & Hds & Ei & Wi).
    assert (G : forall glev rot perm j, (i < j)%nat -> cbs_trace_loop h pr w lt log ct N k glev rot perm ks gk ak j (fun j => if (j =? i)%nat then d else ds j) = cbs_trace_loop h pr w lt log ct N k glev rot perm ks gk ak j ds).
    { clear. induction glev as [|q glev IH]; intros rot perm j Hj; cbn [cbs_trace_loop]; [reflexivity|]. rewrite (proj2 (Nat.eqb_neq j i)) by lia.
      destruct (t_encode _ _ _); cbn [bind]; try reflexivity. destruct (add_at _ _ _ _); cbn [bind]; try reflexivity. destruct (glwe_shr_round _ _ _ _); cbn [bind]; try reflexivity.
      destruct (trace _ _ _ _ _ _ _ _ _ _ _ _ _); cbn [bind]; try reflexivity. now rewrite IH by lia. }
    exists (fun j => if (j =? i)%nat then d else ds j). split; [intros j t; destruct (j =? i)%nat; auto|]. rewrite Nat.eqb_refl, Et'. cbn [bind]. rewrite G, Ei by lia. split; [reflexivity|].
    intros r Er. destruct (cbs_trace_loop h pr w lt log ct N k glev rot' perm' ks gk ak (S i) ds) as [gs| |] eqn:Eg; try discriminate. cbn [bind] in Er. injection Er as <-.
    destruct (Wi gs eq_refl) as (A & B). cbn [length]. split; [lia|]. constructor; [exact (Wt g' eq_refl)|exact B].
Qed.

(** Circuit bootstrapping into a fresh result: with some errors of at most [D] in its products, and none in scheme switching, the integer model is refused in the same way or gives a ciphertext whose transform comes out, up to [ss_e]. *)
Lemma circuit_bootstrap_rep nl input bsk ak ssk bskf akf sskf scr scg scl : length bsk = nl -> Forall (ggsw_wf w N k cp) bsk -> bsk_to_fft X w nl N k cp bsk = Ok bskf ->
  length ak = Nat.log2 N -> Forall (gksk_wf n w k ct) ak -> ak_to_fft X w N k ak = Ok akf -> ssk_wf n w k cs ssk -> ssk_to_fft X w N k cs ssk = Ok sskf ->
  glwe_wf w N k scg -> length scl = count -> Forall (glwe_shape N k) scl ->
  exists d1 d2, (forall i, SpecBoot.fft_err N k D (d1 i)) /\ (forall i j, SpecBoot.fft_err N k D (d2 i j)) /\
    match circuit_bootstrap h pr w lp lt ls log cp ct cs count nl N k (ggsw_new N k count) input bsk ak ssk scr scg scl d1 d2 (fun _ _ => glwe_new N k) with
    | Ok g => ggsw_wf w N k count g /\ exists gf, circuit_bootstrap_freq X m h pr w lp lt ls log cp ct cs count nl N k (ggsw_fft_zero N k count) input bskf akf sskf scr scg scl = Ok gf /\
        Forall2 (rowrep n w k (ss_e n u eta tau delta w k ls cs) (ss_s n w k ls cs)) gf g
    | Err e => circuit_bootstrap_freq X m h pr w lp lt ls log cp ct cs count nl N k (ggsw_fft_zero N k count) input bskf akf sskf scr scg scl = Err e
    | Panic => circuit_bootstrap_freq X m h pr w lp lt ls log cp ct cs count nl N k (ggsw_fft_zero N k count) input bskf akf sskf scr scg scl = Panic
    end.
Proof using All.
  intros Lb Fb Eb La Fa Ea Ws Es Wg Ll Fl. destruct (hi_noise_refines nl scr scg input bsk bskf Lb Fb Eb) as (d1 & Hd1 & E1).
  pose proof (zero_err' n k D HD0) as ZE. unfold circuit_bootstrap_freq, circuit_bootstrap.
  destruct (cbs_hi_noise h pr w lp log cp count nl N k scr scg input bsk d1) as [lo| |] eqn:El.
  2,3: (exists d1, (fun _ _ => glwe_new N k); split; [auto|]; split; [auto|]; rewrite El, E1; reflexivity).
  pose proof (hi_noise_wf nl scr scg input bsk d1 lo Wg Fb Hd1 El) as Wlo.
  destruct (cbs_trace_loop_refines ak akf La Fa Ea scl lo scg scg scg 0%nat Fl Wlo Wg Wg Wg) as (d2 & Hd2 & E2 & W2).
  exists d1, d2. split; [exact Hd1|]. split; [exact Hd2|]. rewrite El, E1. cbn [bind]. rewrite E2.
  destruct (cbs_trace_loop h pr w lt log ct N k scl lo scg scg scg ak 0 d2) as [glev| |]; cbn [bind]; try reflexivity.
  destruct (W2 glev eq_refl) as (Lg & Fg).
  destruct (scheme_switch_rep X n u eta tau delta Hac Hn w Hw Hp2 Hlog (hw_x86 h) m Hx86 k pr ls cs Hls Hcs Hlcs count glev ssk sskf Ws Es ltac:(congruence) Fg) as (gf & g & E3 & E4 & Wgg & R).
  rewrite E4. split; [exact Wgg|]. exists gf. auto.
Qed.
End Cbs.

(** ** Generated keys are machine words *)
Section KeyWords.
Context (w : Z) (Hw : word w) (n : nat) (k : nat).
Notation N := (2 * n)%nat.

Lemma upd_length (l : list Z) i f : length (upd l i f) = length l.
Proof using Type. revert i. induction l; intros [|i]; cbn [upd length]; auto. Qed.
Lemma poly_pow_k_len mul out p e r : length out = N -> poly_pow_k w mul out p e = Ok r -> length r = N.
Proof using Type.
  intros L. unfold poly_pow_k. destruct (_ && _); [|discriminate]. generalize (seq 0 (length p)) as is. intros is. revert out L. induction is as [|i is IH]; intros out L; cbn [foldM].
  - intros Q. injection Q as <-. exact L.
  - destruct (mul _ _); try discriminate. cbn [bind]. apply IH. rewrite upd_length. exact L.
Qed.
Lemma polys_pow_k_len mul e : forall out p r, Forall (fun q => length q = N) out -> polys_pow_k w mul out p e = Ok r -> length r = length out /\ Forall (fun q => length q = N) r.
Proof using Type.
  induction out as [|o out IH]; intros [|x p] r F; cbn [polys_pow_k]; try (intros Q; injection Q as <-; auto; fail). apply Forall_cons_iff in F as [F1 F].
  destruct (poly_pow_k w mul o x e) eqn:Eo; try discriminate. cbn [bind]. destruct (polys_pow_k w mul out p e) eqn:Es; try discriminate. cbn [bind]. intros Q. injection Q as <-.
  destruct (IH p _ F Es) as (A & B). cbn [length]. split; [lia|]. constructor; [|exact B]. exact (poly_pow_k_len _ _ _ _ _ F1 Eo).
Qed.
Lemma ak_loop_wf pr log count sk E : is_pow2 N = true -> 1 <= log -> log * Z.of_nat count <= w -> polys_shape N k sk -> 0 <= E -> forall ak sc i rnd ak', polys_shape N k sc ->
  Forall (fun ksk => length ksk = k /\ Forall (fun r => length r = count /\ Forall (glwe_fresh N k) r) ksk) ak ->
  (forall j, length (rnd j) = k /\ Forall (fun r => length r = count /\ Forall (glwe_rnd_ok N k w E) r) (rnd j)) ->
  ak_loop pr w log N sk sc ak i rnd = Ok ak' -> length ak' = length ak /\ Forall (gksk_wf n w k count) ak'.
Proof using Hw.
  intros HP Hl Hs Hsk HE. induction ak as [|ksk ak IH]; intros sc i rnd ak' Hsc Fa Hr; cbn [ak_loop].
  - intros Q. injection Q as <-. split; [reflexivity|constructor].
  - apply Forall_cons_iff in Fa as [(Lk & Fk) Fa]. destruct (polys_pow_k w (umul pr w) sc sk (trace_exp N i)) as [sk'| |] eqn:Ep; try discriminate. cbn [bind].
    destruct (polys_pow_k_len _ _ _ _ _ (proj2 Hsc) Ep) as (L' & F'). destruct (Hr i) as (Lr & Fr).
    destruct (gksk_loop_ok N w pr log count k sk E Hw HP Hl Hs Hsk HE sk' ksk (rnd i) F') as (g' & E1 & L1 & F1 & _); try assumption.
    { rewrite L', Lk. apply Hsc. } { congruence. }
    rewrite E1. cbn [bind]. destruct (ak_loop pr w log N sk sk' ak (S i) rnd) as [r| |] eqn:Er; try discriminate. cbn [bind]. intros Q. injection Q as <-.
    destruct (IH sk' (S i) rnd r) as (A & B); try assumption. { split; [rewrite L'; apply Hsc|exact F']. }
    cbn [length]. split; [lia|]. constructor; [|exact B]. split; [congruence|exact F1].
Qed.
Lemma ssk_loop_wf pr log count sk fmul E : is_pow2 N = true -> 1 <= log -> (1 <= count)%nat -> log * Z.of_nat count <= w -> polys_shape N k sk -> 0 <= E -> forall pairs ssk rnd ssk', length pairs = length ssk ->
  (forall p, In p pairs -> length (fmul (fst p) (snd p)) = N) -> Forall (fun r => length r = count /\ Forall (glwe_fresh N k) r) ssk ->
  (forall i, length (rnd i) = count /\ Forall (glwe_rnd_ok N k w E) (rnd i)) ->
  ssk_loop pr w log count N k sk fmul pairs ssk rnd = Ok ssk' -> length ssk' = length ssk /\ Forall (fun r => length r = count /\ Forall (glwe_wf w N k) r) ssk'.
Proof using Hw.
  intros HP Hl Hc Hs Hsk HE. induction pairs as [|[s t] pairs IH]; intros [|g ssk] rnd ssk' L Hm Fs Hr; try discriminate; cbn [ssk_loop].
  - intros Q. injection Q as <-. split; [reflexivity|constructor].
  - apply Forall_cons_iff in Fs as [(Lg & Fg) Fs]. destruct (Hr O) as (Lr & Fr). pose proof (Hm (s, t) (or_introl eq_refl)) as Lm. cbn [fst snd] in Lm.
    destruct (glev_encrypt_ok N w pr log count k sk (fmul s t) E g (rnd O) Hw HP Hl Hc Hs Hsk Lm HE Lg Fg Lr Fr) as (g' & E1 & L1 & W1 & _). rewrite E1. cbn [bind].
    destruct (ssk_loop pr w log count N k sk fmul pairs ssk (fun i => rnd (S i))) as [r| |] eqn:Er; try discriminate. cbn [bind]. intros Q. injection Q as <-.
    destruct (IH ssk (fun i => rnd (S i)) r) as (A & B); try assumption. { cbn in L; lia. } { intros p Hp. apply Hm. now right. } { intros i. apply Hr. }
    cbn [length]. split; [lia|]. constructor; [|exact B]. split; assumption.
Qed.
End KeyWords.
