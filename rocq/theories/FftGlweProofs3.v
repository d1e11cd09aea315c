(** CMUX, rotation and bootstrapping through the FFT are the models of TfheBoot.v with a bounded error. *)
From Coq Require Import Reals ZArith List Lia Lra Bool.
From Coquelicot Require Import Complex.
From Verif Require Import Base Alu AluProofs MuxGraph PolyRing Tfhe TfheGlwe TfheBoot SpecTfhe SpecGlwe SpecBoot FluentIntProofs TfheProofs TfheProofs2 TfheProofs3
  TfheGlweProofs TfheGlweProofs2 TfheGlweProofs3 TfheGlweProofs4 TfheBootProofs TfheBootProofs2 TfheBootProofs3 TfheBootProofs4.
From Verif Require Import Fft FftGlwe SpecFft FftProofs FftProofs2 FftProofs3 FftProofs4 FftProofs5 FftProofs6 FftGlweProofs FftGlweProofs2 SpecFftGlwe.
Import ListNotations.
Ltac Zify.zify_post_hook ::= idtac.
Open Scope Z_scope.

(** Whatever the machine and profile, additions and subtractions that return give machine words. *)
Lemma vec_sub_torus h pr w a b r : word w -> torus w a -> torus w b -> vec_sub h pr w a b = Ok r -> torus w r.
Proof.
  intros Hw Ha Hb. pose proof (word_pos w Hw) as Wp. unfold vec_sub. destruct (hw_x86 h && (w =? 64)) eqn:E.
  - apply andb_true_iff in E as [_ E]. apply Z.eqb_eq in E. subst w. destruct (hw_avx2 h).
    + unfold usub. destruct (Z.leb_spec b a).
      * intros Q. injection Q as <-. unfold torus in *. lia.
      * destruct pr; intros Q; [discriminate|]. injection Q as <-. apply uwrap_torus. lia.
    + intros Q. injection Q as <-. apply uwrap_torus. lia.
  - intros Q. injection Q as <-. apply uwrap_torus. lia.
Qed.
Lemma vec_add_torus h pr w a b r : word w -> torus w a -> torus w b -> vec_add h pr w a b = Ok r -> torus w r.
Proof.
  intros Hw Ha Hb. pose proof (word_pos w Hw) as Wp. unfold vec_add. destruct (hw_x86 h && (w =? 64) && (hw_fma h && hw_avx2 h)) eqn:E.
  - apply andb_true_iff in E as [E _]. apply andb_true_iff in E as [_ E]. apply Z.eqb_eq in E. subst w.
    unfold uadd. destruct (Z.ltb_spec (a + b) (2 ^ 64)).
    + intros Q. injection Q as <-. unfold torus in *. lia.
    + destruct pr; intros Q; [discriminate|]. injection Q as <-. apply uwrap_torus. lia.
  - intros Q. injection Q as <-. apply uwrap_torus. lia.
Qed.

Section Pointwise.
Context (w : Z) (N : nat) (f : Z -> Z -> res Z).
Context (Hf : forall a b r, torus w a -> torus w b -> f a b = Ok r -> torus w r).
Definition pw (c a b : list Z) : res (list Z) :=
  if (length c =? length a)%nat && (length c =? length b)%nat then mapM (fun xy => f (fst xy) (snd xy)) (combine a b) else Panic.
Lemma pw_wf c a b r : length a = N -> length b = N -> toruses w a -> toruses w b -> pw c a b = Ok r -> length r = N /\ toruses w r.
Proof using Hf.
  intros La Lb Ta Tb. unfold pw. destruct (_ && _); [|discriminate]. revert La b Lb Ta Tb r. clear c.
  generalize N as M. induction a as [|x a IH]; intros M La [|y b] Lb Ta Tb r; cbn [combine mapM length] in *; try lia.
  - intros Q. injection Q as <-. split; [cbn; lia|constructor].
  - cbn [fst snd]. apply Forall_cons_iff in Ta as [Hx Ta]. apply Forall_cons_iff in Tb as [Hy Tb].
    destruct (f x y) as [z| |] eqn:Ez; try discriminate. cbn [bind]. destruct (mapM _ _) as [zs| |] eqn:Ezs; try discriminate. cbn [bind].
    intros Q. injection Q as <-. destruct (IH (M - 1)%nat ltac:(lia) b ltac:(lia) Ta Tb zs Ezs) as (L & T). cbn [length]. split; [lia|].
    constructor; [|exact T]. exact (Hf _ _ _ Hx Hy Ez).
Qed.
Lemma zip3_wf a : forall c b r, length c = length a -> length b = length a -> Forall (fun p => length p = N) a -> Forall (fun p => length p = N) b ->
  Forall (toruses w) a -> Forall (toruses w) b -> zip3M pw c a b = Ok r -> length r = length a /\ Forall (fun p => length p = N) r /\ Forall (toruses w) r.
Proof using Hf.
  induction a as [|x a IH]; intros [|z c] [|y b] r Lc Lb Fa Fb Ta Tb; cbn [length] in *; try lia; cbn [zip3M].
  - intros Q. injection Q as <-. auto.
  - apply Forall_cons_iff in Fa as [A1 Fa]. apply Forall_cons_iff in Fb as [B1 Fb]. apply Forall_cons_iff in Ta as [A2 Ta]. apply Forall_cons_iff in Tb as [B2 Tb].
    destruct (pw z x y) as [v| |] eqn:Ev; try discriminate. cbn [bind]. destruct (zip3M pw c a b) as [vs| |] eqn:Evs; try discriminate. cbn [bind].
    intros Q. injection Q as <-. destruct (pw_wf z x y v A1 B1 A2 B2 Ev) as (L & T). destruct (IH c b vs) as (L' & F' & T'); try assumption; try lia.
    cbn [length]. split; [lia|]. split; constructor; assumption.
Qed.
End Pointwise.

Lemma glwe_sub_wf h pr w N k c a b r : word w -> glwe_wf w N k a -> glwe_wf w N k b -> glwe_sub h pr w c a b = Ok r -> glwe_wf w N k r.
Proof.
  intros Hw (([La Fa] & Lab) & Ta & Tab) (([Lb Fb] & Lbb) & Tb & Tbb). unfold glwe_sub.
  destruct (Nat.eqb_spec (length (ga c)) (length (ga a))) as [L1|]; [|discriminate].
  destruct (Nat.eqb_spec (length (ga c)) (length (ga b))) as [L2|]; [|discriminate]. cbn [andb].
  change (poly_sub h pr w) with (pw (vec_sub h pr w)).
  assert (Hf : forall a b r, torus w a -> torus w b -> vec_sub h pr w a b = Ok r -> torus w r) by (intros ? ? ? P1 P2 P3; exact (vec_sub_torus _ _ _ _ _ _ Hw P1 P2 P3)).
  destruct (zip3M _ _ _ _) as [x| |] eqn:Ex; try discriminate. cbn [bind]. destruct (pw _ _ _ _) as [y| |] eqn:Ey; try discriminate. cbn [bind].
  intros Q. injection Q as <-. destruct (zip3_wf w N _ Hf (ga a) (ga c) (ga b) x) as (A & B & C); try assumption; try lia.
  destruct (pw_wf w N _ Hf (gb c) (gb a) (gb b) y Lab Lbb Tab Tbb Ey) as (D & E). repeat split; cbn [ga gb]; try assumption. lia.
Qed.
Lemma glwe_add_wf h pr w N k c a b r : word w -> glwe_wf w N k a -> glwe_wf w N k b -> glwe_add h pr w c a b = Ok r -> glwe_wf w N k r.
Proof.
  intros Hw (([La Fa] & Lab) & Ta & Tab) (([Lb Fb] & Lbb) & Tb & Tbb). unfold glwe_add.
  destruct (Nat.eqb_spec (length (ga c)) (length (ga a))) as [L1|]; [|discriminate].
  destruct (Nat.eqb_spec (length (ga c)) (length (ga b))) as [L2|]; [|discriminate]. cbn [andb].
  change (poly_add h pr w) with (pw (vec_add h pr w)).
  assert (Hf : forall a b r, torus w a -> torus w b -> vec_add h pr w a b = Ok r -> torus w r) by (intros ? ? ? P1 P2 P3; exact (vec_add_torus _ _ _ _ _ _ Hw P1 P2 P3)).
  destruct (zip3M _ _ _ _) as [x| |] eqn:Ex; try discriminate. cbn [bind]. destruct (pw _ _ _ _) as [y| |] eqn:Ey; try discriminate. cbn [bind].
  intros Q. injection Q as <-. destruct (zip3_wf w N _ Hf (ga a) (ga c) (ga b) x) as (A & B & C); try assumption; try lia.
  destruct (pw_wf w N _ Hf (gb c) (gb a) (gb b) y Lab Lbb Tab Tbb Ey) as (D & E). repeat split; cbn [ga gb]; try assumption. lia.
Qed.

Lemma ggsw_wf_valid w N k count g : ggsw_wf w N k count g -> ggsw_valid N k count g = true.
Proof.
  intros (L & F). apply ggsw_valid_iff. split; [exact L|]. eapply Forall_impl; [|exact F]. intros r (A & B). split; [exact A|].
  eapply Forall_impl; [|exact B]. intros c Hc. apply Hc.
Qed.

Section Any.
Context (X : ext) (n : nat) (u eta tau delta : R) (Hac : accurate X n u eta tau delta) (Hn : (0 < n)%nat).
Context (w : Z) (Hw : word w) (Hp2 : is_pow2 n = true) (Hlog : (2 * n <= 4096)%nat).
Context (h : hw) (m : mad_kernel) (Hx86 : hw_x86 h = true -> (n mod 8 = 0)%nat) (k : nat).
Context (pr : profile) (log : Z) (count : nat) (Hl : 1 <= log) (Hcount : (1 <= count)%nat) (Hs : log * Z.of_nat count < w).
Context (Hr : f64_rounding (ef_fl X)) (D : Z) (HD : (prod_bound n u eta tau delta w k log count <= IZR D)%R) (HD0 : 0 <= D).
Notation N := (2 * n)%nat.

Lemma zero_err : SpecBoot.fft_err N k D (glwe_new N k).
Proof using HD0.
  split; [apply glwe_new_shape|]. split.
  - cbn [ga glwe_new]. apply Forall_forall. intros p Hp. apply repeat_spec in Hp. subst. apply Forall_forall. intros x Hx. apply repeat_spec in Hx. subst. exact HD0.
  - cbn [gb glwe_new]. apply Forall_forall. intros x Hx. apply repeat_spec in Hx. subst. exact HD0.
Qed.

Lemma glev_to_fft_ok r : Forall (glwe_shape N k) r -> exists rf, glev_to_fft X w N k r = Ok rf /\ length rf = length r /\ forallb (glwe_fft_valid N k) rf = true.
Proof using All.
  intros F. destruct (mapM_exists (glwe_to_fft X w N k) (shapef n k) r) as (rf & E & Fr).
  { intros c Hc. destruct (glwe_to_fft_ok X n u eta tau delta Hac Hn w Hw Hp2 Hlog (hw_x86 h) m Hx86 k c) as (f & Ef & Sf & _).
    - apply (proj1 (Forall_forall _ _) F c Hc).
    - exists f. auto. }
  exists rf. split; [exact E|]. split; [exact (proj1 (mapM_inv _ (glwe_new 0 0) {| fa := []; fb := [] |} _ _ E))|].
  apply forallb_forall. intros c Hc. destruct (proj1 (Forall_forall _ _) Fr c Hc) as (A & B & C). unfold glwe_fft_valid. rewrite half_twice, A, C, !Nat.eqb_refl.
  rewrite andb_true_r. cbn [andb]. apply forallb_forall. intros p Hp. apply Nat.eqb_eq. apply (proj1 (Forall_forall _ _) B p Hp).
Qed.
Lemma ggsw_to_fft_ok g : ggsw_wf w N k count g -> exists gf, ggsw_to_fft X w N k count g = Ok gf /\ mapM (glev_to_fft X w N k) g = Ok gf /\ ggsw_fft_valid N k count gf = true.
Proof using All.
  intros Wg. unfold ggsw_to_fft. rewrite (ggsw_wf_valid _ _ _ _ _ Wg). destruct Wg as (Lg & Fg).
  destruct (mapM_exists (glev_to_fft X w N k) (fun r => (length r =? count)%nat && forallb (glwe_fft_valid N k) r = true) g) as (gf & E & F).
  { intros r Hin. destruct (proj1 (Forall_forall _ _) Fg r Hin) as (Lr & Fr).
    destruct (glev_to_fft_ok r) as (rf & Er & Lrf & Vr). { eapply Forall_impl; [|exact Fr]. intros c Hc. apply Hc. }
    exists rf. split; [exact Er|]. rewrite Lrf, Lr, Nat.eqb_refl, Vr. reflexivity. }
  exists gf. split; [exact E|]. split; [exact E|]. unfold ggsw_fft_valid.
  rewrite (proj1 (mapM_inv _ [] [] _ _ E)), Lg. replace (S k =? k + 1)%nat with true by (symmetry; apply Nat.eqb_eq; lia). cbn [andb].
  apply forallb_forall. intros r Hin. apply (proj1 (Forall_forall _ _) F r Hin).
Qed.

Lemma cmux_refines c d0 d1 g gf : glwe_wf w N k d0 -> glwe_wf w N k d1 -> ggsw_wf w N k count g -> ggsw_to_fft X w N k count g = Ok gf ->
  exists d, SpecBoot.fft_err N k D d /\
    cmux_fft X m h pr w log count N k c d0 d1 gf = cmux h pr w log count N k c d0 d1 g d /\
    forall r, cmux h pr w log count N k c d0 d1 g d = Ok r -> glwe_wf w N k r.
Proof using All.
  intros W0 W1 Wg Eg. destruct (ggsw_to_fft_ok g Wg) as (gf' & E1 & E2 & Vf). rewrite Eg in E1. injection E1 as <-.
  unfold cmux_fft, cmux. rewrite Vf, (ggsw_wf_valid _ _ _ _ _ Wg).
  destruct (_ && _ && _ && _ && _ && true). 2:{ exists (glwe_new N k). split; [apply zero_err|]. split; [reflexivity|discriminate]. }
  destruct (glwe_sub h pr w (glwe_new N k) d1 d0) as [diff| |] eqn:Ed; cbn [bind].
  2,3: (exists (glwe_new N k); split; [apply zero_err|]; split; [reflexivity|discriminate]).
  pose proof (glwe_sub_wf h pr w N k _ d1 d0 diff Hw W1 W0 Ed) as Wd. destruct Wg as (Lg & Fg).
  destruct (product_fft X n u eta tau delta Hac Hn w Hw Hp2 Hlog (hw_x86 h) m Hx86 k pr log count Hl Hcount Hs Hr diff g gf D Wd Lg Fg E2 HD)
    as (pf & pe & d & F1 & F2 & F3 & F4).
  exists d. split; [exact F4|]. rewrite F1, F2. cbn [bind]. rewrite F3. cbn [bind]. split; [reflexivity|].
  intros r Er. eapply glwe_add_wf; [exact Hw| |exact W0|exact Er].
  assert (Wp : 0 < w) by (apply word_pos; assumption).
  assert (Hp2' : is_pow2 N = true) by (rewrite is_pow2_half; assumption).
  destruct (glwe_ggsw_mad_ok N w pr log count k (glwe_new N k) diff g Hp2' Hw Hl Hcount Hs (glwe_new_shape N k) Wd Lg) as (pe' & Ep & Sp & Wpr & _).
  { eapply Forall_impl; [|exact Fg]. intros q (A & B). split; [exact A|]. eapply Forall_impl; [|exact B]. intros x Hx. apply Hx. }
  rewrite F2 in Ep. injection Ep as <-. apply (glwe_perturb_ok N w k pe d Hw); [|apply F4]. apply Wpr. apply glwe_new_wf. lia.
Qed.

Lemma glev_cmux_refines g gf : ggsw_wf w N k count g -> ggsw_to_fft X w N k count g = Ok gf -> forall c d0 d1, Forall (glwe_wf w N k) d0 -> Forall (glwe_wf w N k) d1 ->
  exists ds, (forall i, SpecBoot.fft_err N k D (ds i)) /\ glev_cmux_fft X m h pr w log count N k c d0 d1 gf = glev_cmux h pr w log count N k c d0 d1 g ds.
Proof using All.
  intros Wg Eg. induction c as [|x c IH]; intros [|y d0] [|z d1] F0 F1; try (exists (fun _ => glwe_new N k); split; [intros; apply zero_err|reflexivity]).
  apply Forall_cons_iff in F0 as [Hy F0]. apply Forall_cons_iff in F1 as [Hz F1].
  destruct (cmux_refines x y z g gf Hy Hz Wg Eg) as (d & Hd & E & _). destruct (IH d0 d1 F0 F1) as (ds & Hds & Es).
  exists (fun i => match i with O => d | S i => ds i end). split; [intros [|i]; auto|].
  cbn [glev_cmux_fft glev_cmux]. rewrite E. destruct (cmux _ _ _ _ _ _ _ _ _ _ _ _); cbn [bind]; try reflexivity. now rewrite Es.
Qed.

Lemma pbs_loop_refines : forall a bsk bskf out, glwe_wf w N k out -> Forall (ggsw_wf w N k count) bsk -> mapM (ggsw_to_fft X w N k count) bsk = Ok bskf ->
  exists ds, (forall i, SpecBoot.fft_err N k D (ds i)) /\ pbs_loop_fft X m h pr w log count N k out a bskf = pbs_loop h pr w log count N k out a bsk ds.
Proof using All.
  induction a as [|x a IH]; intros bsk bskf out Wo Fb Eb.
  - exists (fun _ => glwe_new N k). split; [intros; apply zero_err|reflexivity].
  - destruct bsk as [|g bsk]; cbn [mapM] in Eb.
    + injection Eb as <-. exists (fun _ => glwe_new N k). split; [intros; apply zero_err|reflexivity].
    + destruct (ggsw_to_fft X w N k count g) as [gf| |] eqn:Eg; try discriminate. cbn [bind] in Eb.
      destruct (mapM _ bsk) as [bf| |] eqn:Ebs; try discriminate. cbn [bind] in Eb. injection Eb as <-.
      apply Forall_cons_iff in Fb as [Wg Fb].
      assert (Wr : glwe_wf w N k (glwe_rot w (glwe_new N k) out x)) by (apply glwe_rot_ok; try assumption; [lia|apply glwe_new_shape]).
      destruct (cmux_refines out out _ g gf Wo Wr Wg Eg) as (d & Hd & E & Wres).
      cbn [pbs_loop_fft pbs_loop]. rewrite E. destruct (cmux h pr w log count N k out out (glwe_rot w (glwe_new N k) out x) g d) as [o| |] eqn:Ec.
      * destruct (IH bsk bf o (Wres o eq_refl) Fb Ebs) as (ds & Hds & Es). exists (fun i => match i with O => d | S i => ds i end).
        split; [intros [|i]; auto|]. rewrite Ec. cbn [bind]. exact Es.
      * exists (fun _ => d). split; [auto|]. rewrite Ec. reflexivity.
      * exists (fun _ => d). split; [auto|]. rewrite Ec. reflexivity.
Qed.
Lemma blind_rotation_refines : forall rows rowsf i out, glwe_wf w N k out -> Forall (ggsw_wf w N k count) rows -> mapM (ggsw_to_fft X w N k count) rows = Ok rowsf ->
  exists ds, (forall i, SpecBoot.fft_err N k D (ds i)) /\ blind_rotation_loop_fft X m h pr w log count N k out rowsf i = blind_rotation_loop h pr w log count N k out rows i ds.
Proof using All.
  induction rows as [|g rows IH]; intros rowsf i out Wo Fb Eb; cbn [mapM] in Eb.
  - injection Eb as <-. exists (fun _ => glwe_new N k). split; [intros; apply zero_err|reflexivity].
  - destruct (ggsw_to_fft X w N k count g) as [gf| |] eqn:Eg; try discriminate. cbn [bind] in Eb.
    destruct (mapM _ rows) as [bf| |] eqn:Ebs; try discriminate. cbn [bind] in Eb. injection Eb as <-.
    apply Forall_cons_iff in Fb as [Wg Fb].
    assert (Wr : glwe_wf w N k (glwe_rot w (glwe_new N k) out (- 2 ^ Z.of_nat i))) by (apply glwe_rot_ok; try assumption; [lia|apply glwe_new_shape]).
    destruct (cmux_refines out out _ g gf Wo Wr Wg Eg) as (d & Hd & E & Wres).
    cbn [blind_rotation_loop_fft blind_rotation_loop]. rewrite E. destruct (cmux h pr w log count N k out out (glwe_rot w (glwe_new N k) out (- 2 ^ Z.of_nat i)) g d) as [o| |] eqn:Ec.
    * destruct (IH bf (S i) o (Wres o eq_refl) Fb eq_refl) as (ds & Hds & Es). exists (fun j => if (j =? i)%nat then d else ds j).
      split; [intros j; destruct (j =? i)%nat; auto|]. rewrite Nat.eqb_refl, Ec. cbn [bind]. rewrite Es.
      assert (G : forall rows j o, (i < j)%nat -> blind_rotation_loop h pr w log count N k o rows j ds = blind_rotation_loop h pr w log count N k o rows j (fun j => if (j =? i)%nat then d else ds j)).
      { clear. induction rows as [|g rows IH]; intros j o Hj; cbn [blind_rotation_loop]; [reflexivity|]. rewrite (proj2 (Nat.eqb_neq j i)) by lia.
        destruct (cmux _ _ _ _ _ _ _ _ _ _ _ _); cbn [bind]; try reflexivity. apply IH. lia. }
      apply G. lia.
    * exists (fun _ => d). split; [auto|]. rewrite Ec. reflexivity.
    * exists (fun _ => d). split; [auto|]. rewrite Ec. reflexivity.
Qed.

Lemma bsk_to_fft_ok nl bsk : length bsk = nl -> Forall (ggsw_wf w N k count) bsk ->
  exists bskf, bsk_to_fft X w nl N k count bsk = Ok bskf /\ mapM (ggsw_to_fft X w N k count) bsk = Ok bskf /\ bsk_valid nl N k count bsk = true /\ bsk_fft_valid nl N k count bskf = true.
Proof using All.
  intros L F. assert (V : bsk_valid nl N k count bsk = true).
  { unfold bsk_valid. rewrite (proj2 (Nat.eqb_eq _ _) L). cbn [andb]. apply forallb_forall. intros g Hg. apply (ggsw_wf_valid w). apply (proj1 (Forall_forall _ _) F g Hg). }
  destruct (mapM_exists (ggsw_to_fft X w N k count) (fun g => ggsw_fft_valid N k count g = true) bsk) as (bskf & E & Fv).
  { intros g Hg. destruct (ggsw_to_fft_ok g) as (gf & E1 & _ & E3); [apply (proj1 (Forall_forall _ _) F g Hg)|]. eauto. }
  exists bskf. unfold bsk_to_fft. rewrite V. split; [exact E|]. split; [exact E|]. split; [reflexivity|].
  unfold bsk_fft_valid. rewrite (proj1 (mapM_inv _ [] [] _ _ E)), (proj2 (Nat.eqb_eq _ _) L). cbn [andb]. apply forallb_forall. intros g Hg. apply (proj1 (Forall_forall _ _) Fv g Hg).
Qed.

Lemma generalized_pbs_refines nl out input lut bsk bskf chi v : glwe_wf w N k lut -> Forall (ggsw_wf w N k count) bsk -> length bsk = nl -> bsk_to_fft X w nl N k count bsk = Ok bskf ->
  exists ds, (forall i, SpecBoot.fft_err N k D (ds i)) /\
    generalized_pbs_fft X m h pr w log count nl N k out input lut bskf chi v = generalized_pbs h pr w log count nl N k out input lut bsk chi v ds.
Proof using All.
  intros Wl Fb Lb Eb. destruct (bsk_to_fft_ok nl bsk Lb Fb) as (bf & E1 & E2 & V1 & V2). rewrite Eb in E1. injection E1 as <-.
  unfold generalized_pbs_fft, generalized_pbs. rewrite V1, V2.
  destruct (lwe_dim_valid nl && glwe_dim_valid N k && radix_valid w log count && true && glwe_valid N k lut && lwe_valid nl input) eqn:Ev; cbn [andb].
  2:{ exists (fun _ => glwe_new N k). split; [intros; apply zero_err|reflexivity]. }
  destruct (glwe_valid N k out) eqn:Vo. 2:{ exists (fun _ => glwe_new N k). split; [intros; apply zero_err|reflexivity]. }
  destruct (lwe_mod_switch pr w input chi v (Z.of_nat (Nat.log2 N) + 1)) as [ct| |]; cbn [bind].
  2,3: (exists (fun _ => glwe_new N k); split; [intros; apply zero_err|reflexivity]).
  apply pbs_loop_refines; [|assumption|assumption]. apply glwe_rot_ok; [assumption|lia|now apply glwe_valid_iff|assumption].
Qed.
Lemma pbs_univariate_refines nl out input lut bsk bskf : glwe_wf w N k lut -> Forall (ggsw_wf w N k count) bsk -> length bsk = nl -> bsk_to_fft X w nl N k count bsk = Ok bskf ->
  exists ds, (forall i, SpecBoot.fft_err N k D (ds i)) /\
    pbs_univariate_fft X m h pr w log count nl N k out input lut bskf = pbs_univariate h pr w log count nl N k out input lut bsk ds.
Proof using All.
  intros Wl Fb Lb Eb. destruct (generalized_pbs_refines nl (glwe_new N k) input lut bsk bskf 0 0 Wl Fb Lb Eb) as (ds & Hds & E).
  exists ds. split; [exact Hds|]. unfold pbs_univariate_fft, pbs_univariate. now rewrite E.
Qed.
Lemma pbs_bivariate_refines nl out left right lut bsk bskf p : glwe_wf w N k lut -> Forall (ggsw_wf w N k count) bsk -> length bsk = nl -> bsk_to_fft X w nl N k count bsk = Ok bskf ->
  exists ds, (forall i, SpecBoot.fft_err N k D (ds i)) /\
    pbs_bivariate_fft X m h pr w log count nl N k out left right lut bskf p = pbs_bivariate h pr w log count nl N k out left right lut bsk p ds.
Proof using All.
  intros Wl Fb Lb Eb. unfold pbs_bivariate_fft, pbs_bivariate.
  destruct (shl_i32 pr p) as [s| |]; cbn [bind]; try (exists (fun _ => glwe_new N k); split; [intros; apply zero_err|reflexivity]).
  destruct (lwe_scalar_mad w (lwe_new nl) (uwrap w s) left) as [x| |]; cbn [bind]; try (exists (fun _ => glwe_new N k); split; [intros; apply zero_err|reflexivity]).
  destruct (lwe_add_inplace w x right) as [y| |]; cbn [bind]; try (exists (fun _ => glwe_new N k); split; [intros; apply zero_err|reflexivity]).
  now apply pbs_univariate_refines.
Qed.
End Any.

(** Generated keys are machine words. *)
Lemma bsk_loop_wf N w pr log count k sk E : word w -> glwe_dim_valid N k = true -> 1 <= log -> (1 <= count)%nat -> log * Z.of_nat count < w ->
  polys_shape N k sk -> 0 <= E -> forall s bsk rnd bsk', binary s -> length s = length bsk ->
  Forall (fun g => length g = S k /\ Forall (fun r => length r = count /\ Forall (glwe_fresh N k) r) g) bsk ->
  (forall i, ggsw_rnd_ok N k count w E (rnd i)) ->
  bsk_loop pr w log count N k bsk s sk rnd = Ok bsk' -> length bsk' = length s /\ Forall (ggsw_wf w N k count) bsk'.
Proof.
  intros Hw Hdim Hl Hc Hlc Hs HE. pose proof (word_pos w Hw). destruct (dim_valid N k Hdim) as (HP & HN & Hk).
  induction s as [|x s IH]; intros bsk rnd bsk' Hb HL Hf Hr E0.
  - destruct bsk; [|discriminate]. cbn [bsk_loop] in E0. injection E0 as <-. split; [reflexivity|constructor].
  - destruct bsk as [|g bsk]; [discriminate|]. cbn [length] in HL. apply Forall_cons_iff in Hb as [Hx Hb]. apply Forall_cons_iff in Hf as [(Lg & Fg) Hf].
    cbn [bsk_loop] in E0. assert (B1 : 0 <= 1 < w) by (destruct Hw; lia).
    destruct (Hr O) as (Lr & Fr).
    destruct (ggsw_encrypt_ok N w pr log count k sk (x :: repeat 0 (N - 1)) E g 1 (rnd O)) as (g' & E1 & F1 & P1); try assumption; try lia.
    { cbn [length]. rewrite repeat_length. lia. }
    { change (2 ^ 1) with 2. constructor; [lia|]. apply Forall_forall. intros y Hy. apply repeat_spec in Hy. subst. lia. }
    unfold ggsw_encrypt_scalar in E0. destruct (Nat.eqb_spec N 0); [lia|]. rewrite E1 in E0. cbn [bind] in E0.
    destruct (bsk_loop pr w log count N k bsk s sk (fun i => rnd (S i))) as [gs| |] eqn:E2; try discriminate. cbn [bind] in E0. injection E0 as <-.
    destruct (IH bsk (fun i => rnd (S i)) gs Hb ltac:(lia) Hf (fun i => Hr (S i)) E2) as (A & B). cbn [length]. split; [lia|].
    constructor; [|exact B]. split; [apply P1|exact F1].
Qed.
