(** Key switching, the trace and CMUX with keys known up to an error in the Fourier domain. *)
From Coq Require Import Reals ZArith List Lia Lra Bool.
From Coquelicot Require Import Complex.
From Verif Require Import Base Alu AluProofs MuxGraph PolyRing Tfhe TfheGlwe TfheBoot SpecTfhe SpecGlwe SpecBoot FluentIntProofs TfheProofs TfheProofs2 TfheProofs3
  TfheGlweProofs TfheGlweProofs2 TfheGlweProofs3 TfheGlweProofs4 TfheBootProofs TfheBootProofs2 TfheBootProofs3 TfheBootProofs4.
From Verif Require Import Fft FftGlwe FftCbs SpecFft FftProofs FftProofs2 FftProofs3 FftProofs4 FftProofs5 FftProofs6 FftGlweProofs FftGlweProofs2 FftGlweProofs3 SpecFftGlwe FftRep.
Import ListNotations.
Ltac Zify.zify_post_hook ::= idtac.
Open Scope Z_scope.

(** ** Machine words stay machine words *)
Section Words.
Context (w : Z) (Hw : word w) (N k : nat).

Lemma upd_wf l i f : length l = N -> toruses w l -> (forall x, torus w (f x)) -> length (upd l i f) = N /\ toruses w (upd l i f).
Proof using Type.
  intros L T Hf. revert N L i. induction T as [|x l Hx T IH]; intros M L [|i]; cbn [upd length] in *; try (split; [assumption|constructor]; fail).
  - split; [assumption|]. constructor; auto.
  - destruct (IH (M - 1)%nat ltac:(lia) i) as (A & B). split; [lia|]. constructor; auto.
Qed.
Lemma poly_pow_k_wf out p e r : length out = N -> toruses w out -> poly_pow_k w (mul_torus w) out p e = Ok r -> length r = N /\ toruses w r.
Proof using Hw.
  intros L T. pose proof (word_pos w Hw) as Wp. unfold poly_pow_k. destruct (_ && _); [|discriminate]. generalize (seq 0 (length p)) as is. intros is. revert out L T.
  induction is as [|i is IH]; intros out L T; cbn [foldM].
  - intros Q. injection Q as <-. auto.
  - unfold mul_torus at 1. cbn [bind]. apply IH; apply upd_wf; try assumption; intros; unfold tmul; apply uwrap_torus; lia.
Qed.
Lemma polys_pow_k_wf e : forall out p r, Forall (fun q => length q = N) out -> Forall (toruses w) out -> polys_pow_k w (mul_torus w) out p e = Ok r ->
  length r = length out /\ Forall (fun q => length q = N) r /\ Forall (toruses w) r.
Proof using Hw.
  induction out as [|o out IH]; intros [|x p] r F T; cbn [polys_pow_k]; try (intros Q; injection Q as <-; auto; fail).
  apply Forall_cons_iff in F as [F1 F]. apply Forall_cons_iff in T as [T1 T].
  destruct (poly_pow_k w (mul_torus w) o x e) as [o'| |] eqn:Eo; try discriminate. cbn [bind]. destruct (polys_pow_k w (mul_torus w) out p e) as [os| |] eqn:Es; try discriminate. cbn [bind].
  intros Q. injection Q as <-. destruct (poly_pow_k_wf o x e o' F1 T1 Eo) as (A & B). destruct (IH p os F T Es) as (C & D & E). cbn [length]. repeat split; try constructor; auto.
Qed.
Lemma zip_wf l : forall r, toruses w l -> toruses w (poly_add_assign w l r) /\ length (poly_add_assign w l r) = length l.
Proof using Hw.
  pose proof (word_pos w Hw) as Wp. unfold poly_add_assign. induction l as [|x l IH]; intros [|y r] T; cbn [zip_assign]; auto.
  apply Forall_cons_iff in T as [Tx T]. destruct (IH r T) as (A & B). split; [constructor; [|exact A]|cbn [length]; lia]. unfold tadd. apply uwrap_torus. lia.
Qed.
Lemma perturb_wf c d : glwe_wf w N k c -> glwe_wf w N k (glwe_perturb w c d).
Proof using Hw.
  intros (([L F] & Lb) & T & Tb). unfold glwe_perturb.
  assert (G : forall l r, Forall (fun p => length p = N) l -> Forall (toruses w) l ->
     length (zip_assign (poly_add_assign w) l r) = length l /\ Forall (fun p => length p = N) (zip_assign (poly_add_assign w) l r) /\ Forall (toruses w) (zip_assign (poly_add_assign w) l r)).
  { clear - Hw. induction l as [|x l IH]; intros [|y r] F T; cbn [zip_assign]; auto. apply Forall_cons_iff in F as [F1 F]. apply Forall_cons_iff in T as [T1 T].
    destruct (IH r F T) as (A & B & C). destruct (zip_wf x y T1) as (D & E). cbn [length]. split; [lia|]. split; constructor; auto. congruence. }
  destruct (G (ga c) (ga d) F T) as (A & B & C). destruct (zip_wf (gb c) (gb d) Tb) as (D & E). repeat split; cbn [ga gb]; auto; congruence.
Qed.
Lemma add_assign_wf c a r : glwe_wf w N k c -> glwe_add_assign w N k c a = Ok r -> glwe_wf w N k r.
Proof using Hw.
  intros Wc. unfold glwe_add_assign. destruct (_ && _); [|discriminate]. intros Q. injection Q as <-. exact (perturb_wf c a Wc).
Qed.
Lemma trivial_wf p : length p = N -> toruses w p -> glwe_wf w N k (glwe_trivial (glwe_new N k) p).
Proof using Hw.
  intros L T. pose proof (word_pos w Hw) as Wp. unfold glwe_trivial, glwe_new. cbn [ga gb].
  assert (Z : zip_assign (fun _ x => x) (zpoly N) p = p).
  { unfold zpoly. rewrite <- L. clear. induction p as [|x p IH]; cbn [length repeat zip_assign]; [reflexivity|]. now rewrite IH. }
  rewrite Z. repeat split; cbn [ga gb]; auto.
  - now rewrite map_length, repeat_length.
  - apply Forall_forall. intros q Hq. apply in_map_iff in Hq as (q' & <- & Hq). apply repeat_spec in Hq. subst. rewrite map_length. apply repeat_length.
  - apply Forall_forall. intros q Hq. apply in_map_iff in Hq as (q' & <- & Hq). apply Forall_forall. intros x Hx. apply in_map_iff in Hx as (? & <- & _). split; [lia|]. apply pow_pos'. lia.
Qed.
End Words.

Section Keys.
Context (X : ext) (n : nat) (u eta tau delta : R) (Hac : accurate X n u eta tau delta) (Hn : (0 < n)%nat).
Context (w : Z) (Hw : word w) (Hp2 : is_pow2 n = true) (Hlog : (2 * n <= 4096)%nat).
Context (h : hw) (m : mad_kernel) (Hx86 : hw_x86 h = true -> (n mod 8 = 0)%nat) (k : nat).
Notation N := (2 * n)%nat.
Notation fe := (fwd_err n u eta tau delta).
Notation fq := (freq n).
Notation A63 := (IZR (2 ^ (w - 1))).

Lemma crep_valid e s f c : crep n w k e s f c -> glwe_fft_valid N k f = true.
Proof using Type.
  intros ((A & B & C) & _). unfold glwe_fft_valid. rewrite half_twice, A, C, !Nat.eqb_refl, andb_true_r. cbn [andb].
  apply forallb_forall. intros p Hp. apply Nat.eqb_eq. apply (proj1 (Forall_forall _ _) B p Hp).
Qed.
Lemma rowrep_valid e s rf r count : rowrep n w k e s rf r -> length r = count -> glev_fft_valid N k count rf = true.
Proof using Type.
  intros R L. unfold glev_fft_valid. rewrite (F2_len _ _ _ R), L, Nat.eqb_refl. cbn [andb]. apply forallb_forall. intros f Hf.
  clear L. induction R as [|x y rf r Hx R IH]; cbn [In] in Hf; [contradiction|]. destruct Hf as [<-|Hf]; [exact (crep_valid _ _ _ _ Hx)|auto].
Qed.
Lemma rowsrep_valid e s rowsf rows count : Forall2 (rowrep n w k e s) rowsf rows -> Forall (fun r => length r = count) rows -> forallb (glev_fft_valid N k count) rowsf = true.
Proof using Type.
  induction 1 as [|rf r rowsf rows H R IH]; intros F; [reflexivity|]. apply Forall_cons_iff in F as [F1 F]. cbn [forallb]. rewrite (rowrep_valid _ _ _ _ _ H F1). now apply IH.
Qed.
Lemma glev_to_fft_rep r : Forall (glwe_wf w N k) r -> exists rf, glev_to_fft X w N k r = Ok rf /\ rowrep n w k (fe A63) (fq A63) rf r.
Proof using All.
  intros F. induction F as [|c r Hc F IH]; [exists []; split; [reflexivity|constructor]|].
  destruct (glwe_to_fft_ok X n u eta tau delta Hac Hn w Hw Hp2 Hlog (hw_x86 h) m Hx86 k c (proj1 Hc)) as (f & Ef & _).
  destruct IH as (rf & Er & R). exists (f :: rf). unfold glev_to_fft in *. cbn [mapM]. rewrite Ef. cbn [bind]. rewrite Er. cbn [bind]. split; [reflexivity|].
  constructor; [|exact R]. exact (to_fft_rep X n u eta tau delta Hac Hn w Hw Hp2 Hlog (hw_x86 h) m Hx86 k c f Hc Ef).
Qed.
Lemma rows_to_fft_rep rows : Forall (Forall (glwe_wf w N k)) rows -> exists rowsf, mapM (glev_to_fft X w N k) rows = Ok rowsf /\ Forall2 (rowrep n w k (fe A63) (fq A63)) rowsf rows.
Proof using All.
  intros F. induction F as [|r rows Hr F IH]; [exists []; split; [reflexivity|constructor]|].
  destruct (glev_to_fft_rep r Hr) as (rf & Er & R). destruct IH as (rowsf & Es & R'). exists (rf :: rowsf). cbn [mapM]. rewrite Er. cbn [bind]. rewrite Es. cbn [bind]. split; [reflexivity|]. constructor; assumption.
Qed.

Section Radix.
Context (pr : profile) (log : Z) (count : nat) (Hl : 1 <= log) (Hcount : (1 <= count)%nat) (Hs : log * Z.of_nat count < w).
Context (Hr : f64_rounding (ef_fl X)) (D : Z) (HD0 : 0 <= D).
Notation kb := (key_bound n u eta tau delta log count).

Lemma zero_err' : SpecBoot.fft_err N k D (glwe_new N k).
Proof using HD0.
  split; [apply glwe_new_shape|]. split.
  - cbn [ga glwe_new]. apply Forall_forall. intros p Hp. apply repeat_spec in Hp. subst. apply Forall_forall. intros x Hx. apply repeat_spec in Hx. subst. exact HD0.
  - cbn [gb glwe_new]. apply Forall_forall. intros x Hx. apply repeat_spec in Hx. subst. exact HD0.
Qed.

(** *** CMUX *)
Lemma cmux_rep e s c d0 d1 g gf : glwe_wf w N k d0 -> glwe_wf w N k d1 -> ggsw_wf w N k count g -> Forall2 (rowrep n w k e s) gf g -> (kb e s (S k) <= IZR D)%R ->
  exists d, SpecBoot.fft_err N k D d /\
    cmux_fft X m h pr w log count N k c d0 d1 gf = cmux h pr w log count N k c d0 d1 g d /\
    forall r, cmux h pr w log count N k c d0 d1 g d = Ok r -> glwe_wf w N k r.
Proof using All.
  intros W0 W1 Wg Rg HD. pose proof (ggsw_wf_valid _ _ _ _ _ Wg) as Vg. destruct Wg as (Lg & Fg).
  assert (Vf : ggsw_fft_valid N k count gf = true).
  { unfold ggsw_fft_valid. rewrite (F2_len _ _ _ Rg), Lg. replace (S k =? k + 1)%nat with true by (symmetry; apply Nat.eqb_eq; lia). cbn [andb].
    apply (rowsrep_valid e s gf g count Rg). eapply Forall_impl; [|exact Fg]. intros r H; apply H. }
  unfold cmux_fft, cmux. rewrite Vf, Vg.
  destruct (_ && _ && _ && _ && _ && true). 2:{ exists (glwe_new N k). split; [apply zero_err'|]. split; [reflexivity|discriminate]. }
  destruct (glwe_sub h pr w (glwe_new N k) d1 d0) as [diff| |] eqn:Ed; cbn [bind].
  2,3: (exists (glwe_new N k); split; [apply zero_err'|]; split; [reflexivity|discriminate]).
  pose proof (glwe_sub_wf h pr w N k _ d1 d0 diff Hw W1 W0 Ed) as Wd.
  destruct Wd as (([La Fa] & Lb) & Ta & Tb).
  destruct (rows_product X n u eta tau delta Hac Hn w Hw Hp2 Hlog (hw_x86 h) m Hx86 k pr log count Hl Hcount Hs Hr e s (ga diff ++ [gb diff]) g gf D)
    as (pf & pe & d & E1 & E2 & W & E3 & Hd); try assumption.
  - apply Forall_app. split; [exact Ta|]. constructor; [exact Tb|constructor].
  - apply Forall_app. split; [exact Fa|]. constructor; [exact Lb|constructor].
  - rewrite app_length. cbn [length]. lia.
  - now rewrite Lg.
  - exists d. split; [exact Hd|]. unfold glwe_ggsw_mad_fft, glwe_ggsw_mad. rewrite E1, E2. cbn [bind]. rewrite E3. cbn [bind]. split; [reflexivity|].
    intros r Er. eapply glwe_add_wf; [exact Hw| |exact W0|exact Er]. now apply perturb_wf.
Qed.

(** *** Key switching and the trace *)
Context (HD : (kb (fe A63) (fq A63) k <= IZR D)%R).
Definition gksk_wf (ksk : list (list glwe)) : Prop := length ksk = k /\ Forall (fun r => length r = count /\ Forall (glwe_wf w N k) r) ksk.

Lemma keyswitch_refines out ct ksk kskf : glwe_wf w N k ct -> gksk_wf ksk -> gksk_to_fft X w N k ksk = Ok kskf ->
  exists d, SpecBoot.fft_err N k D d /\
    keyswitch_freq X m h pr w log count N k out ct kskf = keyswitch_fft h pr w log count N k out ct ksk d /\
    forall r, keyswitch_fft h pr w log count N k out ct ksk d = Ok r -> glwe_wf w N k r.
Proof using All.
  intros (([La Fa] & Lb) & Ta & Tb) (Lk & Fk) Ek.
  destruct (rows_to_fft_rep ksk) as (kf & E & R). { eapply Forall_impl; [|exact Fk]. intros r Hr'; apply Hr'. }
  unfold gksk_to_fft in Ek. rewrite Ek in E. injection E as <-.
  destruct (rows_product X n u eta tau delta Hac Hn w Hw Hp2 Hlog (hw_x86 h) m Hx86 k pr log count Hl Hcount Hs Hr (fe A63) (fq A63) (ga ct) ksk kskf D)
    as (pf & pe & d & E1 & E2 & W & E3 & Hd); try eassumption.
  - lia.
  - now rewrite Lk.
  - exists d. split; [exact Hd|]. unfold keyswitch_freq, keyswitch_fft. rewrite E1, E2. cbn [bind]. rewrite E3. cbn [bind]. split; [reflexivity|].
    intros r Er. eapply glwe_sub_wf; [exact Hw| | |exact Er]; [now apply trivial_wf|now apply perturb_wf].
Qed.

Lemma trace_loop_refines : forall ak akf i out ks gk, glwe_wf w N k out -> glwe_wf w N k ks -> glwe_wf w N k gk -> Forall gksk_wf ak -> ak_to_fft X w N k ak = Ok akf ->
  exists ds, (forall i, SpecBoot.fft_err N k D (ds i)) /\
    trace_loop_freq X m h pr w log count N k out ks gk akf i = trace_loop h pr w log count N k out ks gk ak i ds /\
    forall r, trace_loop h pr w log count N k out ks gk ak i ds = Ok r -> glwe_wf w N k r.
Proof using All.
  pose proof zero_err' as ZE.
  induction ak as [|ksk ak IH]; intros akf i out ks gk Wo Wk Wg Fa Ea; unfold ak_to_fft in Ea; cbn [mapM] in Ea.
  - injection Ea as <-. exists (fun _ => glwe_new N k). split; [intros; exact ZE|]. split; [reflexivity|]. cbn [trace_loop]. intros r Q. injection Q as <-. exact Wo.
  - destruct (gksk_to_fft X w N k ksk) as [kf| |] eqn:Ek; try discriminate. cbn [bind] in Ea. destruct (mapM _ ak) as [af| |] eqn:Eaf; try discriminate. cbn [bind] in Ea. injection Ea as <-.
    apply Forall_cons_iff in Fa as [Fk Fa]. cbn [trace_loop_freq trace_loop].
    destruct (polys_pow_k w (mul_torus w) (ga gk) (ga out) (trace_exp N i)) as [a| |] eqn:Epa; cbn [bind].
    2,3: (exists (fun _ => glwe_new N k); split; [intros; exact ZE|]; split; [reflexivity|discriminate]).
    destruct (poly_pow_k w (mul_torus w) (gb gk) (gb out) (trace_exp N i)) as [b| |] eqn:Epb; cbn [bind].
    2,3: (exists (fun _ => glwe_new N k); split; [intros; exact ZE|]; split; [reflexivity|discriminate]).
    assert (Wg' : glwe_wf w N k {| ga := a; gb := b |}).
    { destruct Wg as (([L F] & Lb) & T & Tb). destruct (polys_pow_k_wf w Hw N _ _ _ _ F T Epa) as (A & B & C). destruct (poly_pow_k_wf w Hw N _ _ _ _ Lb Tb Epb) as (A' & B').
      repeat split; cbn [ga gb]; auto; congruence. }
    destruct (keyswitch_refines ks _ ksk kf Wg' Fk Ek) as (d & Hd & Eks & Wks). rewrite Eks.
    destruct (keyswitch_fft h pr w log count N k ks {| ga := a; gb := b |} ksk d) as [ks'| |] eqn:Eks'.
    2,3: (exists (fun _ => d); split; [auto|]; rewrite Eks'; split; [reflexivity|discriminate]).
    specialize (Wks ks' eq_refl). destruct (glwe_add_assign w N k out ks') as [out'| |] eqn:Eo.
    2,3: (exists (fun _ => d); split; [auto|]; rewrite Eks'; cbn [bind]; rewrite Eo; split; [reflexivity|discriminate]).
    destruct (IH af (S i) out' ks' {| ga := a; gb := b |} (add_assign_wf w Hw N k _ _ _ Wo Eo) Wks Wg' Fa Eaf) as (ds & Hds & Es & Ws).
    assert (G : forall ak out ks gk j, (i < j)%nat -> trace_loop h pr w log count N k out ks gk ak j (fun j => if (j =? i)%nat then d else ds j) = trace_loop h pr w log count N k out ks gk ak j ds).
    { clear. induction ak as [|q ak IH]; intros out ks gk j Hj; cbn [trace_loop]; [reflexivity|]. rewrite (proj2 (Nat.eqb_neq j i)) by lia.
      destruct (polys_pow_k _ _ _ _ _); cbn [bind]; try reflexivity. destruct (poly_pow_k _ _ _ _ _); cbn [bind]; try reflexivity.
      destruct (keyswitch_fft _ _ _ _ _ _ _ _ _ _ _); cbn [bind]; try reflexivity. destruct (glwe_add_assign _ _ _ _ _); cbn [bind]; try reflexivity. apply IH. lia. }
    exists (fun j => if (j =? i)%nat then d else ds j). split; [intros j; destruct (j =? i)%nat; auto|]. rewrite Nat.eqb_refl, Eks'. cbn [bind]. rewrite Eo. cbn [bind].
    rewrite G by lia. split; [exact Es|exact Ws].
Qed.

Lemma ak_to_fft_ok ak : length ak = Nat.log2 N -> Forall gksk_wf ak -> exists akf, ak_to_fft X w N k ak = Ok akf /\ ak_fft_valid N k count akf = true /\ ak_valid N k count ak = true.
Proof using All.
  intros L F. assert (G : exists akf, ak_to_fft X w N k ak = Ok akf /\ length akf = length ak /\ forallb (fun ksk => (length ksk =? k)%nat && forallb (glev_fft_valid N k count) ksk) akf = true /\ forallb (gksk_valid N k count) ak = true).
  { clear L. induction F as [|ksk ak (Lk & Fk) F IH]; [exists []; repeat split; reflexivity|]. destruct IH as (akf & E & L & V & V').
    destruct (rows_to_fft_rep ksk) as (kf & E1 & R). { eapply Forall_impl; [|exact Fk]. intros r Hr'; apply Hr'. }
    assert (Fl : Forall (fun r => length r = count) ksk) by (eapply Forall_impl; [|exact Fk]; intros r Hr'; apply Hr').
    exists (kf :: akf). unfold ak_to_fft, gksk_to_fft in *. cbn [mapM]. rewrite E1. cbn [bind]. rewrite E. cbn [bind length]. split; [reflexivity|]. split; [lia|]. cbn [forallb].
    rewrite (F2_len _ _ _ R), Lk, Nat.eqb_refl, (rowsrep_valid _ _ _ _ count R Fl), V. split; [reflexivity|]. rewrite V', andb_true_r. unfold gksk_valid. rewrite Lk, Nat.eqb_refl. cbn [andb].
    apply forallb_forall. intros r Hin. destruct (proj1 (Forall_forall _ _) Fk r Hin) as (A & B). unfold glev_valid. rewrite A, Nat.eqb_refl. cbn [andb].
    apply forallb_forall. intros c Hc. apply glwe_valid_iff. apply (proj1 (Forall_forall _ _) B c Hc). }
  destruct G as (akf & E & L' & V & V'). exists akf. split; [exact E|]. unfold ak_fft_valid, ak_valid. rewrite L', L, Nat.eqb_refl, V, V'. split; reflexivity.
Qed.

Lemma trace_refines out x ks gk ak akf : glwe_wf w N k x -> glwe_wf w N k ks -> glwe_wf w N k gk -> length ak = Nat.log2 N -> Forall gksk_wf ak -> ak_to_fft X w N k ak = Ok akf ->
  exists ds, (forall i, SpecBoot.fft_err N k D (ds i)) /\
    trace_freq X m h pr w log count N k out x ks gk akf = trace h pr w log count N k out x ks gk ak ds /\
    forall r, trace h pr w log count N k out x ks gk ak ds = Ok r -> glwe_wf w N k r.
Proof using All.
  intros Wx Wk Wg L F E. destruct (ak_to_fft_ok ak L F) as (akf' & E' & V1 & V2). rewrite E in E'. injection E' as <-.
  unfold trace_freq, trace. rewrite V1, V2. destruct (_ && _).
  - now apply trace_loop_refines.
  - exists (fun _ => glwe_new N k). split; [intros; apply zero_err'|]. split; [reflexivity|discriminate].
Qed.
End Radix.
End Keys.
