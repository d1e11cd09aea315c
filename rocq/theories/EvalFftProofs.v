(** The evaluation layer through the FFT does what Eval.v does with some bounded errors. *)
From Coq Require Import Reals ZArith List Lia Lra Bool.
From Coquelicot Require Import Complex.
From Verif Require Import Base Alu AluProofs Graph MuxGraph FheGraph PolyRing Tfhe TfheGlwe TfheBoot TfheTrace TfheSwitch TfheCbs Eval SpecFhe SpecTfhe SpecGlwe SpecBoot SpecTrace SpecSwitch SpecCbs SpecEval
  FluentIntProofs TfheProofs TfheProofs2 TfheProofs3
  TfheGlweProofs TfheGlweProofs2 TfheGlweProofs3 TfheGlweProofs4 TfheBootProofs TfheBootProofs2 TfheBootProofs3 TfheBootProofs4 TfheSwitchProofs EvalProofs.
From Verif Require Import Fft FftGlwe FftCbs EvalFft SpecFft SpecFftGlwe SpecFftCbs SpecEvalFft FftProofs FftProofs5 FftProofs6 FftGlweProofs FftGlweProofs2 FftGlweProofs3
  FftRep FftCbsProofs FftCbsProofs2 FftCbsProofs3 Props_Fft Props_FftGlwe Props_FftCbs.
Import ListNotations.
Ltac Zify.zify_post_hook ::= idtac.
Open Scope Z_scope.

Definition res_rel {S T} (R : S -> T -> Prop) (a : res S) (b : res T) : Prop :=
  match a, b with Ok x, Ok y => R x y | Err e, Err e' => e = e' | Panic, Panic => True | _, _ => False end.
Definition opt_rel {S T} (R : S -> T -> Prop) (a : option S) (b : option T) : Prop :=
  match a, b with Some x, Some y => R x y | None, None => True | _, _ => False end.


(** ** One machine, one parameter set; [n] is half the degree. *)
Section Core.
Context (X : ext) (m : mad_kernel) (h : hw) (pr : profile) (P : params) (B : bounds) (HP : params_ok P) (HB : bounds_ok B).
Context (n : nat) (u eta tau delta : R) (EN : p_N P = (2 * n)%nat) (Hn : (0 < n)%nat) (Hp2 : is_pow2 n = true) (H4096 : (2 * n <= 4096)%nat) (Hm8 : hw_x86 h = true -> (n mod 8 = 0)%nat).
Context (Hac : accurate X n u eta tau delta) (Hr : f64_rounding (ef_fl X)).
Local Notation N := (p_N P). Local Notation k := (p_k P). Local Notation cnt := (r_count (p_cbs P)).
Local Notation fe := (fwd_err n u eta tau delta).
Local Notation ee := (ss_e n u eta tau delta 64 k (r_log (p_ss P)) (r_count (p_ss P))).
Local Notation es := (ss_s n 64 k (r_log (p_ss P)) (r_count (p_ss P))).
Local Notation gfr := (Forall2 (rowrep n 64 k ee es)).
Local Notation A63 := (IZR (2 ^ (64 - 1))).
Context (HDp : (prod_bound n u eta tau delta 64 k (r_log (p_pbs P)) (r_count (p_pbs P)) <= IZR (b_fp B))%R).
Context (HDt : (key_bound n u eta tau delta (r_log (p_tr P)) (r_count (p_tr P)) (fe A63) (freq n A63) k <= IZR (b_fp B))%R).
Context (HDs : (key_bound n u eta tau delta (r_log (p_cbs P)) cnt ee es (S k) <= IZR (b_sel B))%R).

Lemma HDs0 : 0 <= b_sel B. Proof using HB. apply HB. Qed.
Lemma HDf0 : 0 <= b_fp B. Proof using HB. apply HB. Qed.

Lemma cmux_rel out a b g gf : glwe_wf 64 N k a -> glwe_wf 64 N k b -> ggsw_wf 64 N k cnt g -> gfr gf g ->
  exists d, SpecBoot.fft_err N k (b_sel B) d /\
    cmux_fft X m h pr 64 (r_log (p_cbs P)) cnt N k out a b gf = cmux h pr 64 (r_log (p_cbs P)) cnt N k out a b g d /\
    forall r, cmux h pr 64 (r_log (p_cbs P)) cnt N k out a b g d = Ok r -> glwe_wf 64 N k r.
Proof using All.
  destruct (po_cbs P HP) as (Hl & Hc & Hlc). rewrite EN. intros Wa Wb Wg R.
  exact (cmux_rep X n u eta tau delta Hac Hn 64 word64 Hp2 H4096 h m Hm8 k pr (r_log (p_cbs P)) cnt Hl Hc Hlc Hr (b_sel B) HDs0 ee es out a b g gf Wa Wb Wg R HDs).
Qed.
Lemma sel_zero : SpecBoot.fft_err N k (b_sel B) (glwe_new N k). Proof using HB EN. rewrite EN. apply zero_err', HDs0. Qed.
Lemma fp_zero : SpecBoot.fft_err N k (b_fp B) (glwe_new N k). Proof using HB EN. rewrite EN. apply zero_err', HDf0. Qed.

Lemma glev_cmux_rel g gf : ggsw_wf 64 N k cnt g -> gfr gf g -> forall out a b, Forall (glwe_wf 64 N k) out -> Forall (glwe_wf 64 N k) a -> Forall (glwe_wf 64 N k) b ->
  exists ds, (forall i, SpecBoot.fft_err N k (b_sel B) (ds i)) /\
    glev_cmux_fft X m h pr 64 (r_log (p_cbs P)) cnt N k out a b gf = glev_cmux h pr 64 (r_log (p_cbs P)) cnt N k out a b g ds /\
    forall r, glev_cmux h pr 64 (r_log (p_cbs P)) cnt N k out a b g ds = Ok r -> length r = length out /\ Forall (glwe_wf 64 N k) r.
Proof using All.
  intros Wg R. induction out as [|x out IH]; intros a b Wo Wa Wb.
  { exists (fun _ => glwe_new N k). split; [intros; apply sel_zero|]. split; [reflexivity|]. cbn. intros r [= <-]. auto. }
  destruct a as [|y a]; [exists (fun _ => glwe_new N k); split; [intros; apply sel_zero|]; split; [reflexivity|]; cbn; intros r [= <-]; auto|].
  destruct b as [|z b]; [exists (fun _ => glwe_new N k); split; [intros; apply sel_zero|]; split; [reflexivity|]; cbn; intros r [= <-]; auto|].
  apply Forall_cons_iff in Wo as [Wx Wo]. apply Forall_cons_iff in Wa as [Wy Wa]. apply Forall_cons_iff in Wb as [Wz Wb].
  destruct (cmux_rel x y z g gf Wy Wz Wg R) as (d & Hd & Ed & Wd). destruct (IH a b Wo Wa Wb) as (ds & Hds & Eds & Wds).
  exists (fun i => match i with O => d | S i => ds i end). split; [intros [|i]; auto|]. cbn [glev_cmux_fft glev_cmux]. rewrite Ed, Eds. split; [reflexivity|]. intros r.
  destruct (cmux h pr 64 (r_log (p_cbs P)) cnt N k x y z g d) as [x'| |]; try discriminate. cbn [bind].
  destruct (glev_cmux h pr 64 (r_log (p_cbs P)) cnt N k out a b g (fun i => ds i)) as [c'| |]; try discriminate. cbn [bind]. intros [= <-].
  destruct (Wds c' eq_refl) as (L & F). cbn [length]. split; [lia|]. constructor; [now apply Wd|assumption].
Qed.

Lemma multiply_rel x g gf : glwe_wf 64 N k x -> ggsw_wf 64 N k cnt g -> gfr gf g ->
  exists pe d, SpecBoot.fft_err N k (b_sel B) d /\ rev_multiply X m h pr P x gf = Ok (glwe_perturb 64 pe d) /\
    glwe_ggsw_mad pr 64 (r_log (p_cbs P)) cnt N k (glwe_new N k) x g = Ok pe /\ glwe_wf 64 N k (glwe_perturb 64 pe d).
Proof using All.
  destruct (po_cbs P HP) as (Hl & Hc & Hlc). unfold rev_multiply. rewrite EN. intros (([La Fa] & Lb) & Ta & Tb) (Lg & Fg) R.
  destruct (rows_product X n u eta tau delta Hac Hn 64 word64 Hp2 H4096 (hw_x86 h) m Hm8 k pr (r_log (p_cbs P)) cnt Hl Hc Hlc Hr ee es (ga x ++ [gb x]) g gf (b_sel B))
    as (pf & pe & d & E1 & E2 & W & E3 & Hd); try assumption.
  - apply Forall_app. split; [exact Ta|]. constructor; [exact Tb|constructor].
  - apply Forall_app. split; [exact Fa|]. constructor; [exact Lb|constructor].
  - rewrite app_length. cbn [length]. lia.
  - now rewrite Lg.
  - exists pe, d. split; [exact Hd|]. unfold glwe_ggsw_mad_fft, glwe_ggsw_mad. rewrite E1, E2. cbn [bind]. rewrite E3. split; [reflexivity|]. split; [reflexivity|]. apply perturb_wf; [exact word64|assumption].
Qed.

(** Keys of machine words and their transforms. *)
Definition key_words (ck : compute_key) : Prop :=
  length (k_bs ck) = p_n P /\ Forall (ggsw_wf 64 N k (r_count (p_pbs P))) (k_bs ck) /\
  ak_words 64 N k (r_count (p_tr P)) (k_auto ck) /\ ssk_words 64 N k (r_count (p_ss P)) (k_ss ck).
Lemma key_fft_ok ck : key_words ck -> exists fk, key_fft X P ck = Ok fk /\ fk_ks fk = k_ks ck.
Proof using All.
  intros (Lb & Fb & (La & Fa) & Ws). unfold key_fft. rewrite EN in *.
  destruct (po_pbs P HP) as (Hl1 & Hc1 & Hlc1), (po_tr P HP) as (Hl2 & Hc2 & Hlc2), (po_ss P HP) as (Hl3 & Hc3 & Hlc3).
  destruct (ssk_to_fft_ok X n u eta tau delta Hac Hn 64 word64 Hp2 H4096 (hw_x86 h) m Hm8 k pr _ _ Hl3 Hc3 Hlc3 (k_ss ck) Ws) as (sskf & -> & _). cbn [bind].
  destruct (ak_to_fft_ok X n u eta tau delta Hac Hn 64 word64 Hp2 H4096 h m Hm8 k pr _ _ Hl2 Hc2 Hlc2 Hr (b_fp B) HDf0 HDt (k_auto ck) La Fa) as (akf & -> & _). cbn [bind].
  destruct (bsk_to_fft_ok X n u eta tau delta Hac Hn 64 word64 Hp2 H4096 h m Hm8 k pr _ _ Hl1 Hc1 Hlc1 Hr (b_fp B) HDp HDf0 (p_n P) (k_bs ck) Lb Fb) as (bskf & -> & _). cbn [bind].
  eexists. split; reflexivity.
Qed.
Lemma key_fft_inv ck fk : key_fft X P ck = Ok fk -> ssk_to_fft X 64 N k (r_count (p_ss P)) (k_ss ck) = Ok (fk_ss fk) /\ ak_to_fft X 64 N k (k_auto ck) = Ok (fk_auto fk) /\
  bsk_to_fft X 64 (p_n P) N k (r_count (p_pbs P)) (k_bs ck) = Ok (fk_bs fk) /\ fk_ks fk = k_ks ck.
Proof using Type.
  unfold key_fft. destruct (ssk_to_fft _ _ _ _ _ _); try discriminate. cbn [bind]. destruct (ak_to_fft _ _ _ _ _); try discriminate. cbn [bind]. destruct (bsk_to_fft _ _ _ _ _ _ _); try discriminate. cbn [bind].
  intros [= <-]. auto.
Qed.

Definition env (s : scratch) (sel d1 : nat -> glwe) (d2 : nat -> nat -> glwe) : fenv :=
  {| fe_lwe := sc_lwe s; fe_glwe := sc_glwe s; fe_glev := sc_glev s; fe_sel := sel; fe_d1 := d1; fe_d2 := d2; fe_d3 := fun _ _ => glwe_new N k |}.
Lemma env_ok s sel d1 d2 : scratch_ok P s -> (forall i, SpecBoot.fft_err N k (b_sel B) (sel i)) -> (forall i, SpecBoot.fft_err N k (b_fp B) (d1 i)) ->
  (forall i j, SpecBoot.fft_err N k (b_fp B) (d2 i j)) -> fenv_ok P B (env s sel d1 d2).
Proof using HB EN.
  intros [S1 S2 S3 S4] H1 H2 H3. constructor; cbn [env fe_lwe fe_glwe fe_glev fe_sel fe_d1 fe_d2 fe_d3]; try assumption; [apply S2|]. intros. apply fp_zero.
Qed.
Definition env0 s := env s (fun _ => glwe_new N k) (fun _ => glwe_new N k) (fun _ _ => glwe_new N k).
Lemma env0_ok s : scratch_ok P s -> fenv_ok P B (env0 s).
Proof using HB EN. intros Hs. apply env_ok; intros; auto using sel_zero, fp_zero. Qed.

Lemma cbs_rel ck fk s x : key_words ck -> key_fft X P ck = Ok fk -> scratch_ok P s ->
  exists f, fenv_ok P B f /\ res_rel (fun gf g => gfr gf g /\ ggsw_wf 64 N k cnt g)
    (rev_cbs X m h pr P fk (ggsw_fft_zero N k cnt) x s) (ev_cbs h pr P ck (ggsw_new N k cnt) x f).
Proof using All.
  intros (Lb & Fb & (La & Fa) & Ws) Hk Hs. destruct (key_fft_inv ck fk Hk) as (E3 & E2 & E1 & _).
  destruct (po_pbs P HP) as (Hl1 & Hc1 & Hlc1), (po_tr P HP) as (Hl2 & Hc2 & Hlc2), (po_ss P HP) as (Hl3 & Hc3 & Hlc3), (po_cbs P HP) as (Hl4 & Hc4 & Hlc4).
  pose proof (sco_glwe _ _ Hs) as Sg. pose proof (sco_glevl _ _ Hs) as Sl. pose proof (sco_glev _ _ Hs) as Sf.
  rewrite EN in E1, E2, E3, La, Fa, Fb, Ws, Sg, Sf.
  destruct (circuit_bootstrap_rep X n u eta tau delta Hac Hn 64 word64 Hp2 H4096 h m Hm8 k pr Hr (b_fp B) HDf0 (r_log (p_pbs P)) (r_log (p_tr P)) (r_log (p_ss P)) (r_log (p_cbs P))
    (r_count (p_pbs P)) (r_count (p_tr P)) (r_count (p_ss P)) cnt Hl1 Hc1 Hlc1 Hl2 Hc2 Hlc2 Hl3 Hc3 Hlc3 Hl4 HDp HDt
    (p_n P) x (k_bs ck) (k_auto ck) (k_ss ck) (fk_bs fk) (fk_auto fk) (fk_ss fk) (sc_lwe s) (sc_glwe s) (sc_glev s) Lb Fb E1 La Fa E2 Ws E3 Sg Sl Sf) as (d1 & d2 & Hd1 & Hd2 & G).
  rewrite <- EN in Hd1, Hd2, G.
  exists (env s (fun _ => glwe_new N k) d1 d2). split; [apply env_ok; intros; auto using sel_zero|].
  unfold rev_cbs, ev_cbs, env. cbn [fe_lwe fe_glwe fe_glev fe_d1 fe_d2 fe_d3].
  destruct (circuit_bootstrap _ _ _ _ _ _ _ _ _ _ _ _ _ _ _ _ _ _ _ _ _ _ _ _ _) as [g| |]; [|rewrite G; reflexivity|rewrite G; exact I].
  destruct G as (Wg & gf & -> & R). cbn [res_rel]. auto.
Qed.

Lemma schsw_rel ck fk s x : key_words ck -> key_fft X P ck = Ok fk -> scratch_ok P s -> length x = cnt -> Forall (glwe_wf 64 N k) x ->
  exists f, fenv_ok P B f /\ res_rel (fun gf g => gfr gf g /\ ggsw_wf 64 N k cnt g)
    (rev_scheme_switch X m h pr P fk (ggsw_fft_zero N k cnt) x) (ev_scheme_switch pr P ck (ggsw_new N k cnt) x f).
Proof using All.
  intros (Lb & Fb & (La & Fa) & Ws) Hk Hs Lx Fx. destruct (key_fft_inv ck fk Hk) as (E3 & _ & _ & _). destruct (po_ss P HP) as (Hl3 & Hc3 & Hlc3).
  exists (env0 s). split; [now apply env0_ok|]. unfold rev_scheme_switch, ev_scheme_switch, env0, env. cbn [fe_d3]. rewrite EN in *.
  destruct (scheme_switch_rep X n u eta tau delta Hac Hn 64 word64 Hp2 H4096 (hw_x86 h) m Hm8 k pr _ _ Hl3 Hc3 Hlc3 cnt x (k_ss ck) (fk_ss fk) Ws E3 Lx Fx) as (gf & g & -> & -> & Wg & R).
  cbn [res_rel]. auto.
Qed.
End Core.
