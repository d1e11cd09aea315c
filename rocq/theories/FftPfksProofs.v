(** Lemmas: public functional key switching, and circuit bootstrapping through private functional key switching, in the Fourier domain. *)
From Coq Require Import Reals ZArith List Lia Lra Bool.
From Coquelicot Require Import Complex.
From Verif Require Import Base Alu AluProofs MuxGraph MuxGraphProofs PolyRing Tfhe TfheGlwe TfheBoot TfheTrace TfheSwitch TfheCbs TfhePfks SpecTfhe SpecGlwe SpecBoot SpecTrace SpecSwitch SpecCbs SpecPfks
  FluentIntProofs TfheProofs TfheProofs2 TfheProofs3 TfheGlweProofs TfheGlweProofs2 TfheGlweProofs3 TfheGlweProofs4 TfheBootProofs TfheBootProofs2 TfhePfksProofs TfhePfksProofs2 TfhePfksProofs3.
From Verif Require Import Fft FftGlwe FftCbs FftPfks SpecFft SpecFftGlwe SpecFftCbs FftProofs FftProofs5 FftProofs6 FftFloat FftBound FftGlweProofs FftGlweProofs2 FftGlweProofs3 FftRep FftCbsProofs FftCbsProofs2 FftCbsProofs3 TfheCbsProofs.
Import ListNotations.
Ltac Zify.zify_post_hook ::= idtac.
Open Scope Z_scope.

Lemma last_pseq f inputs poly i n :
  last (f poly (col inputs i) :: pseq f inputs (f poly (col inputs i)) (S i) n) poly = last (pseq f inputs (f poly (col inputs i)) (S i) n) (f poly (col inputs i)).
Proof.
  set (p' := f poly (col inputs i)). cbn [last]. destruct (pseq f inputs p' (S i) n) as [|y l]; [reflexivity|]. clear. revert y. induction l as [|z l IH]; intros y; [reflexivity|]. cbn [last] in *. apply IH.
Qed.

(** The loops multiply the rows of the key by the successive scratch polynomials. *)
Lemma pufks_loop_rows pr w log count N k f inputs : forall key poly acc i,
  pufks_loop pr w log count N k f inputs poly acc i key =
  (acc' <- rows_mad pr w log count N k acc (pseq f inputs poly i (length key)) key ;; Ok (acc', last (pseq f inputs poly i (length key)) poly)).
Proof.
  induction key as [|row key IH]; intros poly acc i; cbn [pufks_loop length pseq]; [reflexivity|]. fold (col inputs i). cbv zeta. cbn [rows_mad].
  destruct (glev_mad _ _ _ _ _ _ _ _ _) as [a| |]; cbn [bind]; try reflexivity. rewrite IH. destruct (rows_mad _ _ _ _ _ _ _ _ _); cbn [bind]; try reflexivity. now rewrite last_pseq.
Qed.
Lemma pufks_loop_freq_rows X x86 m pr w log count N k f inputs : forall key keyf, mapM (glev_to_fft X w N k) key = Ok keyf -> forall poly acc i,
  pufks_loop_freq X x86 m pr w log count N k f inputs poly acc i key =
  (acc' <- rows_mad_fft X x86 m pr w log count N k acc (pseq f inputs poly i (length key)) keyf ;; Ok (acc', last (pseq f inputs poly i (length key)) poly)).
Proof.
  induction key as [|row key IH]; intros keyf E poly acc i; cbn [mapM] in E.
  - injection E as <-. reflexivity.
  - destruct (glev_to_fft X w N k row) as [rf| |] eqn:Er; try discriminate. cbn [bind] in E. destruct (mapM _ key) as [kf| |] eqn:Ek; try discriminate. cbn [bind] in E. injection E as <-.
    cbn [pufks_loop_freq length pseq]. rewrite Er. cbn [bind]. fold (col inputs i). cbv zeta. cbn [rows_mad_fft].
    destruct (glev_mad_fft _ _ _ _ _ _ _ _ _ _ _ _) as [a| |]; cbn [bind]; try reflexivity. rewrite (IH kf eq_refl). destruct (rows_mad_fft _ _ _ _ _ _ _ _ _ _ _ _); cbn [bind]; try reflexivity. now rewrite last_pseq.
Qed.
Lemma pseq_wf N w f inputs n : 0 <= w -> Forall (lwe_wf w n) inputs ->
  (forall old x, poly_wf w N old -> length x = length inputs -> toruses w x -> poly_wf w N (f old x)) ->
  forall t poly i, poly_wf w N poly -> Forall (poly_wf w N) (pseq f inputs poly i t).
Proof.
  intros Hw Wi Hf. induction t as [|t IH]; intros poly i Wp; cbn [pseq]; [constructor|]. cbv zeta.
  assert (W' : poly_wf w N (f poly (col inputs i))). { apply Hf; [assumption|apply col_len|eapply col_torus; [exact Hw|exact Wi]]. }
  constructor; [exact W'|]. apply IH. exact W'.
Qed.

Section Pub.
Context (X : ext) (n : nat) (u eta tau delta : R) (Hac : accurate X n u eta tau delta) (Hn : (0 < n)%nat).
Context (w : Z) (Hw : word w) (Hp2 : is_pow2 n = true) (Hlog : (2 * n <= 4096)%nat).
Context (x86 : bool) (m : mad_kernel) (Hx86 : x86 = true -> (n mod 8 = 0)%nat) (k : nat).
Context (pr : profile) (log : Z) (count : nat) (Hl : 1 <= log) (Hcount : (1 <= count)%nat) (Hs : log * Z.of_nat count < w).
Context (Hr : f64_rounding (ef_fl X)) (D : Z) (HD0 : 0 <= D).
Notation N := (2 * n)%nat.
Notation fe := (fwd_err n u eta tau delta).
Notation fq := (freq n).
Notation A63 := (IZR (2 ^ (w - 1))).

Lemma pufks_refines nl f out inputs key scp : (key_bound n u eta tau delta log count (fe A63) (fq A63) nl <= IZR D)%R ->
  length key = nl -> Forall (fun r => length r = count /\ Forall (glwe_wf w N k) r) key -> Forall (lwe_wf w nl) inputs ->
  (forall old x, poly_wf w N old -> length x = length inputs -> toruses w x -> poly_wf w N (f old x)) -> poly_wf w N scp ->
  exists d, SpecBoot.fft_err N k D d /\
    pufks_freq X x86 m pr w log count nl N k f out inputs key scp = pufks pr w log count nl N k f out inputs key scp d.
Proof using All.
  intros HD Lk Fk Wi Hf Ws. pose proof (word_pos w Hw) as Wp.
  set (h := {| hw_x86 := x86; hw_avx2 := false; hw_fma := false; hw_512f := false; hw_512dq := false |}).
  destruct (rows_to_fft_rep X n u eta tau delta Hac Hn w Hw Hp2 Hlog h m Hx86 k key) as (kf & E & R). { eapply Forall_impl; [|exact Fk]. intros r Hr'; apply Hr'. }
  pose proof (pseq_wf N w f inputs nl ltac:(lia) Wi Hf nl scp 0%nat Ws) as Fp.
  destruct (rows_product X n u eta tau delta Hac Hn w Hw Hp2 Hlog x86 m Hx86 k pr log count Hl Hcount Hs Hr (fe A63) (fq A63) (pseq f inputs scp 0 nl) key kf D)
    as (pf & pe & d & E1 & E2 & W & E3 & Hd).
  - eapply Forall_impl; [|exact Fp]. intros p Hp. apply Hp.
  - eapply Forall_impl; [|exact Fp]. intros p Hp. apply Hp.
  - now rewrite pseq_len, Lk.
  - exact Fk.
  - exact R.
  - rewrite Lk. exact HD.
  - exists d. split; [exact Hd|]. unfold pufks_freq, pufks. destruct (_ && _); [|reflexivity].
    rewrite (pufks_loop_freq_rows X x86 m pr w log count N k f inputs key kf E), (pufks_loop_rows pr w log count N k f inputs key), Lk, E1, E2. cbn [bind]. rewrite E3. reflexivity.
Qed.
End Pub.

Section Boot.
Context (X : ext) (n : nat) (u eta tau delta : R) (Hac : accurate X n u eta tau delta) (Hn : (0 < n)%nat).
Context (w : Z) (Hw : word w) (Hp2 : is_pow2 n = true) (Hlog : (2 * n <= 4096)%nat).
Context (h : hw) (m : mad_kernel) (Hx86 : hw_x86 h = true -> (n mod 8 = 0)%nat) (k : nat) (pr : profile).
Context (Hr : f64_rounding (ef_fl X)) (D : Z) (HD0 : 0 <= D).
Context (lp lf log : Z) (cp cf count : nat) (Hlp : 1 <= lp) (Hcp : (1 <= cp)%nat) (Hlcp : lp * Z.of_nat cp < w) (Hl : 1 <= log).
Notation N := (2 * n)%nat.
Context (HDp : (prod_bound n u eta tau delta w k lp cp <= IZR D)%R).

Lemma hi_noise_refines' nl rot out input bsk bskf : length bsk = nl -> Forall (ggsw_wf w N k cp) bsk -> bsk_to_fft X w nl N k cp bsk = Ok bskf ->
  exists ds, (forall i, SpecBoot.fft_err N k D (ds i)) /\
    cbs_hi_noise_freq X m h pr w lp log cp count nl N k rot out input bskf = cbs_hi_noise h pr w lp log cp count nl N k rot out input bsk ds.
Proof using All.
  intros Lb Fb Eb. unfold cbs_hi_noise_freq, cbs_hi_noise. pose proof (zero_err' n k D HD0) as ZE.
  assert (Z : exists ds : nat -> glwe, forall i, SpecBoot.fft_err N k D (ds i)) by (exists (fun _ => glwe_new N k); auto).
  destruct Z as (ds0 & Hds0). destruct (Nat.ltb_spec count 8) as [L8|]; [|exists ds0; auto].
  destruct (t_encode w 1 2) as [z| |]; cbn [bind]; [|exists ds0; auto|exists ds0; auto].
  destruct (lwe_rotate w nl rot input z) as [r| |]; cbn [bind]; [|exists ds0; auto|exists ds0; auto].
  destruct (Nat.eq_dec count 0) as [->|Nc]; [exists ds0; auto|].
  destruct (cbs_log_v count) as [lv| |]; cbn [bind]; [|exists ds0; auto|exists ds0; auto].
  destruct (cbs_lut_ok N w pr log count k Hw Hl ltac:(lia)) as (T & ET & WT & _). rewrite ET. cbn [bind].
  exact (generalized_pbs_refines X n u eta tau delta Hac Hn w Hw Hp2 Hlog h m Hx86 k pr lp cp Hlp Hcp Hlcp Hr D HDp HD0 nl out r T bsk bskf 0 (Z.of_nat lv) WT Fb Lb Eb).
Qed.

Lemma cbs_pfks_refines nl N1 k1 out input bsk bskf keys scr scg ex scl : length bsk = nl -> Forall (ggsw_wf w N k cp) bsk -> bsk_to_fft X w nl N k cp bsk = Ok bskf ->
  exists ds, (forall i, SpecBoot.fft_err N k D (ds i)) /\
    circuit_bootstrap_pfks_freq X m h pr w lp lf log cp cf count nl N k N1 k1 out input bskf keys scr scg ex scl =
    circuit_bootstrap_pfks h pr w lp lf log cp cf count nl N k N1 k1 out input bsk keys scr scg ex scl ds.
Proof using All.
  intros Lb Fb Eb. destruct (hi_noise_refines' nl scr scg input bsk bskf Lb Fb Eb) as (ds & Hds & E). exists ds. split; [exact Hds|].
  destruct (bsk_to_fft_ok X n u eta tau delta Hac Hn w Hw Hp2 Hlog h m Hx86 k pr lp cp Hlp Hcp Hlcp Hr D HDp HD0 nl bsk Lb Fb) as (bf & E1 & _ & V1 & V2). rewrite Eb in E1. injection E1 as <-.
  unfold circuit_bootstrap_pfks_freq, circuit_bootstrap_pfks. rewrite V1, V2, E. reflexivity.
Qed.
End Boot.
