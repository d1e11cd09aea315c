(** Theorems about running FHE circuits on TFHE ciphertexts through the floating-point FFT. *)
From Coq Require Import Reals ZArith List Lia Lra Bool.
From Coquelicot Require Import Complex.
From Verif Require Import Base Alu Graph MuxGraph SpecMux FheGraph SpecFhe FheProofs Props_Fhe PolyRing Tfhe TfheGlwe Eval SpecTfhe SpecGlwe SpecBoot SpecEval EvalProofs EvalProofs3 TfheProofs TfheGlweProofs TfheBootProofs.
From Verif Require Import Fft FftGlwe FftCbs EvalFft SpecFft SpecFftGlwe SpecFftCbs SpecEvalFft FftFloat FftBound Props_Boot Props_Fft Props_FftGlwe Props_FftCbs EvalFftProofs EvalFftProofs2 EvalFftProofs3 EvalFftProofs4.
Import ListNotations.
Ltac Zify.zify_post_hook ::= idtac.
Open Scope Z_scope.

(** * C110: operations and circuits as the code runs them, with every GGSW ciphertext and key in Fourier form *)

(** One operation: when it succeeds on the messages, it succeeds on ciphertexts of those messages and gives a ciphertext of the result, with the stated noise. *)
Theorem C110_operation_fft X m h pr P B A sk pc s cells rcells cell op ins rins ns o :
  params_ok P -> bounds_ok B -> fft_ok X h P B A -> secret_ok P sk -> rproc_ok X A P B sk h pr pc -> scratch_ok P s ->
  (forall t r, rencrypts A P sk (cell t r) (cells t r) (rcells t r)) -> rmatched A P sk ins rins ns -> op_cond P op ns ->
  exec_op (p_N P) cells op ins = Ok o ->
  exists ro, rexec_op X m pc s rcells op rins = Ok ro /\ rencrypts_out A P sk (op_noise P B cell op ns) o ro.
Proof. intros HP HB Hok Hs. now apply rop_refines. Qed.
Print Assumptions C110_operation_fft.

(** ... and it succeeds only then: a kind or label error on messages is one on ciphertexts. *)
Theorem C110_operation_refused_fft X m h pr P B A sk pc s cells rcells op ins rins ns ro :
  params_ok P -> bounds_ok B -> fft_ok X h P B A -> secret_ok P sk -> rproc_ok X A P B sk h pr pc -> scratch_ok P s -> rmatched A P sk ins rins ns ->
  rexec_op X m pc s rcells op rins = Ok ro -> exists o, exec_op (p_N P) cells op ins = Ok o.
Proof. intros HP HB Hok Hs. now apply (rop_reflects X m h pr P B A HP HB Hok sk Hs). Qed.
Print Assumptions C110_operation_refused_fft.

(** A circuit: under any static noise analysis [E], a node has an outcome on ciphertexts exactly when it has one on messages, the outcome is unique and
    encrypts the message with noise at most [E n]. *)
Theorem C110_circuit_fft X m h pr P B A sk pc sp cells rcells cell g E :
  params_ok P -> bounds_ok B -> fft_ok X h P B A -> secret_ok P sk -> rproc_ok X A P B sk h pr pc -> (forall n, scratch_ok P (sp n)) ->
  (forall t r, rencrypts A P sk (cell t r) (cells t r) (rcells t r)) -> noise_ok P B cell g E ->
  (forall n o, fvalue (p_N P) cells g n o -> exists ro, rvalue X m pc sp rcells g n ro) /\
  (forall n ro, rvalue X m pc sp rcells g n ro -> exists o, fvalue (p_N P) cells g n o /\ rencrypts_out A P sk (E n) o ro) /\
  (forall n ro ro', rvalue X m pc sp rcells g n ro -> rvalue X m pc sp rcells g n ro' -> ro' = ro).
Proof.
  intros HP HB Hok Hs Hp Hf Hc Hn. split; [|split].
  - intros n o Hv. destruct (proj1 (rcircuit_refines X m h pr P B A HP HB Hok sk Hs pc sp cells rcells cell g E Hp Hf Hc Hn) n o Hv) as (ro & H & _). eauto.
  - apply (rcircuit_reflects X m h pr P B A HP HB Hok sk Hs pc sp cells rcells cell g E Hp Hf Hc Hn).
  - intros n co co' H. now apply (proj1 (rvalue_fun X m pc sp rcells g)).
Qed.
Print Assumptions C110_circuit_fft.

(** Decryption: every kind of ciphertext decrypts to its message as long as the noise is below the bound of its kind. *)
Theorem C110_decryption_fft X h pr P B A sk E ms c : params_ok P -> bounds_ok B -> fft_ok X h P B A -> secret_ok P sk -> rencrypts A P sk E ms c ->
  decrypt_noise P B (ty_of ms) E < decrypt_bound P (ty_of ms) -> rdecrypts_to X pr P sk ms c.
Proof. intros HP HB Hok Hs. now apply (rdecrypts_ok X MadScalar h pr P B A HP HB Hok sk Hs). Qed.
Print Assumptions C110_decryption_fft.

(** Encryption under the secret key, for every choice of the masks and every error within [E]. *)
Theorem C110_encryption_fft X h pr P B A sk E : params_ok P -> bounds_ok B -> fft_ok X h P B A -> secret_ok P sk -> 0 <= E ->
  (forall b mask e, length mask = p_n P -> toruses 64 mask -> near 64 E e 0 -> exists c, enc_lwe0 P sk b mask e = Ok c /\ rencrypts A P sk E (CLwe0 b) (RLwe0 c)) /\
  (forall b mask e, length mask = (p_k P * p_N P)%nat -> toruses 64 mask -> near 64 E e 0 -> exists c, enc_lwe1 P sk b mask e = Ok c /\ rencrypts A P sk E (CLwe1 b) (RLwe1 c)) /\
  (forall p masks e, length p = p_N P -> glwe_rnd_ok (p_N P) (p_k P) 64 E (masks, e) -> exists c, enc_glwe1 P sk p masks e = Ok c /\ rencrypts A P sk E (CGlwe1 p) (RGlwe1 c)) /\
  (forall b rnd, length rnd = r_count (p_cbs P) -> Forall (glwe_rnd_ok (p_N P) (p_k P) 64 E) rnd ->
     exists c, enc_glev1 pr P sk (FheGraph.pconst (p_N P) b) rnd = Ok c /\ rencrypts A P sk E (CGlev1 b) (RGlev1 c)) /\
  (forall b rnd, ggsw_rnd_ok (p_N P) (p_k P) (r_count (p_cbs P)) 64 E rnd -> exists c, renc_ggsw1 X pr P sk b rnd = Ok c /\ rencrypts A P sk E (CGgsw1 b) (RGgsw1 c)).
Proof.
  intros HP HB Hok Hs HE. repeat split; intros.
  - destruct (enc_lwe0_ok P sk HP Hs b mask e E) as (c & Ec & Pc); try assumption. exists c. split; [exact Ec|]. exists (KLwe0 c). split; [reflexivity|exact Pc].
  - destruct (enc_lwe1_ok P sk HP Hs b mask e E) as (c & Ec & Pc); try assumption. exists c. split; [exact Ec|]. exists (KLwe1 c). split; [reflexivity|exact Pc].
  - destruct (enc_glwe1_ok P sk HP Hs p masks e E) as (c & Ec & Pc); try assumption. exists c. split; [exact Ec|]. exists (KGlwe1 c). split; [reflexivity|exact Pc].
  - destruct (enc_glev1_ok P sk HP Hs pr b rnd E) as (c & Ec & Pc); try assumption. exists c. split; [exact Ec|]. exists (KGlev1 c). split; [reflexivity|exact Pc].
  - now apply (renc_ggsw1_ok X MadScalar h pr P B A HP HB Hok sk Hs).
Qed.
Print Assumptions C110_encryption_fft.

(** Key generation (products of key polynomials included), the transforms of the keys and the construction of a processor succeed and are correct. *)
Theorem C110_setup_fft X m h pr P B A sk r s0 s1 : params_ok P -> bounds_ok B -> fft_ok X h P B A -> secret_ok P sk -> key_rnd_fft_ok P B r ->
  add_exact h pr 64 -> sub_exact h pr 64 -> scratch_ok P s0 -> scratch_ok P s1 -> boot_margin P 0 ->
  exists fk pc, key_generate_fft X m h pr P sk r = Ok fk /\ rproc_new X m h pr P fk s0 s1 = Ok pc /\ rproc_ok X A P B sk h pr pc.
Proof. intros HP HB Hok Hs. now apply rsetup. Qed.
Print Assumptions C110_setup_fft.

(** End to end: generate keys, build a processor, run a circuit on ciphertexts, decrypt what an Output node stored: the message that the circuit computes. *)
Theorem C110_circuit_end_to_end_fft X m h pr P B A sk r s0 s1 sp cells cell g E : params_ok P -> bounds_ok B -> fft_ok X h P B A -> secret_ok P sk -> key_rnd_fft_ok P B r ->
  add_exact h pr 64 -> sub_exact h pr 64 -> scratch_ok P s0 -> scratch_ok P s1 -> (forall n, scratch_ok P (sp n)) -> boot_margin P 0 -> noise_ok P B cell g E ->
  exists fk pc, key_generate_fft X m h pr P sk r = Ok fk /\ rproc_new X m h pr P fk s0 s1 = Ok pc /\
  forall rcells, (forall t r, rencrypts A P sk (cell t r) (cells t r) (rcells t r)) ->
  forall n t x ms, fvalue (p_N P) cells g n (None, Some (t, x, ms)) -> decrypt_noise P B (ty_of ms) (E n) < decrypt_bound P (ty_of ms) ->
  exists c, rvalue X m pc sp rcells g n (None, Some (t, x, c)) /\ (forall ro, rvalue X m pc sp rcells g n ro -> ro = (None, Some (t, x, c))) /\ rdecrypts_to X pr P sk ms c.
Proof.
  intros HP HB Hok Hs Hr Ha Hsb H0 H1 Hf Hm Hn. destruct (C110_setup_fft X m h pr P B A sk r s0 s1 HP HB Hok Hs Hr Ha Hsb H0 H1 Hm) as (fk & pc & Ek & Ep & Hp).
  exists fk, pc. split; [assumption|]. split; [assumption|]. intros rcells Hc n t x ms Hv HE.
  destruct (proj1 (rcircuit_refines X m h pr P B A HP HB Hok sk Hs pc sp cells rcells cell g E Hp Hf Hc Hn) n _ Hv) as ([c w] & Hk & Q1 & Q2). cbn [fst snd] in Q1, Q2.
  destruct c as [c|]; [contradiction|]. destruct w as [[[t' x'] c]|]; [|contradiction]. destruct Q2 as (<- & <- & Enc). exists c. split; [assumption|]. split.
  - intros ro Hro. now apply (proj1 (rvalue_fun X m pc sp rcells g)) with (n := n).
  - exact (rdecrypts_ok X m h pr P B A HP HB Hok sk Hs (E n) ms c Enc HE).
Qed.
Print Assumptions C110_circuit_end_to_end_fft.

(** ... in particular for the circuits made from decision diagrams (all the integer circuits of the runtime): whatever the diagrams, the j-th output decrypts to
    the value of the j-th diagram on the encrypted bits. *)
Theorem C110_diagrams_end_to_end_fft X m h pr P B A sk r s0 s1 sp cell nv ds g0 refs base : params_ok P -> bounds_ok B -> fft_ok X h P B A -> secret_ok P sk -> key_rnd_fft_ok P B r ->
  add_exact h pr 64 -> sub_exact h pr 64 -> scratch_ok P s0 -> scratch_ok P s1 -> (forall n, scratch_ok P (sp n)) -> boot_margin P 0 ->
  ds <> [] -> Forall (bdd_wf nv) ds -> edges_ok g0 -> length refs = nv ->
  exists fk pc mc inputs g outs, key_generate_fft X m h pr P sk r = Ok fk /\ rproc_new X m h pr P fk s0 s1 = Ok pc /\
    from_bdds ds = Ok (mc, inputs) /\ insert_and_connect g0 mc inputs refs base = Ok (g, outs) /\ length outs = length ds /\
  forall E cells rcells, noise_ok P B cell g E -> cells_typed cells -> (forall t r, rencrypts A P sk (cell t r) (cells t r) (rcells t r)) ->
  forall j d, nth_error ds j = Some d -> exists i, nth_error outs j = Some i /\ (E i < 2 ^ 62 ->
    exists c, rvalue X m pc sp rcells g i (None, Some (TGlwe1, (base + j)%nat, RGlwe1 c)) /\
      dec_glwe1 pr P sk c = Ok (map Z.b2z (FheGraph.pconst (p_N P) (bdd_value d (map (fun r => bit_of (cells TGlwe1 r)) refs))))).
Proof.
  intros HP HB Hok Hs Hr Ha Hsb H0 H1 Hf Hm NE F EN L. destruct (C110_setup_fft X m h pr P B A sk r s0 s1 HP HB Hok Hs Hr Ha Hsb H0 H1 Hm) as (fk & pc & Ek & Ep & Hp).
  destruct (diagrams_on_ciphertexts nv ds g0 refs base NE F EN L) as (mc & inputs & g & outs & E1 & E2 & _ & Lo & V).
  exists fk, pc, mc, inputs, g, outs. repeat (split; [assumption|]). intros E cells rcells Hn Ht Hc j d Hd.
  destruct (V j d Hd) as (i & Hi & Hv). exists i. split; [assumption|]. intros HE. destruct (N_facts P HP) as (_ & HN & _ & _).
  specialize (Hv (p_N P) cells HN Ht).
  destruct (proj1 (rcircuit_refines X m h pr P B A HP HB Hok sk Hs pc sp cells rcells cell g E Hp Hf Hc Hn) i _ Hv) as ([c w] & Hk & Q1 & Q2). cbn [fst snd] in Q1, Q2.
  destruct c as [c|]; [contradiction|]. destruct w as [[[t' x'] c]|]; [|contradiction]. destruct Q2 as (<- & <- & Enc).
  pose proof (rdecrypts_ok X m h pr P B A HP HB Hok sk Hs (E i) _ c Enc HE) as Hdec. destruct c; cbn [rdecrypts_to] in Hdec; try contradiction. eauto.
Qed.
Print Assumptions C110_diagrams_end_to_end_fft.

(** ** A concrete case in double precision: degree 16, one mask polynomial, LWE dimension 2; the circuit computes b AND a as CMUX(0, b, a) with a brought to
    GGSW form by sample extraction, key switch and circuit bootstrap. *)
Definition ex_A := {| acc_u := powerRZ 2 (-53); acc_eta := powerRZ 2 (-1075); acc_tau := powerRZ 2 (-47); acc_delta := 0 |}.
Definition exf_P := {| p_n := 2; p_N := 16; p_k := 1; p_cbs := {| r_log := 4; r_count := 4 |}; p_pbs := {| r_log := 6; r_count := 5 |};
  p_ks := {| r_log := 5; r_count := 6 |}; p_ss := {| r_log := 5; r_count := 6 |}; p_tr := {| r_log := 6; r_count := 5 |} |}.
Definition exf_B := {| b_bs := 8; b_auto := 8; b_ss := 8; b_ks := 8; b_fp := 2 ^ 37; b_sel := 2 ^ 48 |}.
Definition exf_sk := {| s_lwe0 := [1; 0]; s_glwe1 := ex16_sk |}.
Definition exf_g : fgraph := {|
  gnodes := [Some (FInput TGlwe1 0); Some (FSampleExtract 0); Some FKeyswitch; Some FCbs; Some (FInput TGlwe1 1); Some (FZero TGlwe1); Some FCMux; Some (FOutput TGlwe1 2)];
  gedges := [(6, 7, EUnary); (3, 6, ESel); (4, 6, EHigh); (5, 6, ELow); (2, 3, EUnary); (1, 2, EUnary); (0, 1, EUnary)]%nat |}.
Definition exf_E (n : nat) : Z := match n with 0%nat | 1%nat | 4%nat => 5 | 2%nat => 2 ^ 39 | 3%nat => boot_noise exf_P exf_B | 5%nat => 0 | _ => 2 ^ 61 end.
Lemma exf_params : params_ok exf_P /\ bounds_ok exf_B /\ secret_ok exf_P exf_sk /\ boot_margin exf_P 0.
Proof.
  split; [constructor; unfold radix_ok; cbn; try reflexivity; try lia|].
  split; [unfold bounds_ok; cbn; lia|]. split; [|vm_compute; reflexivity].
  constructor; cbn [exf_P exf_sk p_n p_N p_k s_lwe0 s_glwe1].
  - reflexivity. - unfold binary; repeat (constructor; auto). - split; [reflexivity|repeat constructor]. - unfold binary_polys, binary, ex16_sk; repeat (constructor; auto).
Qed.
Lemma exf_noise : noise_ok exf_P exf_B (fun _ _ => 5) exf_g exf_E.
Proof.
  intros n op Hop. do 8 (destruct n as [|n]; [unfold node in Hop; cbn in Hop; injection Hop as <-; split; [try exact I; vm_compute; reflexivity|vm_compute; discriminate]|]).
  unfold node in Hop. cbn in Hop. destruct n; discriminate.
Qed.
Lemma exf_fft : fft_ok f64_ext ex_hw exf_P exf_B ex_A.
Proof.
  destruct (C104_double_precision 4 ltac:(lia)) as (Hr & Hac). assert (U0 : ub 0 0) by (apply (ub_const 0); lia). destruct C109_errors as ((_ & _ & HE) & HX).
  constructor; cbn [exf_P p_N p_k p_cbs p_pbs p_ss p_tr r_log r_count exf_B b_fp b_sel ex_A acc_u acc_eta acc_tau acc_delta]; unfold sel_err, sel_size; cbn [exf_P p_N p_k p_ss r_log r_count ex_A acc_u acc_eta acc_tau acc_delta]; change (16 / 2)%nat with (Pos.to_nat 8).
  - lia.
  - intros _. lia.
  - exact Hr.
  - exact Hac.
  - destruct (u_err 8 _ _ _ _ _ _ _ _ 1 (1 * one) 1 (1 * one) 1 zu_ok zeta_ok ztau_ok U0 (ub_const 1 ltac:(lia)) (ub_const 1 ltac:(lia))) as [_ Q].
    pose proof one_pos as Pp. apply (Rmult_lt_reg_r (IZR one)); [exact Pp|]. eapply Rle_lt_trans; [exact Q|].
    assert (V : 2 * zerr 8 zu zeta ztau 0 (1 * one) (1 * one) 1 < one) by (vm_compute; reflexivity). apply IZR_lt in V. rewrite mult_IZR in V. lra.
  - apply (bound_eval 8 0 0); [exact U0|lia|lia|]. vm_compute. discriminate.
  - apply (bound_eval 8 0 0); [exact U0|lia|lia|]. vm_compute. discriminate.
  - apply (switched_eval 8 0 0); [exact U0|lia|lia|lia|]. vm_compute. discriminate.
  - pose proof (ub_const (2 ^ 63) ltac:(lia)) as HA. pose proof (ub_const (2 ^ (5 - 1)) ltac:(lia)) as HBc.
    apply (ub_elim _ (zuntwist 8 zu zeta ztau 0 (zsw_e 8 0 (2 ^ 63 * one) (2 ^ (5 - 1) * one) 6) (zsw_s 8 (2 ^ 63 * one) (2 ^ (5 - 1) * one) 6))); [|vm_compute; discriminate].
    pose proof (u_fwd 8 _ _ _ _ _ _ _ _ zu_ok zeta_ok ztau_ok U0 _ _ HA). pose proof (u_fwd 8 _ _ _ _ _ _ _ _ zu_ok zeta_ok ztau_ok U0 _ _ HBc).
    pose proof (u_freq 8 _ _ HA). pose proof (u_freq 8 _ _ HBc). pose proof zu_ok. pose proof zeta_ok. pose proof ztau_ok.
    apply u_untwist; try assumption.
    + unfold zsw_e, switched_err. now apply u_mads.
    + unfold zsw_s, switched_size. apply ub_add; [assumption|]. rewrite INR_IZR_INZ. apply ub_cmul; [lia|]. now apply ub_mul.
Qed.
Example exf_circuit a b : a = true \/ a = false -> fvalue 16 (fun _ r => CGlwe1 (FheGraph.pconst 16 (if (r =? 0)%nat then a else b))) exf_g 7 (None, Some (TGlwe1, 2%nat, CGlwe1 (FheGraph.pconst 16 (a && b)))).
Proof.
  intros Ha. repeat (first [eapply fv_node; [reflexivity| |]| eapply fi_cons | eapply fi_nil]); cbn; try reflexivity. destruct a; reflexivity.
Qed.
Definition exf_r := {| kr_bs := ex_rows 2 5; kr_ks := repeat (repeat ([2 ^ 62 + 1; 77], -2) 6) 16; kr_ss := fun i => map (ex_glwe_rnd i 5) (seq 0 6);
  kr_auto := ex_rows 1 5; kr_mul := fun _ _ => []; kr_scratch := [repeat 9 16] |}.
Definition exf_s := {| sc_lwe := {| lwe_a := [17; 7]; lwe_b := 3 |}; sc_glwe := {| ga := [repeat 3 16]; gb := repeat 5 16 |};
  sc_glev := repeat {| ga := [repeat 3 16]; gb := repeat 5 16 |} 4 |}.
Lemma exf_rnd : key_rnd_fft_ok exf_P exf_B exf_r.
Proof.
  constructor; intros; cbn [exf_r kr_bs kr_ks kr_ss kr_auto kr_scratch exf_P p_N p_k p_n p_pbs p_ks p_ss p_tr r_count exf_B b_bs b_ks b_ss b_auto].
  - apply ex_rows_ok.
  - reflexivity.
  - apply Forall_forall. intros row Hr. apply repeat_spec in Hr. subst. split; [reflexivity|]. apply Forall_forall. intros x Hx. apply repeat_spec in Hx. subst.
    split; [reflexivity|]. exists (-2). split; [cbn; lia|]. reflexivity.
  - split; [reflexivity|]. apply Forall_forall. intros x Hx. apply in_map_iff in Hx as (c & <- & _). apply ex_glwe_rnd_ok.
  - apply ex_rows_ok.
  - split; [reflexivity|repeat constructor].
Qed.
Lemma exf_scratch : scratch_ok exf_P exf_s.
Proof.
  constructor; cbn [exf_P exf_s sc_lwe sc_glwe sc_glev p_n p_N p_k p_cbs r_count]; try reflexivity.
  - split; [repeat constructor|]. split; [constructor; [|constructor]|]; cbn [gb]; apply Forall_forall; intros y Hy; apply repeat_spec in Hy; subst; unfold torus; lia.
  - repeat constructor.
Qed.
(** Inputs encrypted with concrete masks and errors; the whole run in double precision. *)
Example exf_end_to_end (m : mad_kernel) (a b : bool) : exists fk pc, key_generate_fft f64_ext m ex_hw Release exf_P exf_sk exf_r = Ok fk /\ rproc_new f64_ext m ex_hw Release exf_P fk exf_s exf_s = Ok pc /\
  forall rcells, (forall t r, rencrypts ex_A exf_P exf_sk 5 (CGlwe1 (FheGraph.pconst 16 (if (r =? 0)%nat then a else b))) (rcells t r)) ->
  exists c, rvalue f64_ext m pc (fun _ => exf_s) rcells exf_g 7 (None, Some (TGlwe1, 2%nat, c)) /\ rdecrypts_to f64_ext Release exf_P exf_sk (CGlwe1 (FheGraph.pconst 16 (a && b))) c.
Proof.
  destruct exf_params as (HP & HB & Hs & Hm).
  destruct (C110_circuit_end_to_end_fft f64_ext m ex_hw Release exf_P exf_B ex_A exf_sk exf_r exf_s exf_s (fun _ => exf_s)
    (fun _ r => CGlwe1 (FheGraph.pconst 16 (if (r =? 0)%nat then a else b))) (fun _ _ => 5) exf_g exf_E HP HB exf_fft Hs exf_rnd
    (or_intror (or_intror (or_intror eq_refl))) (or_intror (or_intror (conj eq_refl eq_refl))) exf_scratch exf_scratch (fun _ => exf_scratch) Hm exf_noise) as (fk & pc & E1 & E2 & K).
  exists fk, pc. split; [exact E1|]. split; [exact E2|]. intros rcells Hc.
  destruct (K rcells Hc 7%nat TGlwe1 2%nat (CGlwe1 (FheGraph.pconst 16 (a && b)))) as (c & Q & _ & D).
  - apply exf_circuit. destruct a; auto. - cbn [ty_of decrypt_noise decrypt_bound exf_E]. lia. - exists c. split; assumption.
Qed.
