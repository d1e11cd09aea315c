(** Theorems about running FHE circuits on TFHE ciphertexts. *)
From Verif Require Import Base Alu AluProofs Graph MuxGraph SpecMux FheGraph SpecFhe FheProofs Props_Fhe PolyRing Eval SpecTfhe SpecGlwe SpecBoot SpecTrace SpecSwitch SpecCbs SpecEval TfheProofs TfheGlweProofs TfheBootProofs EvalProofs EvalProofs2 EvalProofs3 EvalProofs4 EvalProofs5.
Ltac Zify.zify_post_hook ::= idtac.
Open Scope Z_scope.

(** * C101: operations and circuits on ciphertexts *)

(** One operation: when it succeeds on the messages, it succeeds on ciphertexts of those messages and gives a ciphertext of the
    result, with the stated noise. *)
Theorem operation_on_ciphertexts P B sk pc f cells kcells cell op ins kins ns o :
  params_ok P -> bounds_ok B -> secret_ok P sk -> proc_ok P B sk pc -> fenv_ok P B f ->
  (forall t r, encrypts P sk (cell t r) (cells t r) (kcells t r)) -> matched P sk ins kins ns -> op_cond P op ns ->
  exec_op (p_N P) cells op ins = Ok o ->
  exists co, kexec_op pc f kcells op kins = Ok co /\ encrypts_out P sk (op_noise P B cell op ns) o co.
Proof. intros. now apply op_refines with (cells := cells) (ins := ins). Qed.
Print Assumptions operation_on_ciphertexts.

(** A circuit: under any static noise analysis [E], a node has an outcome on ciphertexts exactly when it has one on messages,
    the outcome is unique and encrypts the message with noise at most [E n]. *)
Theorem circuit_on_ciphertexts P B sk pc fp cells kcells cell g E :
  params_ok P -> bounds_ok B -> secret_ok P sk -> proc_ok P B sk pc -> (forall n, fenv_ok P B (fp n)) ->
  (forall t r, encrypts P sk (cell t r) (cells t r) (kcells t r)) -> noise_ok P B cell g E ->
  (forall n o, fvalue (p_N P) cells g n o -> exists co, kvalue pc fp kcells g n co) /\
  (forall n co, kvalue pc fp kcells g n co -> exists o, fvalue (p_N P) cells g n o /\ encrypts_out P sk (E n) o co) /\
  (forall n co co', kvalue pc fp kcells g n co -> kvalue pc fp kcells g n co' -> co' = co).
Proof.
  intros HP HB Hs Hp Hf Hc Hn. split; [|split].
  - intros n o Hv. destruct (proj1 (circuit_refines P B sk HP HB Hs pc fp cells kcells cell g E Hp Hf Hc Hn) n o Hv) as (co & A & _). eauto.
  - apply (circuit_reflects P B sk HP HB Hs pc fp cells kcells cell g E Hp Hf Hc Hn).
  - intros n co co' H. now apply (proj1 (kvalue_fun pc fp kcells g)).
Qed.
Print Assumptions circuit_on_ciphertexts.

(** Decryption: every kind of ciphertext decrypts to its message as long as the noise is below the bound of its kind. *)
Theorem decryption_correct pr P sk E m c : params_ok P -> secret_ok P sk -> encrypts P sk E m c -> E < decrypt_bound P (ty_of m) -> decrypts_to pr P sk m c.
Proof. intros HP Hs. now apply (decrypts_ok P sk HP Hs pr E). Qed.
Print Assumptions decryption_correct.

(** Encryption under the secret key, for every choice of the masks and every error within [E]. *)
Theorem encryption_correct pr P sk E : params_ok P -> secret_ok P sk -> 0 <= E ->
  (forall b mask e, length mask = p_n P -> toruses 64 mask -> near 64 E e 0 -> exists c, enc_lwe0 P sk b mask e = Ok c /\ encrypts P sk E (CLwe0 b) (KLwe0 c)) /\
  (forall b mask e, length mask = (p_k P * p_N P)%nat -> toruses 64 mask -> near 64 E e 0 -> exists c, enc_lwe1 P sk b mask e = Ok c /\ encrypts P sk E (CLwe1 b) (KLwe1 c)) /\
  (forall p masks e, length p = p_N P -> glwe_rnd_ok (p_N P) (p_k P) 64 E (masks, e) -> exists c, enc_glwe1 P sk p masks e = Ok c /\ encrypts P sk E (CGlwe1 p) (KGlwe1 c)) /\
  (forall b rnd, length rnd = r_count (p_cbs P) -> Forall (glwe_rnd_ok (p_N P) (p_k P) 64 E) rnd ->
     exists c, enc_glev1 pr P sk (FheGraph.pconst (p_N P) b) rnd = Ok c /\ encrypts P sk E (CGlev1 b) (KGlev1 c)) /\
  (forall b rnd, ggsw_rnd_ok (p_N P) (p_k P) (r_count (p_cbs P)) 64 E rnd -> exists c, enc_ggsw1 pr P sk b rnd = Ok c /\ encrypts P sk E (CGgsw1 b) (KGgsw1 c)).
Proof.
  intros HP Hs HE. repeat split; intros.
  - now apply enc_lwe0_ok. - now apply enc_lwe1_ok. - now apply enc_glwe1_ok. - now apply enc_glev1_ok. - now apply enc_ggsw1_ok.
Qed.
Print Assumptions encryption_correct.

(** A public key exists for one mask polynomial only; other parameter sets are refused. *)
Theorem public_key_dimension_refused P sk masks e : p_k P <> 1%nat -> pk_generate P sk masks e = Panic.
Proof. intros H. unfold pk_generate. now rewrite (proj2 (Nat.eqb_neq _ _) H). Qed.
Print Assumptions public_key_dimension_refused.

(** Encryption under the public key (one mask polynomial): the public key's noise enters N times. *)
Theorem public_encryption_correct pr P sk Ep E masks e : params_ok P -> secret_ok P sk -> p_k P = 1%nat -> 0 <= Ep -> 0 <= E -> glwe_rnd_ok (p_N P) (p_k P) 64 Ep (masks, e) ->
  exists pk, pk_generate P sk masks e = Ok pk /\
  (forall p u e0 e1, length p = p_N P -> pub_rnd_ok (p_N P) E (u, e0, e1) ->
     exists c, enc_rlwe1 P pk p u e0 e1 = Ok c /\ encrypts P sk (Ep * Z.of_nat (p_N P) + E * (Z.of_nat (p_N P) + 1)) (CGlwe1 p) (KGlwe1 c)) /\
  (forall b rnd, (16 <= p_N P)%nat -> length rnd = r_count (p_cbs P) -> Forall (pub_rnd_ok (p_N P) E) rnd ->
     exists c, enc_rlev1 pr P pk (FheGraph.pconst (p_N P) b) rnd = Ok c /\ encrypts P sk (Ep * Z.of_nat (p_N P) + E * (Z.of_nat (p_N P) + 1)) (CGlev1 b) (KGlev1 c)).
Proof.
  intros HP Hs Hk HEp HE Hr. destruct (pk_generate_ok P sk HP Hs Hk masks e Ep HEp Hr) as (pk & Epk & Hpk). exists pk. split; [assumption|]. split; intros.
  - now apply enc_rlwe1_ok. - now apply enc_rlev1_ok.
Qed.
Print Assumptions public_encryption_correct.
(** The documented domain of encrypt_rlev is not met: a debugging statement aborts it for every degree below 16. *)
Theorem public_glev_small_degree_refuted pr P pk m rnd : params_ok P -> (p_N P < 16)%nat -> enc_rlev1 pr P pk m rnd = Panic.
Proof. apply enc_rlev1_small. Qed.
Print Assumptions public_glev_small_degree_refuted.

(** Key generation and the construction of a processor succeed; the compute key and the processor's constants are correct. *)
Theorem processor_setup_correct h pr P B sk r f0 f1 : params_ok P -> bounds_ok B -> secret_ok P sk -> key_rnd_ok P B sk r ->
  add_exact h pr 64 -> sub_exact h pr 64 -> fenv_ok P B f0 -> fenv_ok P B f1 -> boot_margin P 0 ->
  exists ck pc, key_generate pr P sk r = Ok ck /\ key_ok P B sk ck /\ proc_new h pr P ck f0 f1 = Ok pc /\ proc_ok P B sk pc.
Proof.
  intros HP HB Hs Hr Ha Hsb H0 H1 Hm. destruct (keys_ok P B sk HP HB Hs pr r Hr) as (ck & Ek & Kk).
  destruct (proc_new_ok P B sk HP HB Hs h pr ck f0 f1 Ha Hsb Kk H0 H1 Hm) as (pc & Ep & _ & _ & _ & Hp). eauto 10.
Qed.
Print Assumptions processor_setup_correct.

(** End to end: generate keys, build a processor, run a circuit on ciphertexts, decrypt what an Output node stored: the
    message that the circuit computes. *)
Theorem circuit_end_to_end h pr P B sk r f0 f1 fp cells cell g E : params_ok P -> bounds_ok B -> secret_ok P sk -> key_rnd_ok P B sk r ->
  add_exact h pr 64 -> sub_exact h pr 64 -> fenv_ok P B f0 -> fenv_ok P B f1 -> (forall n, fenv_ok P B (fp n)) -> boot_margin P 0 -> noise_ok P B cell g E ->
  exists ck pc, key_generate pr P sk r = Ok ck /\ proc_new h pr P ck f0 f1 = Ok pc /\
  forall kcells, (forall t r, encrypts P sk (cell t r) (cells t r) (kcells t r)) ->
  forall n t x m, fvalue (p_N P) cells g n (None, Some (t, x, m)) -> E n < decrypt_bound P (ty_of m) ->
  exists c, kvalue pc fp kcells g n (None, Some (t, x, c)) /\ (forall co, kvalue pc fp kcells g n co -> co = (None, Some (t, x, c))) /\ decrypts_to pr P sk m c.
Proof.
  intros HP HB Hs Hr Ha Hsb H0 H1 Hf Hm Hn. destruct (processor_setup_correct h pr P B sk r f0 f1 HP HB Hs Hr Ha Hsb H0 H1 Hm) as (ck & pc & Ek & _ & Ep & Hp).
  exists ck, pc. split; [assumption|]. split; [assumption|]. intros kcells Hc n t x m Hv HE.
  destruct (proj1 (circuit_refines P B sk HP HB Hs pc fp cells kcells cell g E Hp Hf Hc Hn) n _ Hv) as ([c w] & Hk & A & Bq). cbn [fst snd] in A, Bq.
  destruct c as [c|]; [contradiction|]. destruct w as [[[t' x'] c]|]; [|contradiction]. destruct Bq as (<- & <- & Enc). exists c. split; [assumption|]. split.
  - intros co Hco. now apply (proj1 (kvalue_fun pc fp kcells g)) with (n := n).
  - now apply (decryption_correct pr P sk (E n)).
Qed.
Print Assumptions circuit_end_to_end.

(** ... in particular for the circuits made from decision diagrams (all the integer circuits of the runtime): whatever the
    diagrams, the j-th output decrypts to the value of the j-th diagram on the encrypted bits. *)
Theorem diagrams_end_to_end h pr P B sk r f0 f1 fp cell nv ds g0 refs base : params_ok P -> bounds_ok B -> secret_ok P sk -> key_rnd_ok P B sk r ->
  add_exact h pr 64 -> sub_exact h pr 64 -> fenv_ok P B f0 -> fenv_ok P B f1 -> (forall n, fenv_ok P B (fp n)) -> boot_margin P 0 ->
  ds <> [] -> Forall (bdd_wf nv) ds -> edges_ok g0 -> length refs = nv ->
  exists ck pc mc inputs g outs, key_generate pr P sk r = Ok ck /\ proc_new h pr P ck f0 f1 = Ok pc /\
    from_bdds ds = Ok (mc, inputs) /\ insert_and_connect g0 mc inputs refs base = Ok (g, outs) /\ length outs = length ds /\
  forall E cells kcells, noise_ok P B cell g E -> cells_typed cells -> (forall t r, encrypts P sk (cell t r) (cells t r) (kcells t r)) ->
  forall j d, nth_error ds j = Some d -> exists m, nth_error outs j = Some m /\ (E m < 2 ^ 62 ->
    exists c, kvalue pc fp kcells g m (None, Some (TGlwe1, (base + j)%nat, KGlwe1 c)) /\
      dec_glwe1 pr P sk c = Ok (map Z.b2z (FheGraph.pconst (p_N P) (bdd_value d (map (fun r => bit_of (cells TGlwe1 r)) refs))))).
Proof.
  intros HP HB Hs Hr Ha Hsb H0 H1 Hf Hm NE F EN L. destruct (processor_setup_correct h pr P B sk r f0 f1 HP HB Hs Hr Ha Hsb H0 H1 Hm) as (ck & pc & Ek & _ & Ep & Hp).
  destruct (diagrams_on_ciphertexts nv ds g0 refs base NE F EN L) as (mc & inputs & g & outs & E1 & E2 & _ & Lo & V).
  exists ck, pc, mc, inputs, g, outs. repeat (split; [assumption|]). intros E cells kcells Hn Ht Hc j d Hd.
  destruct (V j d Hd) as (m & Hm' & Hv). exists m. split; [assumption|]. intros HE. destruct (N_facts P HP) as (_ & HN & _ & _).
  specialize (Hv (p_N P) cells HN Ht).
  destruct (proj1 (circuit_refines P B sk HP HB Hs pc fp cells kcells cell g E Hp Hf Hc Hn) m _ Hv) as ([c w] & Hk & A & Bq). cbn [fst snd] in A, Bq.
  destruct c as [c|]; [contradiction|]. destruct w as [[[t' x'] c]|]; [|contradiction]. destruct Bq as (<- & <- & Enc).
  pose proof (decryption_correct pr P sk (E m) _ c HP Hs Enc HE) as Hdec. destruct c; cbn [decrypts_to] in Hdec; try contradiction. eauto.
Qed.
Print Assumptions diagrams_end_to_end.

(** ** A concrete case: N = 4, one mask polynomial, LWE dimension 1; the circuit computes b AND a as CMUX(0, b, a) with a brought
    to GGSW form by sample extraction, key switch and circuit bootstrap. *)
Definition ex_P := {| p_n := 1; p_N := 4; p_k := 1; p_cbs := {| r_log := 7; r_count := 1 |}; p_pbs := {| r_log := 15; r_count := 4 |};
  p_ks := {| r_log := 15; r_count := 4 |}; p_ss := {| r_log := 15; r_count := 4 |}; p_tr := {| r_log := 15; r_count := 4 |} |}.
Definition ex_B := {| b_bs := 2; b_auto := 2; b_ss := 2; b_ks := 2; b_fp := 1; b_sel := 1 |}.
Definition ex_sk := {| s_lwe0 := [1]; s_glwe1 := [[1; 0; 1; 1]] |}.
Definition ex_g : fgraph := {|
  gnodes := [Some (FInput TGlwe1 0); Some (FSampleExtract 0); Some FKeyswitch; Some FCbs; Some (FInput TGlwe1 1); Some (FZero TGlwe1); Some FCMux; Some (FOutput TGlwe1 2)];
  gedges := [(6, 7, EUnary); (3, 6, ESel); (4, 6, EHigh); (5, 6, ELow); (2, 3, EUnary); (1, 2, EUnary); (0, 1, EUnary)]%nat |}.
Definition ex_E (n : nat) : Z := match n with 0%nat | 1%nat | 4%nat => 5 | 2%nat => 2 ^ 20 | 3%nat => 2 ^ 24 | 5%nat => 0 | _ => 2 ^ 60 end.
Lemma ex_params : params_ok ex_P /\ bounds_ok ex_B /\ secret_ok ex_P ex_sk /\ boot_margin ex_P 0.
Proof.
  split; [constructor; unfold radix_ok; cbn; try reflexivity; try lia|].
  split; [unfold bounds_ok; cbn; lia|]. split; [|vm_compute; reflexivity].
  constructor; unfold binary, binary_polys, polys_shape; cbn; repeat (first [split|constructor]); auto; reflexivity.
Qed.
Lemma ex_noise : noise_ok ex_P ex_B (fun _ _ => 5) ex_g ex_E.
Proof.
  intros n op Hop. do 8 (destruct n as [|n]; [unfold node in Hop; cbn in Hop; injection Hop as <-; split; [try exact I; vm_compute; reflexivity|vm_compute; discriminate]|]).
  unfold node in Hop. cbn in Hop. destruct n; discriminate.
Qed.
Example ex_circuit a b : a = true \/ a = false -> fvalue 4 (fun _ r => CGlwe1 (FheGraph.pconst 4 (if (r =? 0)%nat then a else b))) ex_g 7 (None, Some (TGlwe1, 2%nat, CGlwe1 (FheGraph.pconst 4 (a && b)))).
Proof.
  intros Ha. repeat (first [eapply fv_node; [reflexivity| |]| eapply fi_cons | eapply fi_nil]); cbn; try reflexivity. destruct a; reflexivity.
Qed.

(** Masks and errors that meet the hypotheses, and the whole theorem on this case, run on a machine with AVX2, release build. *)
Definition ex_gr : list (list Z) * option (list Z) := ([[5; 7; 2 ^ 63 + 11; 13]], Some [1; 2 ^ 64 - 2; 0; 1]).
Definition ex_r := {| kr_bs := fun _ => repeat (repeat ex_gr 4) 2; kr_ks := repeat (repeat ([2 ^ 62 + 1], -2) 4) 4; kr_ss := fun _ => repeat ex_gr 4;
  kr_auto := fun _ => [repeat ex_gr 4]; kr_mul := fun a b => map (pmul 4 (coef a) (coef b)) (seq 0 4); kr_scratch := [[9; 9; 9; 9]] |}.
Definition ex_d := {| ga := [[1; -1; 0; 1]]; gb := [0; 0; -1; 1] |}.
Definition ex_f := {| fe_lwe := {| lwe_a := [17]; lwe_b := 3 |}; fe_glwe := {| ga := [[1; 2; 3; 4]]; gb := [5; 6; 7; 8] |};
  fe_glev := [{| ga := [[8; 8; 8; 8]]; gb := [9; 9; 9; 9] |}]; fe_sel := fun _ => ex_d; fe_d1 := fun _ => ex_d; fe_d2 := fun _ _ => ex_d; fe_d3 := fun _ _ => ex_d |}.
Lemma ex_gr_ok : glwe_rnd_ok 4 1 64 2 ex_gr.
Proof.
  split; [split; [reflexivity|]; repeat constructor|]. split; [repeat constructor; cbn; lia|]. split; [split; [reflexivity|]; repeat constructor; cbn; lia|].
  exists (coef [1; -2; 0; 1]). split; intros k Hk; do 4 (destruct k as [|k]; [vm_compute; first [discriminate|reflexivity|now exists 0|now exists 1]|]); lia.
Qed.
Lemma ex_rnd : key_rnd_ok ex_P ex_B ex_sk ex_r.
Proof.
  pose proof ex_gr_ok as G. constructor; intros; cbn [ex_r kr_bs kr_ks kr_ss kr_auto kr_mul kr_scratch ex_P p_N p_k p_n p_pbs p_ks p_ss p_tr r_count ex_B b_bs b_ks b_ss b_auto].
  - split; [reflexivity|]. repeat (constructor; [split; [reflexivity|]; repeat (constructor; [exact G|]); constructor|]). constructor.
  - reflexivity.
  - apply Forall_forall. intros row Hr. apply repeat_spec in Hr. subst. split; [reflexivity|]. apply Forall_forall. intros x Hx. apply repeat_spec in Hx. subst.
    split; [reflexivity|]. exists (-2). split; [cbn; lia|]. reflexivity.
  - split; [reflexivity|]. repeat (constructor; [exact G|]). constructor.
  - split; [reflexivity|]. constructor; [|constructor]. split; [reflexivity|]. repeat (constructor; [exact G|]). constructor.
  - split; [now rewrite map_length|]. intros k Hk. unfold coef at 1. do 4 (destruct k as [|k]; [reflexivity|]). lia.
  - split; [reflexivity|]. repeat constructor.
Qed.
Lemma ex_fenv : fenv_ok ex_P ex_B ex_f.
Proof.
  assert (D : fft_err 4 1 1 ex_d) by (unfold fft_err, glwe_shape, polys_shape; cbn; repeat (first [split|constructor]); cbn; lia).
  constructor; intros; try exact D; try reflexivity; unfold glwe_shape, polys_shape; cbn; repeat (first [split|constructor]); try reflexivity.
Qed.
Example ex_end_to_end (a b : bool) : exists ck pc, key_generate Release ex_P ex_sk ex_r = Ok ck /\ proc_new {| hw_x86 := true; hw_avx2 := true; hw_fma := true; hw_512f := false; hw_512dq := false |} Release ex_P ck ex_f ex_f = Ok pc /\
  forall kcells, (forall t r, encrypts ex_P ex_sk 5 (CGlwe1 (FheGraph.pconst 4 (if (r =? 0)%nat then a else b))) (kcells t r)) ->
  exists c, kvalue pc (fun _ => ex_f) kcells ex_g 7 (None, Some (TGlwe1, 2%nat, c)) /\ decrypts_to Release ex_P ex_sk (CGlwe1 (FheGraph.pconst 4 (a && b))) c.
Proof.
  destruct ex_params as (HP & HB & Hs & Hm).
  destruct (circuit_end_to_end {| hw_x86 := true; hw_avx2 := true; hw_fma := true; hw_512f := false; hw_512dq := false |} Release ex_P ex_B ex_sk ex_r ex_f ex_f (fun _ => ex_f)
    (fun _ r => CGlwe1 (FheGraph.pconst 4 (if (r =? 0)%nat then a else b))) (fun _ _ => 5) ex_g ex_E HP HB Hs ex_rnd) as (ck & pc & E1 & E2 & K);
    try exact ex_fenv; try (intros; exact ex_fenv); try exact Hm; try exact ex_noise; try (right; right; right; reflexivity); try (right; right; split; reflexivity).
  exists ck, pc. split; [exact E1|]. split; [exact E2|]. intros kcells Hc.
  destruct (K kcells Hc 7%nat TGlwe1 2%nat (CGlwe1 (FheGraph.pconst 4 (a && b)))) as (c & A & _ & D).
  - apply ex_circuit. destruct a; auto. - vm_compute. reflexivity. - eauto.
Qed.
