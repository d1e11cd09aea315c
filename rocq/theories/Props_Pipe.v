(** Theorems about encrypted programs: from decision diagrams to the decrypted registers (C131, C132). *)
From Coq Require Import Reals ZArith List Lia Lra Bool.
From Coquelicot Require Import Complex.
From Verif Require Import Base BitsLemmas Spec Alu AluProofs SpecAlu Circuits Graph MuxGraph SpecMux MuxGraphProofs2 FheGraph SpecFhe FheProofs FheProofs5 SpecFluent
  PolyRing Tfhe TfheGlwe Fft FftGlwe Eval EvalFft SpecTfhe SpecGlwe SpecBoot SpecCbs SpecEval SpecFft SpecFftGlwe SpecFftCbs SpecEvalFft EvalProofs FftFloat FftBound
  TfheBootProofs EvalFftProofs EvalFftProofs2 EvalFftProofs3 EvalFftProofs4 Props_Boot Props_Fft Props_FftGlwe Props_FftCbs Props_EvalFft
  SpecPipe PipeProofs PipeProofs2 Pipe SpecPipe2 PipeProofs3 PipeProofs4.
Import ListNotations.
Ltac Zify.zify_post_hook ::= idtac.
Open Scope Z_scope.

(** * C131: compiling diagrams into circuits of muxes, and the noise of such a circuit *)

(** Ordered diagrams compile, with and without optimisation, to well-formed circuits that compute the builder's function, fit the FHE insertion,
    and chain at most as many muxes as there are variables. *)
Theorem C131_compile c ds : diagrams_of c ds ->
  exists g inputs g' inputs', from_bdds ds = Ok (g, inputs) /\ optimize g = Ok (g', inputs') /\
    (compiled c g inputs /\ depth_at_most g (c_arity c)) /\ (compiled c g' inputs' /\ depth_at_most g' (c_arity c)).
Proof. exact (diagrams_compiled c ds). Qed.
Print Assumptions C131_compile.
(** Every function with a fixed number of outputs has such diagrams. *)
Theorem C131_diagrams_exist c k : (0 < k)%nat -> (forall v, length v = c_arity c -> length (c_fn c v) = k) -> exists ds, length ds = k /\ diagrams_of c ds.
Proof. exact (diagrams_exist c k). Qed.
Print Assumptions C131_diagrams_exist.

(** Static noise analysis of the FHE circuit made from a circuit of muxes of depth D: if the inputs carry noise at most E0, small enough for a key switch
    and a circuit bootstrap, then every output carries at most D times the noise that one CMUX adds when its selector comes out of a bootstrap,
    whatever the circuit. *)
Theorem C131_noise P B cell E0 g0 En0 c mc inputs refs base D : params_ok P -> bounds_ok B -> (forall r, In r refs -> cell TGlwe1 r <= E0) -> boot_margin P (E0 + switch_noise P B) ->
  edges_ok g0 -> noise_ok P B cell g0 En0 -> compiled c mc inputs -> depth_at_most mc D -> length refs = c_arity c ->
  exists g outs En, insert_and_connect g0 mc inputs refs base = Ok (g, outs) /\ noise_ok P B cell g En /\
    Forall (fun o => En o <= Z.of_nat D * sel_noise P B (boot_noise P B)) outs.
Proof.
  intros HP HB Hc Hm EN N0 Cp Dm LR. destruct (cp_outs _ _ _ Cp) as (k & DS & _).
  destruct (circuit_noise P B cell E0 HB (Npos P B HP 0 0) Hm g0 mc inputs refs base k D En0 Hc EN N0 (cp_wf _ _ _ Cp) DS ltac:(rewrite (cp_arity _ _ _ Cp); exact LR) Dm) as (g & outs & En & Ei & _ & Nk & Fo).
  exists g, outs, En. auto.
Qed.
Print Assumptions C131_noise.

(** End to end, with a condition on the parameters and the number of variables only: keys, processor, compilation, insertion, execution through the FFT
    and decryption. The j-th output decrypts to the j-th bit of the builder's function on the encrypted bits. *)
Theorem C131_circuit_end_to_end X m h pr P B A sk r s0 s1 sp cell E0 c ds refs base : params_ok P -> bounds_ok B -> fft_ok X h P B A -> secret_ok P sk -> key_rnd_fft_ok P B r ->
  add_exact h pr 64 -> sub_exact h pr 64 -> scratch_ok P s0 -> scratch_ok P s1 -> (forall n, scratch_ok P (sp n)) -> 0 <= E0 ->
  diagrams_of c ds -> length refs = c_arity c ->
  (forall x, In x refs -> cell TGlwe1 x <= E0) -> boot_margin P (E0 + switch_noise P B) -> Z.of_nat (c_arity c) * sel_noise P B (boot_noise P B) < 2 ^ 62 ->
  exists fk pc, key_generate_fft X m h pr P sk r = Ok fk /\ rproc_new X m h pr P fk s0 s1 = Ok pc /\
  forall optimised, exists mc inputs g outs, (g <- from_bdds ds ;; if optimised : bool then optimize (fst g) else Ok g) = Ok (mc, inputs) /\
    insert_and_connect gempty mc inputs refs base = Ok (g, outs) /\
  forall cells rcells, cells_typed cells -> (forall t x, rencrypts A P sk (cell t x) (cells t x) (rcells t x)) ->
  forall j b, nth_error (c_fn c (map (fun x => bit_of (cells TGlwe1 x)) refs)) j = Some b ->
    exists o ct, nth_error outs j = Some o /\ rvalue X m pc sp rcells g o (None, Some (TGlwe1, (base + j)%nat, RGlwe1 ct)) /\
      (forall ro, rvalue X m pc sp rcells g o ro -> ro = (None, Some (TGlwe1, (base + j)%nat, RGlwe1 ct))) /\
      dec_glwe1 pr P sk ct = Ok (map Z.b2z (FheGraph.pconst (p_N P) b)).
Proof.
  intros HP HB Hok Hs Hr Ha Hsb H0 H1 Hf HE Ds LR Hc Hm Hd.
  assert (Hm0 : boot_margin P 0).
  { unfold boot_margin in *. assert (0 <= switch_noise P B); [|lia]. unfold switch_noise. destruct HB as (_ & _ & _ & K & _).
    apply Z.mul_nonneg_nonneg; [lia|]. apply Z.add_nonneg_nonneg; [apply Z.pow_nonneg; lia|]. apply Z.mul_nonneg_nonneg; [lia|]. apply Z.mul_nonneg_nonneg; [apply Z.pow_nonneg; lia|exact K]. }
  destruct (C110_setup_fft X m h pr P B A sk r s0 s1 HP HB Hok Hs Hr Ha Hsb H0 H1 Hm0) as (fk & pc & Ek & Ep & Hp). exists fk, pc. split; [exact Ek|]. split; [exact Ep|].
  intros optimised. destruct (diagrams_compiled c ds Ds) as (g1 & i1 & g2 & i2 & E1 & E2 & C1 & C2).
  assert (Q : exists mc inputs, (g <- from_bdds ds ;; if optimised then optimize (fst g) else Ok g) = Ok (mc, inputs) /\ compiled c mc inputs /\ depth_at_most mc (c_arity c)).
  { rewrite E1. cbn [bind fst]. destruct optimised; [exists g2, i2|exists g1, i1]; auto. }
  destruct Q as (mc & inputs & Em & Cp & Dm). destruct (cp_outs _ _ _ Cp) as (k & DS & Hv).
  assert (LR' : length refs = length inputs) by (rewrite (cp_arity _ _ _ Cp); exact LR).
  assert (EN : edges_ok (@gempty fop fedge)) by (intros s t l []).
  assert (N0 : noise_ok P B cell (@gempty fop fedge) (fun _ => 0)). { intros n o Hn. unfold node, gempty in Hn. cbn in Hn. destruct n; discriminate. }
  destruct (insert_and_connect_ok gempty mc inputs refs base k EN (cp_wf _ _ _ Cp) DS LR') as (g & outs & Ei & _ & Lo & V).
  destruct (C131_noise P B cell E0 gempty (fun _ => 0) c mc inputs refs base (c_arity c) HP HB Hc Hm EN N0 Cp Dm LR) as (g' & outs' & En & Ei' & Nk & Fo).
  rewrite Ei in Ei'. injection Ei' as <- <-. exists mc, inputs, g, outs. split; [exact Em|]. split; [exact Ei|].
  intros cells rcells Ht Henc j b Hj. set (v := map (fun x => bit_of (cells TGlwe1 x)) refs) in *. assert (Lv : length v = c_arity c) by (unfold v; rewrite map_length; exact LR).
  destruct (Hv v Lv) as (Lk & Hvo). assert (Hjk : (j < k)%nat) by (rewrite <- Lk; apply nth_error_Some; congruence).
  apply (ds_outs _ _ _ DS) in Hjk. destruct Hjk as (n & Hn). destruct (V n j Hn) as (o & Ho & Fv). specialize (Fv (p_N P) cells (nth j (c_fn c v) false) (Npos P B HP 0 0) Ht (Hvo n j Hn)).
  rewrite (nth_error_nth _ _ false Hj) in Fv.
  destruct (proj1 (rcircuit_refines X m h pr P B A HP HB Hok sk Hs pc sp cells rcells cell g En Hp Hf Henc Nk) o _ Fv) as ([c0 w0] & Rv & Q1 & Q2). cbn [fst snd] in Q1, Q2.
  destruct c0 as [c0|]; [contradiction|]. destruct w0 as [[[t' x'] ct]|]; [|contradiction]. destruct Q2 as (<- & <- & Enc).
  assert (Hno : En o < 2 ^ 62). { eapply Z.le_lt_trans; [|exact Hd]. apply (proj1 (Forall_forall _ _) Fo). eapply nth_error_In; eauto. }
  pose proof (rdecrypts_ok X m h pr P B A HP HB Hok sk Hs (En o) _ ct Enc Hno) as Hdec. destruct ct; cbn [rdecrypts_to] in Hdec; try contradiction.
  exists o, c0. split; [exact Ho|]. split; [exact Rv|]. split; [|exact Hdec]. intros ro Hro. exact (proj1 (rvalue_fun X m pc sp rcells g) _ _ Rv _ Hro).
Qed.
Print Assumptions C131_circuit_end_to_end.

(** * C132: programs *)

(** A program of additions, subtractions, AND, OR and comparisons, of any length, on registers whose ciphertexts carry noise at most E0: it runs to the end,
    and however it runs every register then encrypts, with noise that does not depend on the program, and decrypts to, what the instructions are documented to compute. *)
Theorem C132_program X m h pr P B A sk pc E0 W st v is s0 : params_ok P -> bounds_ok B -> fft_ok X h P B A -> secret_ok P sk -> rproc_ok X A P B sk h pr pc -> scratch_ok P s0 ->
  let E := Z.max E0 (2 * W * sel_noise P B (boot_noise P B)) in
  0 <= E0 -> 1 <= W <= 128 -> boot_margin P (E + switch_noise P B) -> E < 2 ^ 62 ->
  store_ok P sk E0 st -> (forall r, reg_holds P sk E0 st r (v r)) -> prog_ok W v is ->
  (exists st', prun X m pc st is st') /\
  forall st', prun X m pc st is st' -> forall r, reg_holds P sk E st' r (pvals_run v is r) /\ reg_decrypts pr P sk st' r (pvals_run v is r).
Proof.
  intros HP HB Hok Hs Hp H0 E HE HW Hm Hd So Ro Pk.
  pose proof (holds_pinv X m h pr P B A HP HB Hok sk Hs E0 W Hd st v So Ro) as Iv.
  destruct (run_ok X m h pr P B A HP HB Hok sk Hs pc Hp E0 W HE HW Hm s0 H0 is st v Iv Pk) as (T & S1). split; [exact T|].
  intros st' R r. pose proof (pinv_holds P B sk E0 W st' _ (S1 st' R) r) as H. split; [exact H|]. exact (holds_decrypts X m h pr P B A HP HB Hok sk Hs E0 W Hd st' r _ H).
Qed.
Print Assumptions C132_program.

(** ... with the keys and the processor that the library makes. *)
Theorem C132_program_end_to_end X m h pr P B A sk r s0 s1 E0 W is v : params_ok P -> bounds_ok B -> fft_ok X h P B A -> secret_ok P sk -> key_rnd_fft_ok P B r ->
  add_exact h pr 64 -> sub_exact h pr 64 -> scratch_ok P s0 -> scratch_ok P s1 ->
  let E := Z.max E0 (2 * W * sel_noise P B (boot_noise P B)) in
  0 <= E0 -> 1 <= W <= 128 -> boot_margin P (E + switch_noise P B) -> E < 2 ^ 62 -> prog_ok W v is ->
  exists fk pc, key_generate_fft X m h pr P sk r = Ok fk /\ rproc_new X m h pr P fk s0 s1 = Ok pc /\
  forall st, store_ok P sk E0 st -> (forall x, reg_holds P sk E0 st x (v x)) ->
    (exists st', prun X m pc st is st') /\ forall st', prun X m pc st is st' -> forall x, reg_decrypts pr P sk st' x (pvals_run v is x).
Proof.
  intros HP HB Hok Hs Hr Ha Hsb H0 H1 E HE HW Hm Hd Pk.
  assert (Hm0 : boot_margin P 0).
  { unfold boot_margin in *. assert (0 <= switch_noise P B); [|lia]. unfold switch_noise. destruct HB as (_ & _ & _ & K & _).
    apply Z.mul_nonneg_nonneg; [lia|]. apply Z.add_nonneg_nonneg; [apply Z.pow_nonneg; lia|]. apply Z.mul_nonneg_nonneg; [lia|]. apply Z.mul_nonneg_nonneg; [apply Z.pow_nonneg; lia|exact K]. }
  destruct (C110_setup_fft X m h pr P B A sk r s0 s1 HP HB Hok Hs Hr Ha Hsb H0 H1 Hm0) as (fk & pc & Ek & Ep & Hp). exists fk, pc. split; [exact Ek|]. split; [exact Ep|].
  intros st So Ro. destruct (C132_program X m h pr P B A sk pc E0 W st v is s0 HP HB Hok Hs Hp H0 HE HW Hm Hd So Ro Pk) as (T & K). split; [exact T|]. intros st' R x. exact (proj2 (K st' R x)).
Qed.
Print Assumptions C132_program_end_to_end.

(** ** A concrete case: five-bit registers, in double precision; a program that adds, subtracts the same number again and compares. *)
Definition exp_P := {| p_n := 2; p_N := 16; p_k := 1; p_cbs := {| r_log := 4; r_count := 4 |}; p_pbs := {| r_log := 4; r_count := 8 |};
  p_ks := {| r_log := 5; r_count := 6 |}; p_ss := {| r_log := 5; r_count := 6 |}; p_tr := {| r_log := 4; r_count := 8 |} |}.
Definition exp_B := {| b_bs := 8; b_auto := 8; b_ss := 8; b_ks := 8; b_fp := 2 ^ 34; b_sel := 2 ^ 48 |}.
Definition exp_r := {| kr_bs := ex_rows 2 8; kr_ks := repeat (repeat ([2 ^ 62 + 1; 77], -2) 6) 16; kr_ss := fun i => map (ex_glwe_rnd i 5) (seq 0 6);
  kr_auto := ex_rows 1 8; kr_mul := fun _ _ => []; kr_scratch := [repeat 9 16] |}.
Lemma exp_params : params_ok exp_P /\ bounds_ok exp_B /\ secret_ok exp_P exf_sk.
Proof.
  split; [constructor; unfold radix_ok; cbn; try reflexivity; try lia|].
  split; [unfold bounds_ok; cbn; lia|].
  constructor; cbn [exp_P exf_sk p_n p_N p_k s_lwe0 s_glwe1].
  - reflexivity. - unfold binary; repeat (constructor; auto). - split; [reflexivity|repeat constructor]. - unfold binary_polys, binary, ex16_sk; repeat (constructor; auto).
Qed.
Lemma exp_fft : fft_ok f64_ext ex_hw exp_P exp_B ex_A.
Proof.
  destruct (C104_double_precision 4 ltac:(lia)) as (Hr & Hac). assert (U0 : ub 0 0) by (apply (ub_const 0); lia). destruct C109_errors as ((_ & _ & HE) & HX).
  constructor; cbn [exp_P p_N p_k p_cbs p_pbs p_ss p_tr r_log r_count exp_B b_fp b_sel ex_A acc_u acc_eta acc_tau acc_delta]; unfold sel_err, sel_size; cbn [exp_P p_N p_k p_ss r_log r_count ex_A acc_u acc_eta acc_tau acc_delta]; change (16 / 2)%nat with (Pos.to_nat 8).
  - lia.
  - intros _. lia.
  - exact Hr.
  - exact Hac.
  - destruct (u_err 8 _ _ _ _ _ _ _ _ 1 (1 * one) 1 (1 * one) 1 zu_ok zeta_ok ztau_ok U0 (ub_const 1 ltac:(lia)) (ub_const 1 ltac:(lia))) as [_ Q].
    pose proof one_pos as Pp. apply (Rmult_lt_reg_r (IZR one)); [exact Pp|]. eapply Rle_lt_trans; [exact Q|].
    assert (V : 2 * zerr 8 zu zeta ztau 0 (1 * one) (1 * one) 1 < one) by (vm_compute; reflexivity). apply IZR_lt in V. rewrite mult_IZR in V. lra.
  - apply (bound_eval 8 0 0); [exact U0|lia|lia|]. vm_compute. discriminate.
  - apply (bound_eval 8 0 0); [exact U0|lia|lia|]. vm_compute. discriminate.
  - apply (switched_eval 8 0 0); [exact U0|lia|lia|lia|]. vm_compute. discriminate.
  - pose proof (ub_const (2 ^ 63) ltac:(lia)) as HA. pose proof (ub_const (2 ^ (5 - 1)) ltac:(lia)) as HBc.
    apply (ub_elim _ (zuntwist 8 zu zeta ztau 0 (zsw_e 8 0 (2 ^ 63 * one) (2 ^ (5 - 1) * one) 6) (zsw_s 8 (2 ^ 63 * one) (2 ^ (5 - 1) * one) 6))); [|vm_compute; discriminate].
    pose proof (u_fwd 8 _ _ _ _ _ _ _ _ zu_ok zeta_ok ztau_ok U0 _ _ HA). pose proof (u_fwd 8 _ _ _ _ _ _ _ _ zu_ok zeta_ok ztau_ok U0 _ _ HBc).
    pose proof (u_freq 8 _ _ HA). pose proof (u_freq 8 _ _ HBc). pose proof zu_ok. pose proof zeta_ok. pose proof ztau_ok.
    apply u_untwist; try assumption.
    + unfold zsw_e, switched_err. now apply u_mads.
    + unfold zsw_s, switched_size. apply ub_add; [assumption|]. rewrite INR_IZR_INZ. apply ub_cmul; [lia|]. now apply ub_mul.
Qed.
Lemma exp_rnd : key_rnd_fft_ok exp_P exp_B exp_r.
Proof.
  constructor; intros; cbn [exp_r kr_bs kr_ks kr_ss kr_auto kr_scratch exp_P p_N p_k p_n p_pbs p_ks p_ss p_tr r_count exp_B b_bs b_ks b_ss b_auto].
  - apply ex_rows_ok.
  - reflexivity.
  - apply Forall_forall. intros row Hr. apply repeat_spec in Hr. subst. split; [reflexivity|]. apply Forall_forall. intros x Hx. apply repeat_spec in Hx. subst.
    split; [reflexivity|]. exists (-2). split; [cbn; lia|]. reflexivity.
  - split; [reflexivity|]. apply Forall_forall. intros x Hx. apply in_map_iff in Hx as (c & <- & _). apply ex_glwe_rnd_ok.
  - apply ex_rows_ok.
  - split; [reflexivity|repeat constructor].
Qed.
Lemma exp_scratch : scratch_ok exp_P exf_s.
Proof.
  constructor; cbn [exp_P exf_s sc_lwe sc_glwe sc_glev p_n p_N p_k p_cbs r_count]; try reflexivity.
  - split; [repeat constructor|]. split; [constructor; [|constructor]|]; cbn [gb]; apply Forall_forall; intros y Hy; apply repeat_spec in Hy; subst; unfold torus; lia.
  - repeat constructor.
Qed.
(** The operands, encrypted bit by bit with concrete masks and errors. *)
Definition exp_bit (i : nat) (b : bool) : glwe :=
  match enc_glwe1 exp_P exf_sk (FheGraph.pconst 16 b) (fst (ex_glwe_rnd i 1 1)) (snd (ex_glwe_rnd i 1 1)) with Ok c => c | _ => glwe_new 16 1 end.
Lemma exp_bit_ok i b : encrypts exp_P exf_sk 8 (CGlwe1 (FheGraph.pconst 16 b)) (KGlwe1 (exp_bit i b)).
Proof.
  destruct exp_params as (HP & HB & Hs). unfold exp_bit.
  destruct (EvalProofs3.enc_glwe1_ok exp_P exf_sk HP Hs (FheGraph.pconst 16 b) (fst (ex_glwe_rnd i 1 1)) (snd (ex_glwe_rnd i 1 1)) 8 ltac:(reflexivity) ltac:(lia) (ex_glwe_rnd_ok i 1 1)) as (c & E & H).
  rewrite E. exact H.
Qed.
Definition exp_st (a b : list bool) : pstate := {| p_regs := fun r => match r with 0%nat => seq 0 5 | 1%nat => seq 5 5 | _ => [] end; p_store := map (fun i => exp_bit i (nth i (a ++ b) false)) (seq 0 10) |}.
Definition exp_v (a b : list bool) : pvals := fun r => match r with 0%nat => (5, uval a) | 1%nat => (5, uval b) | _ => (0, 0) end.
Definition exp_is : list pinstr := [{| pi_op := BAdd; pi_dst := 2; pi_a := 0; pi_b := 1 |}; {| pi_op := BSub; pi_dst := 3; pi_a := 2; pi_b := 1 |};
  {| pi_op := BCmp (COrd true false false); pi_dst := 4; pi_a := 2; pi_b := 3 |}; {| pi_op := BAnd; pi_dst := 0; pi_a := 3; pi_b := 3 |}].
Example exp_program (m : mad_kernel) (a b : list bool) : length a = 5%nat -> length b = 5%nat ->
  exists fk pc st', key_generate_fft f64_ext m ex_hw Release exp_P exf_sk exp_r = Ok fk /\ rproc_new f64_ext m ex_hw Release exp_P fk exf_s exf_s = Ok pc /\
  prun f64_ext m pc (exp_st a b) exp_is st' /\
  reg_decrypts Release exp_P exf_sk st' 0 (5, Z.land (((uval a + uval b) mod 2 ^ 5 - uval b) mod 2 ^ 5) (((uval a + uval b) mod 2 ^ 5 - uval b) mod 2 ^ 5)) /\
  reg_decrypts Release exp_P exf_sk st' 4 (1, b2z (sint 5 ((uval a + uval b) mod 2 ^ 5) <? sint 5 (((uval a + uval b) mod 2 ^ 5 - uval b) mod 2 ^ 5))).
Proof.
  intros La Lb. destruct exp_params as (HP & HB & Hs).
  destruct (C132_program_end_to_end f64_ext m ex_hw Release exp_P exp_B ex_A exf_sk exp_r exf_s exf_s 8 5 exp_is (exp_v a b) HP HB exp_fft Hs exp_rnd
    (or_intror (or_intror (or_intror eq_refl))) (or_intror (or_intror (conj eq_refl eq_refl))) exp_scratch exp_scratch) as (fk & pc & Ek & Ep & K).
  - lia. - lia. - vm_compute. reflexivity. - vm_compute. reflexivity.
  - unfold exp_is, prog_ok, pvals_step, exp_v. cbn [pi_op pi_dst pi_a pi_b Nat.eqb fst snd binop_width]. repeat split; lia.
  - destruct (K (exp_st a b)) as ((st' & R) & D).
    + unfold store_ok, exp_st. cbn [p_store]. apply Forall_forall. intros c Hc. apply in_map_iff in Hc as (i & <- & _). eexists. apply exp_bit_ok.
    + intros x. unfold reg_holds, exp_st, exp_v. cbn [p_store p_regs]. destruct x as [|[|x]]; cbn [fst snd].
      * exists a. split; [lia|]. split; [reflexivity|]. do 6 (destruct a as [|? a]; try discriminate La). cbn [seq].
        repeat (constructor; [eexists; split; [reflexivity|]; apply exp_bit_ok|]). constructor.
      * exists b. split; [lia|]. split; [reflexivity|]. do 6 (destruct a as [|? a]; try discriminate La). do 6 (destruct b as [|? b]; try discriminate Lb). cbn [seq].
        repeat (constructor; [eexists; split; [reflexivity|]; apply exp_bit_ok|]). constructor.
      * exists []. repeat split. constructor.
    + exists fk, pc, st'. split; [exact Ek|]. split; [exact Ep|]. split; [exact R|]. split; [exact (D st' R 0%nat)|exact (D st' R 4%nat)].
Qed.
