(** C134: encrypted multiplication in programs. *)
From Coq Require Import Reals ZArith List Lia Lra Bool Permutation.
From Coquelicot Require Import Complex.
From Verif Require Import Base BitsLemmas Spec Alu AluProofs SpecAlu Circuits Graph MuxGraph SpecMux SpecMuxOpt MuxGraphProofs2 FheGraph SpecFhe FheProofs FheProofs5 SpecFluent FluentLib
  PolyRing Tfhe TfheGlwe Fft FftGlwe Eval EvalFft SpecTfhe SpecGlwe SpecBoot SpecCbs SpecEval SpecFft SpecFftGlwe SpecFftCbs SpecEvalFft EvalProofs FftFloat FftBound
  TfheBootProofs EvalFftProofs EvalFftProofs2 EvalFftProofs3 EvalFftProofs4 Props_Boot Props_Fft Props_FftGlwe Props_FftCbs Props_EvalFft
  SpecPipe PipeProofs PipeProofs2 Pipe SpecPipe2 PipeProofs3 PipeProofs4 Props_Pipe Pipe2 SpecPipe3 PipeProofs6 Props_Pipe2 Pipe3 SpecPipe4 PipeProofs8.
Import ListNotations.
Ltac Zify.zify_post_hook ::= idtac.
Open Scope Z_scope.

(** A program of any length, now with multiplications, whose static check passes runs to the end, and however it runs (whatever order the pruning visits the
    nodes in) every register then holds what the instructions are documented to compute, a product modulo 2^w included, with noise within the bound that the
    analysis gives; those whose bound is below 2^62 decrypt. The mux circuits of multiplication may be any that compute the code's circuits, with a known bound on
    their depth. *)
Theorem C134_program X m h pr P B A sk pc lib D st v is s0 : params_ok P -> bounds_ok B -> fft_ok X h P B A -> secret_ok P sk -> rproc_ok X A P B sk h pr pc -> scratch_ok P s0 ->
  lib_ok lib -> lib_depth lib D -> (forall a b, (a <= b)%nat -> (D a <= D b)%nat) ->
  let sel := sel_noise P B (boot_noise P B) in
  xholds P sk st v -> yprog_ok (fun E => boot_margin P (E + switch_noise P B)) sel D v is ->
  (exists st', yrun X m pc lib st is st') /\
  forall st', yrun X m pc lib st is st' -> xholds P sk st' (yvals_run sel D v is) /\
    forall r, v_noise (yvals_run sel D v is r) < 2 ^ 62 -> reg_decrypts pr P sk st' r (v_width (yvals_run sel D v is r), v_value (yvals_run sel D v is r)).
Proof.
  intros HP HB Hok Hs Hp H0 L LD Dm sel Hx Pk. destruct (yrun_ok X m h pr P B A HP HB Hok sk Hs pc Hp lib L D Dm LD s0 H0 is st v Hx Pk) as (T & K). split; [exact T|].
  intros st' R. pose proof (K st' R) as Hx'. split; [exact Hx'|]. intros r Hr. exact (xholds_decrypts X m h pr P B A HP HB Hok sk Hs st' _ r Hx' Hr).
Qed.
Print Assumptions C134_program.

(** ... with the keys and the processor that the library makes. *)
Theorem C134_program_end_to_end X m h pr P B A sk r s0 s1 lib D is v : params_ok P -> bounds_ok B -> fft_ok X h P B A -> secret_ok P sk -> key_rnd_fft_ok P B r ->
  add_exact h pr 64 -> sub_exact h pr 64 -> scratch_ok P s0 -> scratch_ok P s1 -> boot_margin P 0 ->
  lib_ok lib -> lib_depth lib D -> (forall a b, (a <= b)%nat -> (D a <= D b)%nat) ->
  let sel := sel_noise P B (boot_noise P B) in
  yprog_ok (fun E => boot_margin P (E + switch_noise P B)) sel D v is ->
  exists fk pc, key_generate_fft X m h pr P sk r = Ok fk /\ rproc_new X m h pr P fk s0 s1 = Ok pc /\
  forall st, xholds P sk st v ->
    (exists st', yrun X m pc lib st is st') /\ forall st', yrun X m pc lib st is st' -> forall x, v_noise (yvals_run sel D v is x) < 2 ^ 62 ->
      reg_decrypts pr P sk st' x (v_width (yvals_run sel D v is x), v_value (yvals_run sel D v is x)).
Proof.
  intros HP HB Hok Hs Hr Ha Hsb H0 H1 Hm L LD Dm sel Pk.
  destruct (C110_setup_fft X m h pr P B A sk r s0 s1 HP HB Hok Hs Hr Ha Hsb H0 H1 Hm) as (fk & pc & Ek & Ep & Hp). exists fk, pc. split; [exact Ek|]. split; [exact Ep|].
  intros st Hx. destruct (C134_program X m h pr P B A sk pc lib D st v is s0 HP HB Hok Hs Hp H0 L LD Dm Hx Pk) as (T & K). split; [exact T|]. intros st' R x Hx'. exact (proj2 (K st' R) x Hx').
Qed.
Print Assumptions C134_program_end_to_end.

(** The circuits made from decision diagrams (mux_circuits/src/lib.rs:427-566) are such a library, with a depth of at most the number of inputs. *)
Theorem C134_library : lib_ok shannon_lib /\ lib_depth shannon_lib (fun n => n).
Proof.
  split; [exact shannon_lib_ok|]. intros b c mc inputs Eb El. unfold shannon_lib in El. rewrite Eb in El. unfold compile in El. destruct (out_len b) as [|k].
  - injection El as <- <-. exists (fun n => n). split; [intros [|n] Hn; discriminate Hn|intros s t l []].
  - set (ds := map _ _) in El. assert (NE : ds <> []) by discriminate.
    assert (W : Forall (bdd_wf (c_arity c)) ds) by (apply Forall_forall; intros d Hd; apply in_map_iff in Hd; destruct Hd as (o & <- & _); apply bdd_of_ok).
    assert (O : Forall bdd_ordered ds) by (apply Forall_forall; intros d Hd; apply in_map_iff in Hd; destruct Hd as (o & <- & _); apply bdd_of_ordered).
    destruct (compiled_ok (c_arity c) ds NE W O) as (g & i & _ & _ & E1 & _ & (_ & _ & _ & Dp & _) & _). rewrite El in E1. injection E1 as <- <-. exact Dp.
Qed.
Print Assumptions C134_library.

(** ** A concrete case: five-bit registers, in double precision: a polynomial of the two inputs. *)
Definition exy_is : list yinstr := [ YMul 2 0 1; YX (XBin {| pi_op := BAdd; pi_dst := 3; pi_a := 2; pi_b := 0 |}); YMul 4 3 3; YX (XXor 5 4 1) ].
Definition exy_out (a b : list bool) : Z := Z.lxor (((uval a * uval b) mod 2 ^ 5 + uval a) mod 2 ^ 5 * (((uval a * uval b) mod 2 ^ 5 + uval a) mod 2 ^ 5) mod 2 ^ 5) (uval b).
Example exy_program (m : mad_kernel) (a b : list bool) : length a = 5%nat -> length b = 5%nat ->
  exists fk pc st', key_generate_fft f64_ext m ex_hw Release exp_P exf_sk exp_r = Ok fk /\ rproc_new f64_ext m ex_hw Release exp_P fk exf_s exf_s = Ok pc /\
  yrun f64_ext m pc shannon_lib (exp_st a b) exy_is st' /\ reg_decrypts Release exp_P exf_sk st' 5 (5, exy_out a b).
Proof.
  intros La Lb. destruct exp_params as (HP & HB & Hs). destruct C134_library as (L & LD).
  destruct (C134_program_end_to_end f64_ext m ex_hw Release exp_P exp_B ex_A exf_sk exp_r exf_s exf_s shannon_lib (fun n => n) exy_is (exq_v a b) HP HB exp_fft Hs exp_rnd
    (or_intror (or_intror (or_intror eq_refl))) (or_intror (or_intror (conj eq_refl eq_refl))) exp_scratch exp_scratch) as (fk & pc & Ek & Ep & K); [vm_compute; reflexivity|exact L|exact LD|auto| |].
  - cbn [exy_is yprog_ok yinstr_ok yvals_step xinstr_ok xvals_step setv exq_v pi_op pi_dst pi_a pi_b Nat.eqb v_width v_noise binop_width width_ok]. unfold width_ok.
    repeat (split; try exact I; try lia); try (intros; lia); vm_compute; reflexivity.
  - destruct (K (exp_st a b)) as ((st' & R) & Dc).
    + exists (a ++ b), (repeat 8 10). split; [rewrite repeat_length, app_length; lia|]. split.
      * do 6 (destruct a as [|? a]; try discriminate La). do 6 (destruct b as [|? b]; try discriminate Lb). cbn [exp_st p_store app nth seq map repeat combine].
        repeat (constructor; [cbn [fst snd]; split; [lia|apply exp_bit_ok]|]). constructor.
      * intros r. unfold exp_st, exq_v. cbn [p_regs]. assert (Fr : forall k n, (k + n <= 10)%nat -> Forall (fun h => (h < length (a ++ b))%nat /\ nth h (repeat 8 10) 0 <= 8) (seq k n)).
        { intros k n Hk. apply Forall_forall. intros x Hx. apply in_seq in Hx. rewrite app_length. split; [lia|]. do 10 (destruct x as [|x]; [cbn; lia|]). lia. }
        destruct r as [|[|r]]; cbn [v_noise v_width v_value].
        -- split; [apply Fr; lia|]. split; [lia|]. split; [reflexivity|]. do 6 (destruct a as [|? a]; try discriminate La). reflexivity.
        -- split; [apply Fr; lia|]. split; [lia|]. split; [reflexivity|]. do 6 (destruct a as [|? a]; try discriminate La). do 6 (destruct b as [|? b]; try discriminate Lb). reflexivity.
        -- split; [constructor|]. split; [lia|]. split; reflexivity.
    + exists fk, pc, st'. split; [exact Ek|]. split; [exact Ep|]. split; [exact R|].
      pose proof (Dc st' R 5%nat) as D5. clear - D5.
      unfold yvals_run in D5. cbn [fold_left exy_is yvals_step xvals_step setv exq_v pi_op pi_dst pi_a pi_b Nat.eqb v_width v_value v_noise binop_width binop_value] in D5.
      unfold exy_out. apply D5; vm_compute; reflexivity.
Qed.
