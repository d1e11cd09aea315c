(** C133: encrypted programs with more instructions, and a static analysis of their noise. *)
From Coq Require Import Reals ZArith List Lia Lra Bool.
From Coquelicot Require Import Complex.
From Verif Require Import Base BitsLemmas Spec Alu AluProofs SpecAlu Circuits Graph MuxGraph SpecMux MuxGraphProofs2 FheGraph SpecFhe FheProofs FheProofs5 SpecFluent
  PolyRing Tfhe TfheGlwe Fft FftGlwe Eval EvalFft SpecTfhe SpecGlwe SpecBoot SpecCbs SpecEval SpecFft SpecFftGlwe SpecFftCbs SpecEvalFft EvalProofs FftFloat FftBound
  TfheBootProofs EvalFftProofs EvalFftProofs2 EvalFftProofs3 EvalFftProofs4 Props_Boot Props_Fft Props_FftGlwe Props_FftCbs Props_EvalFft
  SpecPipe PipeProofs PipeProofs2 Pipe SpecPipe2 PipeProofs3 PipeProofs4 Props_Pipe Pipe2 SpecPipe3 PipeProofs6.
Import ListNotations.
Ltac Zify.zify_post_hook ::= idtac.
Open Scope Z_scope.

(** A program of any length whose static check passes (the widths fit, and every ciphertext that goes into a circuit bootstrap has, by the analysis, noise within
    the bootstrap's margin) runs to the end, and however it runs every register then holds what the instructions are documented to compute, with noise within the
    bound that the analysis gives; those whose bound is below 2^62 decrypt. *)
Theorem C133_program X m h pr P B A sk pc st v is s0 : params_ok P -> bounds_ok B -> fft_ok X h P B A -> secret_ok P sk -> rproc_ok X A P B sk h pr pc -> scratch_ok P s0 ->
  let sel := sel_noise P B (boot_noise P B) in
  xholds P sk st v -> xprog_ok (fun E => boot_margin P (E + switch_noise P B)) sel v is ->
  (exists st', xrun X m pc st is st') /\
  forall st', xrun X m pc st is st' -> xholds P sk st' (xvals_run sel v is) /\
    forall r, v_noise (xvals_run sel v is r) < 2 ^ 62 -> reg_decrypts pr P sk st' r (v_width (xvals_run sel v is r), v_value (xvals_run sel v is r)).
Proof.
  intros HP HB Hok Hs Hp H0 sel Hx Pk. destruct (xrun_ok X m h pr P B A HP HB Hok sk Hs pc Hp s0 H0 is st v Hx Pk) as (T & K). split; [exact T|].
  intros st' R. pose proof (K st' R) as Hx'. split; [exact Hx'|]. intros r Hr. exact (xholds_decrypts X m h pr P B A HP HB Hok sk Hs st' _ r Hx' Hr).
Qed.
Print Assumptions C133_program.

(** ... with the keys and the processor that the library makes. *)
Theorem C133_program_end_to_end X m h pr P B A sk r s0 s1 is v : params_ok P -> bounds_ok B -> fft_ok X h P B A -> secret_ok P sk -> key_rnd_fft_ok P B r ->
  add_exact h pr 64 -> sub_exact h pr 64 -> scratch_ok P s0 -> scratch_ok P s1 -> boot_margin P 0 ->
  let sel := sel_noise P B (boot_noise P B) in
  xprog_ok (fun E => boot_margin P (E + switch_noise P B)) sel v is ->
  exists fk pc, key_generate_fft X m h pr P sk r = Ok fk /\ rproc_new X m h pr P fk s0 s1 = Ok pc /\
  forall st, xholds P sk st v ->
    (exists st', xrun X m pc st is st') /\ forall st', xrun X m pc st is st' -> forall x, v_noise (xvals_run sel v is x) < 2 ^ 62 ->
      reg_decrypts pr P sk st' x (v_width (xvals_run sel v is x), v_value (xvals_run sel v is x)).
Proof.
  intros HP HB Hok Hs Hr Ha Hsb H0 H1 Hm sel Pk.
  destruct (C110_setup_fft X m h pr P B A sk r s0 s1 HP HB Hok Hs Hr Ha Hsb H0 H1 Hm) as (fk & pc & Ek & Ep & Hp). exists fk, pc. split; [exact Ek|]. split; [exact Ep|].
  intros st Hx. destruct (C133_program X m h pr P B A sk pc st v is s0 HP HB Hok Hs Hp H0 Hx Pk) as (T & K). split; [exact T|]. intros st' R x Hx'. exact (proj2 (K st' R) x Hx').
Qed.
Print Assumptions C133_program_end_to_end.

(** ** A concrete case: five-bit registers, in double precision. *)
Definition exq_is : list xinstr := [
  XBin {| pi_op := BAdd; pi_dst := 2; pi_a := 0; pi_b := 1 |};
  XShift SShl 3 2 1;
  XBin {| pi_op := BCmp (COrd false true false); pi_dst := 4; pi_a := 2; pi_b := 3 |};
  XCmux 5 4 2 3; XNot 6 5; XXor 7 6 0; XExt true 8 7 9; XTrunc 9 8 3; XShiftBy SShr 10 9 1; XMov 11 10 ].
Definition exq_v (a b : list bool) : xvals := fun r => match r with
  | 0%nat => {| v_width := 5; v_value := uval a; v_noise := 8 |} | 1%nat => {| v_width := 5; v_value := uval b; v_noise := 8 |} | _ => {| v_width := 0; v_value := 0; v_noise := 0 |} end.
Definition exq_sel := sel_noise exp_P exp_B (boot_noise exp_P exp_B).
(** What the registers are documented to hold. *)
Definition exq_sum (a b : list bool) : Z := (uval a + uval b) mod 2 ^ 5.
Definition exq_shl (a b : list bool) : Z := (exq_sum a b * 2 ^ uval b) mod 2 ^ 5.
Definition exq_max (a b : list bool) : Z := if b2z (Spec.rel true false (exq_sum a b) (exq_shl a b)) =? 0 then exq_shl a b else exq_sum a b.
Definition exq_out (a b : list bool) : Z := (sint 5 (Z.lxor (2 ^ 5 - 1 - exq_max a b) (uval a)) mod 2 ^ 9) mod 2 ^ 3 / 2 ^ 1.
Example exq_program (m : mad_kernel) (a b : list bool) : length a = 5%nat -> length b = 5%nat ->
  exists fk pc st', key_generate_fft f64_ext m ex_hw Release exp_P exf_sk exp_r = Ok fk /\ rproc_new f64_ext m ex_hw Release exp_P fk exf_s exf_s = Ok pc /\
  xrun f64_ext m pc (exp_st a b) exq_is st' /\
  reg_decrypts Release exp_P exf_sk st' 5 (5, exq_max a b) /\ reg_decrypts Release exp_P exf_sk st' 11 (3, exq_out a b).
Proof.
  intros La Lb. destruct exp_params as (HP & HB & Hs).
  destruct (C133_program_end_to_end f64_ext m ex_hw Release exp_P exp_B ex_A exf_sk exp_r exf_s exf_s exq_is (exq_v a b) HP HB exp_fft Hs exp_rnd
    (or_intror (or_intror (or_intror eq_refl))) (or_intror (or_intror (conj eq_refl eq_refl))) exp_scratch exp_scratch) as (fk & pc & Ek & Ep & K).
  - vm_compute. reflexivity.
  - cbn [exq_is xprog_ok xinstr_ok xvals_step setv exq_v pi_op pi_dst pi_a pi_b Nat.eqb v_width v_noise binop_width rot_width_ok width_ok]. unfold width_ok.
    repeat (split; try exact I; try lia); vm_compute; reflexivity.
  - destruct (K (exp_st a b)) as ((st' & R) & D).
    + exists (a ++ b), (repeat 8 10). split; [rewrite repeat_length, app_length; lia|]. split.
      * do 6 (destruct a as [|? a]; try discriminate La). do 6 (destruct b as [|? b]; try discriminate Lb). cbn [exp_st p_store app nth seq map repeat combine].
        repeat (constructor; [cbn [fst snd]; split; [lia|apply exp_bit_ok]|]). constructor.
      * intros r. unfold exp_st, exq_v. cbn [p_regs]. assert (Fr : forall k n, (k + n <= 10)%nat -> Forall (fun h => (h < length (a ++ b))%nat /\ nth h (repeat 8 10) 0 <= 8) (seq k n)).
        { intros k n Hk. apply Forall_forall. intros x Hx. apply in_seq in Hx. rewrite app_length. split; [lia|]. do 10 (destruct x as [|x]; [cbn; lia|]). lia. }
        destruct r as [|[|r]]; cbn [v_noise v_width v_value].
        -- split; [apply Fr; lia|]. split; [lia|]. split; [reflexivity|]. do 6 (destruct a as [|? a]; try discriminate La). reflexivity.
        -- split; [apply Fr; lia|]. split; [lia|]. split; [reflexivity|]. do 6 (destruct a as [|? a]; try discriminate La). do 6 (destruct b as [|? b]; try discriminate Lb). reflexivity.
        -- split; [constructor|]. split; [lia|]. split; reflexivity.
    + exists fk, pc, st'. split; [exact Ek|]. split; [exact Ep|]. split; [exact R|].
      pose proof (D st' R 5%nat) as D5. pose proof (D st' R 11%nat) as D11. clear - D5 D11.
      unfold xvals_run in D5, D11. cbn [fold_left exq_is xvals_step setv exq_v pi_op pi_dst pi_a pi_b Nat.eqb v_width v_value v_noise binop_width binop_value Spec.rel shift_value] in D5, D11.
      unfold exq_out, exq_max, exq_shl, exq_sum. split; [apply D5|apply D11]; vm_compute; reflexivity.
Qed.
