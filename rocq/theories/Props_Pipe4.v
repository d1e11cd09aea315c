(** C135: programs over plaintext and encrypted registers. *)
From Coq Require Import Reals ZArith List Lia Lra Bool Permutation.
From Coquelicot Require Import Complex.
From Verif Require Import Base BitsLemmas Spec Alu AluProofs SpecAlu Circuits Graph MuxGraph SpecMux FheGraph SpecFhe FheProofs FheProofs5 SpecFluent FluentLib
  PolyRing Tfhe TfheGlwe Fft FftGlwe Eval EvalFft SpecTfhe SpecGlwe SpecBoot SpecCbs SpecEval SpecFft SpecFftGlwe SpecFftCbs SpecEvalFft EvalProofs FftFloat FftBound
  TfheBootProofs EvalFftProofs EvalFftProofs2 EvalFftProofs3 EvalFftProofs4 Props_Boot Props_Fft Props_FftGlwe Props_FftCbs Props_EvalFft
  SpecPipe PipeProofs PipeProofs2 Pipe SpecPipe2 PipeProofs3 PipeProofs4 Props_Pipe Pipe2 SpecPipe3 PipeProofs6 Props_Pipe2 Pipe3 SpecPipe4 PipeProofs8 Props_Pipe3 Pipe4 SpecPipe5 PipeProofs9.
Import ListNotations.
Ltac Zify.zify_post_hook ::= idtac.
Open Scope Z_scope.

(** A program of any length over plaintext and encrypted registers whose static check passes runs to the end, and however it runs every register then holds
    what the instructions are documented to compute: in the clear where the instruction had plaintext operands only, and otherwise encrypted, with noise
    within the bound that the analysis gives. What the owner of the key reads is the same number, whichever of the operands were encrypted. *)
Theorem C135_program X m h pr P B A sk pc lib D ms v is s0 : params_ok P -> bounds_ok B -> fft_ok X h P B A -> secret_ok P sk -> rproc_ok X A P B sk h pr pc -> scratch_ok P s0 ->
  lib_ok lib -> lib_depth lib D -> (forall a b, (a <= b)%nat -> (D a <= D b)%nat) ->
  let sel := sel_noise P B (boot_noise P B) in
  mholds P sk ms v -> mprog_ok (fun E => boot_margin P (E + switch_noise P B)) sel D v is ->
  (exists ms', mrun X m pr pc lib ms is ms') /\
  forall ms', mrun X m pr pc lib ms is ms' -> mholds P sk ms' (mvals_run sel D v is) /\
    forall r, let '(plain, x) := mvals_run sel D v is r in v_noise x < 2 ^ 62 -> mreg_shows pr P sk ms' r plain (v_width x) (v_value x).
Proof.
  intros HP HB Hok Hs Hp H0 L LD Dm sel Hx Pk. destruct (mrun_ok X m h pr P B A HP HB Hok sk Hs pc Hp lib L D Dm LD s0 H0 is ms v Hx Pk) as (T & K). split; [exact T|].
  intros ms' R. pose proof (K ms' R) as Hx'. split; [exact Hx'|]. intros r. pose proof (mholds_shows X m h pr P B A HP HB Hok sk Hs ms' _ r Hx') as Sh.
  change (sel_noise P B (boot_noise P B)) with sel in Sh. destruct (mvals_run sel D v is r) as (plain & x). exact Sh.
Qed.
Print Assumptions C135_program.

(** ... with the keys and the processor that the library makes. *)
Theorem C135_program_end_to_end X m h pr P B A sk r s0 s1 lib D is v : params_ok P -> bounds_ok B -> fft_ok X h P B A -> secret_ok P sk -> key_rnd_fft_ok P B r ->
  add_exact h pr 64 -> sub_exact h pr 64 -> scratch_ok P s0 -> scratch_ok P s1 -> boot_margin P 0 ->
  lib_ok lib -> lib_depth lib D -> (forall a b, (a <= b)%nat -> (D a <= D b)%nat) ->
  let sel := sel_noise P B (boot_noise P B) in
  mprog_ok (fun E => boot_margin P (E + switch_noise P B)) sel D v is ->
  exists fk pc, key_generate_fft X m h pr P sk r = Ok fk /\ rproc_new X m h pr P fk s0 s1 = Ok pc /\
  forall ms, mholds P sk ms v ->
    (exists ms', mrun X m pr pc lib ms is ms') /\ forall ms', mrun X m pr pc lib ms is ms' ->
      forall q, let '(plain, x) := mvals_run sel D v is q in v_noise x < 2 ^ 62 -> mreg_shows pr P sk ms' q plain (v_width x) (v_value x).
Proof.
  intros HP HB Hok Hs Hr Ha Hsb H0 H1 Hm L LD Dm sel Pk.
  destruct (C110_setup_fft X m h pr P B A sk r s0 s1 HP HB Hok Hs Hr Ha Hsb H0 H1 Hm) as (fk & pc & Ek & Ep & Hp). exists fk, pc. split; [exact Ek|]. split; [exact Ep|].
  intros ms Hx. destruct (C135_program X m h pr P B A sk pc lib D ms v is s0 HP HB Hok Hs Hp H0 L LD Dm Hx Pk) as (T & K). split; [exact T|]. intros ms' R q. exact (proj2 (K ms' R) q).
Qed.
Print Assumptions C135_program_end_to_end.

(** The numbers do not depend on which of the registers were encrypted: two states with the same widths and values, one of them in the clear, say, and the
    other encrypted under whatever keys and parameters, show the same numbers after the same program. *)
Definition same_numbers (v1 v2 : mvals) : Prop := forall r, v_width (snd (v1 r)) = v_width (snd (v2 r)) /\ v_value (snd (v1 r)) = v_value (snd (v2 r)).
Lemma same_numbers_step sel1 sel2 D1 D2 v1 v2 i : same_numbers v1 v2 -> same_numbers (mvals_step sel1 D1 v1 i) (mvals_step sel2 D2 v2 i).
Proof.
  intros E. assert (G : forall dst x1 x2, v_width (snd x1) = v_width (snd x2) /\ v_value (snd x1) = v_value (snd x2) -> same_numbers (setm v1 dst x1) (setm v2 dst x2)).
  { intros dst x1 x2 Hx r. unfold setm. destruct (r =? dst)%nat; [exact Hx|apply E]. }
  destruct i as [dst imm w|op dst a b|op dst a s|dst s a b|dst a|dst a|signed dst a w|dst a w]; cbn [mvals_step].
  - apply G. cbn. auto.
  - pose proof (E a) as Ea. pose proof (E b) as Eb. destruct (v1 a), (v2 a), (v1 b), (v2 b). apply G. cbn [snd v_width v_value] in *. destruct Ea as (Ea1 & Ea2), Eb as (Eb1 & Eb2). rewrite ?Ea1, ?Ea2, ?Eb1, ?Eb2. auto.
  - pose proof (E a) as Ea. pose proof (E s) as Eb. destruct (v1 a), (v2 a), (v1 s), (v2 s). apply G. cbn [snd v_width v_value] in *. destruct Ea as (Ea1 & Ea2), Eb as (Eb1 & Eb2). rewrite ?Ea1, ?Ea2, ?Eb1, ?Eb2. auto.
  - pose proof (E a) as Ea. pose proof (E b) as Eb. pose proof (E s) as Es. destruct (v1 a), (v2 a), (v1 b), (v2 b), (v1 s), (v2 s). apply G. cbn [snd v_width v_value] in *. destruct Ea as (Ea1 & Ea2), Eb as (Eb1 & Eb2), Es as (Es1 & Es2). rewrite ?Ea1, ?Ea2, ?Eb1, ?Eb2, ?Es1, ?Es2. auto.
  - pose proof (E a) as Ea. destruct (v1 a), (v2 a). apply G. cbn [snd v_width v_value] in *. destruct Ea as (Ea1 & Ea2). rewrite ?Ea1, ?Ea2. auto.
  - apply G. apply E.
  - pose proof (E a) as Ea. destruct (v1 a), (v2 a). apply G. cbn [snd v_width v_value] in *. destruct Ea as (Ea1 & Ea2). rewrite ?Ea1, ?Ea2. auto.
  - pose proof (E a) as Ea. destruct (v1 a), (v2 a). apply G. cbn [snd v_width v_value] in *. destruct Ea as (Ea1 & Ea2). rewrite ?Ea1, ?Ea2. auto.
Qed.
Theorem C135_same_numbers sel1 sel2 D1 D2 : forall is v1 v2, same_numbers v1 v2 -> same_numbers (mvals_run sel1 D1 v1 is) (mvals_run sel2 D2 v2 is).
Proof. induction is as [|i is IH]; intros v1 v2 E; [exact E|]. cbn [mvals_run fold_left]. apply IH. now apply same_numbers_step. Qed.
Print Assumptions C135_same_numbers.

(** C136: nothing that was encrypted reaches a plaintext register. Two runs of a program from states with the same plaintext registers, whatever their
    encrypted registers hold and whatever the keys, the parameters, the mux circuits, the floating-point hardware and the schedules are, end with the same
    plaintext registers, and have the same registers in the clear. *)
Theorem C136_no_leak X1 X2 m1 m2 p pc1 pc2 lib1 lib2 : forall is ms1 ms2 ms1' ms2',
  mrun X1 m1 p pc1 lib1 ms1 is ms1' -> mrun X2 m2 p pc2 lib2 ms2 is ms2' ->
  (forall r, m_plain ms1 r = m_plain ms2 r) -> forall r, m_plain ms1' r = m_plain ms2' r.
Proof.
  induction is as [|i is IH]; intros ms1 ms2 ms1' ms2' R1 R2 E; inversion R1 as [|? ? n1 ? ? S1 K1]; subst; inversion R2 as [|? ? n2 ? ? S2 K2]; subst; [exact E|].
  apply (IH n1 n2 _ _ K1 K2). assert (Ep : plain_step p (m_plain ms1) i = plain_step p (m_plain ms2) i) by (destruct i; cbn [plain_step]; rewrite ?E; reflexivity).
  inversion S1 as [x w Q1|? ? Q1]; subst; inversion S2 as [y u Q2|? ? Q2]; subst; rewrite Ep in Q1; rewrite Q1 in Q2; try discriminate; cbn [m_plain]; intros r; unfold set_plain; destruct (r =? minstr_dst i)%nat; auto.
  now injection Q2 as -> ->.
Qed.
Print Assumptions C136_no_leak.

(** ** A concrete case: five-bit registers, in double precision. Two plaintexts are made and multiplied; their product times the first ciphertext, and so on. *)
Definition exm_is : list minstr :=
  [ MImm 2 3 5; MImm 3 6 5; MBin BMul 4 2 3; MBin BMul 5 4 0; MBin (BCmp (COrd false false false)) 6 5 1; MCmux 7 6 4 0; MShift SShl 8 2 1; MBin BXor 9 7 8; MShift SShr 10 9 2; MNot 11 4 ].
Definition exm_v (a b : list bool) : mvals := fun r => match r with
  | 0%nat => (false, {| v_width := 5; v_value := uval a; v_noise := 8 |}) | 1%nat => (false, {| v_width := 5; v_value := uval b; v_noise := 8 |}) | _ => (true, {| v_width := 32; v_value := 0; v_noise := 0 |}) end.
Definition exm_start (a b : list bool) : mstate := {| m_enc := exp_st a b; m_plain := fun r => match r with 0%nat | 1%nat => None | _ => Some (0, 32) end |}.
Lemma exm_holds a b : length a = 5%nat -> length b = 5%nat -> mholds exp_P exf_sk (exm_start a b) (exm_v a b).
Proof.
  intros La Lb. split.
  - intros [|[|r]]; cbn; [reflexivity|reflexivity|]. split; [reflexivity|]. lia.
  - exists (exq_v a b). split.
    + exists (a ++ b), (repeat 8 10). split; [rewrite repeat_length, app_length; lia|]. split.
      * do 6 (destruct a as [|? a]; try discriminate La). do 6 (destruct b as [|? b]; try discriminate Lb). cbn [exm_start m_enc exp_st p_store app nth seq map repeat combine].
        repeat (constructor; [cbn [fst snd]; split; [lia|apply exp_bit_ok]|]). constructor.
      * intros r. unfold exm_start, exp_st, exq_v. cbn [m_enc p_regs]. assert (Fr : forall k n, (k + n <= 10)%nat -> Forall (fun h => (h < length (a ++ b))%nat /\ nth h (repeat 8 10) 0 <= 8) (seq k n)).
        { intros k n Hk. apply Forall_forall. intros x Hx. apply in_seq in Hx. rewrite app_length. split; [lia|]. do 10 (destruct x as [|x]; [cbn; lia|]). lia. }
        destruct r as [|[|r]]; cbn [v_noise v_width v_value].
        -- split; [apply Fr; lia|]. split; [lia|]. split; [reflexivity|]. do 6 (destruct a as [|? a]; try discriminate La). reflexivity.
        -- split; [apply Fr; lia|]. split; [lia|]. split; [reflexivity|]. do 6 (destruct a as [|? a]; try discriminate La). do 6 (destruct b as [|? b]; try discriminate Lb). reflexivity.
        -- split; [constructor|]. split; [lia|]. split; reflexivity.
    + intros [|[|r]] Hr; try discriminate Hr; reflexivity.
Qed.
Definition exm_sel (a b : list bool) : Z := if b2z (Spec.rel false false ((18 * uval a) mod 2 ^ 5) (uval b)) =? 0 then uval a else 18.
Definition exm_out (a b : list bool) : Z := Z.lxor (exm_sel a b) ((3 * 2 ^ uval b) mod 2 ^ 5) / 2 ^ 3.
Example exm_program (m : mad_kernel) (a b : list bool) : length a = 5%nat -> length b = 5%nat ->
  exists fk pc ms', key_generate_fft f64_ext m ex_hw Release exp_P exf_sk exp_r = Ok fk /\ rproc_new f64_ext m ex_hw Release exp_P fk exf_s exf_s = Ok pc /\
  mrun f64_ext m Release pc shannon_lib (exm_start a b) exm_is ms' /\
  mreg_shows Release exp_P exf_sk ms' 4 true 5 18 /\ mreg_shows Release exp_P exf_sk ms' 11 true 5 13 /\ mreg_shows Release exp_P exf_sk ms' 10 false 5 (exm_out a b).
Proof.
  intros La Lb. destruct exp_params as (HP & HB & Hs). destruct C134_library as (L & LD).
  destruct (C135_program_end_to_end f64_ext m ex_hw Release exp_P exp_B ex_A exf_sk exp_r exf_s exf_s shannon_lib (fun n => n) exm_is (exm_v a b) HP HB exp_fft Hs exp_rnd
    (or_intror (or_intror (or_intror eq_refl))) (or_intror (or_intror (conj eq_refl eq_refl))) exp_scratch exp_scratch) as (fk & pc & Ek & Ep & K); [vm_compute; reflexivity|exact L|exact LD|auto| |].
  - cbn [exm_is mprog_ok minstr_ok mvals_step setm exm_v Nat.eqb v_width v_noise v_value fst snd andb binop_width width_ok rot_width_ok shift_value binop_value]. unfold width_ok.
    repeat (split; try exact I; try lia); try (intros; lia); try discriminate; try (vm_compute; reflexivity).
  - destruct (K (exm_start a b) (exm_holds a b La Lb)) as ((ms' & R) & Dc). exists fk, pc, ms'. split; [exact Ek|]. split; [exact Ep|]. split; [exact R|].
    pose proof (Dc ms' R 4%nat) as D4. pose proof (Dc ms' R 11%nat) as D11. pose proof (Dc ms' R 10%nat) as D10. clear - D4 D11 D10.
    unfold mvals_run in D4, D11, D10. cbn [fold_left exm_is mvals_step setm exm_v Nat.eqb v_width v_value v_noise fst snd andb binop_width binop_value shift_value] in D4, D11, D10.
    split; [apply D4; vm_compute; reflexivity|]. split; [apply D11; vm_compute; reflexivity|]. unfold exm_out, exm_sel. apply D10. vm_compute. reflexivity.
Qed.
(** ... and the plaintext registers after it are the same whatever the two ciphertexts hold. *)
Example exm_no_leak (m : mad_kernel) pc1 pc2 (a b a' b' : list bool) ms1 ms2 :
  mrun f64_ext m Release pc1 shannon_lib (exm_start a b) exm_is ms1 -> mrun f64_ext m Release pc2 shannon_lib (exm_start a' b') exm_is ms2 ->
  forall r, m_plain ms1 r = m_plain ms2 r.
Proof. intros R1 R2. exact (C136_no_leak _ _ _ _ _ _ _ _ _ _ _ _ _ _ R1 R2 (fun r => eq_refl)). Qed.
