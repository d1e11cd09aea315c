(** C137: encrypted addition with carry and subtraction with borrow in programs. *)
From Coq Require Import Reals ZArith List Lia Lra Bool Permutation.
From Coquelicot Require Import Complex.
From Verif Require Import Base BitsLemmas Spec Alu AluProofs SpecAlu Circuits Graph MuxGraph SpecMux SpecMuxOpt MuxGraphProofs2 FheGraph SpecFhe FheProofs FheProofs5 SpecFluent FluentLib
  PolyRing Tfhe TfheGlwe Fft FftGlwe Eval EvalFft SpecTfhe SpecGlwe SpecBoot SpecCbs SpecEval SpecFft SpecFftGlwe SpecFftCbs SpecEvalFft EvalProofs FftFloat FftBound
  TfheBootProofs EvalFftProofs EvalFftProofs2 EvalFftProofs3 EvalFftProofs4 Props_Boot Props_Fft Props_FftGlwe Props_FftCbs Props_EvalFft
  SpecPipe PipeProofs PipeProofs2 Pipe SpecPipe2 PipeProofs3 PipeProofs4 Props_Pipe Pipe2 SpecPipe3 PipeProofs6 Props_Pipe2 Pipe3 SpecPipe4 PipeProofs8 Props_Pipe3 Pipe5 SpecPipe6 PipeProofs10.
Import ListNotations.
Ltac Zify.zify_post_hook ::= idtac.
Open Scope Z_scope.

(** A program of any length, now with additions with carry and subtractions with borrow, whose static check passes runs to the end, and however it runs every
    register then holds what the instructions are documented to compute: the sum a + b + c (or the difference a - b - c) modulo 2^w, and the carry (the borrow)
    out of it, with noise within the bound that the analysis gives; those whose bound is below 2^62 decrypt. *)
Theorem C137_program X m h pr P B A sk pc lib D st v is s0 : params_ok P -> bounds_ok B -> fft_ok X h P B A -> secret_ok P sk -> rproc_ok X A P B sk h pr pc -> scratch_ok P s0 ->
  lib_ok lib -> lib_depth lib D -> (forall a b, (a <= b)%nat -> (D a <= D b)%nat) ->
  let sel := sel_noise P B (boot_noise P B) in
  xholds P sk st v -> zprog_ok (fun E => boot_margin P (E + switch_noise P B)) sel D v is ->
  (exists st', zrun X m pc lib st is st') /\
  forall st', zrun X m pc lib st is st' -> xholds P sk st' (zvals_run sel D v is) /\
    forall r, v_noise (zvals_run sel D v is r) < 2 ^ 62 -> reg_decrypts pr P sk st' r (v_width (zvals_run sel D v is r), v_value (zvals_run sel D v is r)).
Proof.
  intros HP HB Hok Hs Hp H0 L LD Dm sel Hx Pk. destruct (zrun_ok X m h pr P B A HP HB Hok sk Hs pc Hp lib L D Dm LD s0 H0 is st v Hx Pk) as (T & K). split; [exact T|].
  intros st' R. pose proof (K st' R) as Hx'. split; [exact Hx'|]. intros r Hr. exact (xholds_decrypts X m h pr P B A HP HB Hok sk Hs st' _ r Hx' Hr).
Qed.
Print Assumptions C137_program.

(** ... with the keys and the processor that the library makes. *)
Theorem C137_program_end_to_end X m h pr P B A sk r s0 s1 lib D is v : params_ok P -> bounds_ok B -> fft_ok X h P B A -> secret_ok P sk -> key_rnd_fft_ok P B r ->
  add_exact h pr 64 -> sub_exact h pr 64 -> scratch_ok P s0 -> scratch_ok P s1 -> boot_margin P 0 ->
  lib_ok lib -> lib_depth lib D -> (forall a b, (a <= b)%nat -> (D a <= D b)%nat) ->
  let sel := sel_noise P B (boot_noise P B) in
  zprog_ok (fun E => boot_margin P (E + switch_noise P B)) sel D v is ->
  exists fk pc, key_generate_fft X m h pr P sk r = Ok fk /\ rproc_new X m h pr P fk s0 s1 = Ok pc /\
  forall st, xholds P sk st v ->
    (exists st', zrun X m pc lib st is st') /\ forall st', zrun X m pc lib st is st' -> forall x, v_noise (zvals_run sel D v is x) < 2 ^ 62 ->
      reg_decrypts pr P sk st' x (v_width (zvals_run sel D v is x), v_value (zvals_run sel D v is x)).
Proof.
  intros HP HB Hok Hs Hr Ha Hsb H0 H1 Hm L LD Dm sel Pk.
  destruct (C110_setup_fft X m h pr P B A sk r s0 s1 HP HB Hok Hs Hr Ha Hsb H0 H1 Hm) as (fk & pc & Ek & Ep & Hp). exists fk, pc. split; [exact Ek|]. split; [exact Ep|].
  intros st Hx. destruct (C137_program X m h pr P B A sk pc lib D st v is s0 HP HB Hok Hs Hp H0 L LD Dm Hx Pk) as (T & K). split; [exact T|]. intros st' R x Hx'. exact (proj2 (K st' R) x Hx').
Qed.
Print Assumptions C137_program_end_to_end.


(** Limbs: two instructions, the carry of the first given to the second, add (or subtract) numbers of twice the width, with the carry (the borrow) out of them. *)
Lemma carry_split (sub : bool) w a b c : 0 < 2 ^ w -> 0 <= a < 2 ^ w -> 0 <= b < 2 ^ w -> 0 <= c <= 1 ->
  0 <= carry_value sub w a b c < 2 ^ w /\ 0 <= carry_bit sub w a b c <= 1 /\
  carry_value sub w a b c = (if sub then a - b - c + 2 ^ w * carry_bit sub w a b c else a + b + c - 2 ^ w * carry_bit sub w a b c).
Proof.
  unfold carry_value, carry_bit. generalize (2 ^ w). intros W HW Ha Hb Hc. split; [apply Z.mod_pos_bound; lia|]. destruct sub.
  - destruct (Z.ltb_spec a (b + c)); cbn [b2z]; (split; [lia|]); symmetry; [apply (Z.mod_unique_pos _ _ (-1))|apply (Z.mod_unique_pos _ _ 0)]; lia.
  - destruct (Z.leb_spec W (a + b + c)); cbn [b2z]; (split; [lia|]); symmetry; [apply (Z.mod_unique_pos _ _ 1)|apply (Z.mod_unique_pos _ _ 0)]; lia.
Qed.
Lemma carry_unique (sub : bool) w a b c x k : 0 < 2 ^ w -> 0 <= a < 2 ^ w -> 0 <= b < 2 ^ w -> 0 <= c <= 1 -> 0 <= x < 2 ^ w -> 0 <= k <= 1 ->
  x = (if sub then a - b - c + 2 ^ w * k else a + b + c - 2 ^ w * k) -> x = carry_value sub w a b c /\ k = carry_bit sub w a b c.
Proof.
  intros HW Ha Hb Hc Hx Hk E. destruct (carry_split sub w a b c HW Ha Hb Hc) as (Y & K & V). revert HW Ha Hb Hx E Y K V. generalize (carry_value sub w a b c) (carry_bit sub w a b c) (2 ^ w).
  intros y j W HW Ha Hb Hx E Y K V. clear w. assert (D : (k = 0 \/ k = 1) /\ (j = 0 \/ j = 1)) by lia. destruct D as ([->| ->] & [->| ->]); destruct sub; lia.
Qed.
Theorem C137_two_limbs sel D v w sub lo mid hi co a0 a1 b0 b1 c : 0 <= w -> NoDup [lo; mid; hi; co] -> ~ In a1 [lo; mid] -> ~ In b1 [lo; mid] ->
  (forall r, In r [a0; a1; b0; b1] -> v_width (v r) = w /\ 0 <= v_value (v r) < 2 ^ w) -> 0 <= v_value (v c) <= 1 ->
  let v' := zvals_run sel D v [ZCarry sub lo mid a0 b0 c; ZCarry sub hi co a1 b1 mid] in
  let A := v_value (v a0) + 2 ^ w * v_value (v a1) in let B := v_value (v b0) + 2 ^ w * v_value (v b1) in
  v_width (v' lo) = w /\ v_width (v' hi) = w /\ v_width (v' co) = 1 /\
  v_value (v' lo) + 2 ^ w * v_value (v' hi) = carry_value sub (2 * w) A B (v_value (v c)) /\ v_value (v' co) = carry_bit sub (2 * w) A B (v_value (v c)).
Proof.
  intros Hw Nd Na Nb Hr Hc. cbn [In] in *. apply NoDup_cons_iff in Nd as (N1 & Nd). apply NoDup_cons_iff in Nd as (N2 & Nd). apply NoDup_cons_iff in Nd as (N3 & _). cbn [In] in *.
  destruct (Hr a0 ltac:(tauto)) as (Wa0 & Ra0). destruct (Hr a1 ltac:(tauto)) as (Wa1 & Ra1). destruct (Hr b0 ltac:(tauto)) as (Wb0 & Rb0). destruct (Hr b1 ltac:(tauto)) as (Wb1 & Rb1).
  cbv zeta. unfold zvals_run. cbn [fold_left zvals_step]. unfold setv. rewrite Nat.eqb_refl.
  assert (E : forall x y, x <> y -> (x =? y)%nat = false) by (intros x y; apply Nat.eqb_neq).
  rewrite (E a1 mid), (E a1 lo), (E b1 mid), (E b1 lo), (E lo co), (E lo hi), (E lo mid), (E hi co) by (intros ->; tauto). rewrite !Nat.eqb_refl. cbn [v_width v_value]. rewrite Wa0, Wa1.
  split; [reflexivity|]. split; [reflexivity|]. split; [reflexivity|].
  assert (HW : 0 < 2 ^ w) by (apply Z.pow_pos_nonneg; lia). assert (E2 : 2 ^ (2 * w) = 2 ^ w * 2 ^ w) by (rewrite <- Z.pow_add_r by lia; f_equal; lia).
  destruct (carry_split sub w (v_value (v a0)) (v_value (v b0)) (v_value (v c)) HW Ra0 Rb0 Hc) as (X0 & K0 & V0).
  destruct (carry_split sub w (v_value (v a1)) (v_value (v b1)) _ HW Ra1 Rb1 K0) as (X1 & K1 & V1).
  apply carry_unique; try assumption; rewrite ?E2.
  all: clear - HW Ra0 Ra1 Rb0 Rb1 Hc X0 K0 V0 X1 K1 V1; revert X0 K0 V0 X1 K1 V1.
  all: generalize (carry_value sub w (v_value (v a0)) (v_value (v b0)) (v_value (v c))) (carry_bit sub w (v_value (v a0)) (v_value (v b0)) (v_value (v c))); intros x0 k0 X0 K0 V0.
  all: generalize (carry_value sub w (v_value (v a1)) (v_value (v b1)) k0) (carry_bit sub w (v_value (v a1)) (v_value (v b1)) k0); intros x1 k1 X1 K1 V1.
  all: revert HW Ra0 Ra1 Rb0 Rb1 X0 V0 X1 V1; generalize (2 ^ w) (v_value (v a0)) (v_value (v a1)) (v_value (v b0)) (v_value (v b1)); intros W p q r s HW Ra0 Ra1 Rb0 Rb1 X0 V0 X1 V1.
  all: try nia; destruct sub; subst x0 x1; ring.
Qed.
Print Assumptions C137_two_limbs.

(** ... and so does a chain of any length: limbs (dst, co, a, b), lowest first, each with the carry of the one before it. *)
Definition limb := (nat * nat * nat * nat)%type.
Definition limb_outs (l : list limb) : list nat := flat_map (fun '(dst, co, _, _) => [dst; co]) l.
Definition limb_ins (l : list limb) : list nat := flat_map (fun '(_, _, a, b) => [a; b]) l.
Fixpoint limb_prog (sub : bool) (c : nat) (l : list limb) : list zinstr :=
  match l with [] => [] | (dst, co, a, b) :: l => ZCarry sub dst co a b c :: limb_prog sub co l end.
Fixpoint last_carry (c : nat) (l : list limb) : nat := match l with [] => c | (_, co, _, _) :: l => last_carry co l end.
(** The number whose limbs, lowest first, are in these registers. *)
Fixpoint number (w : Z) (v : xvals) (rs : list nat) : Z := match rs with [] => 0 | r :: rs => v_value (v r) + 2 ^ w * number w v rs end.
Lemma number_ext w v1 v2 rs : (forall r, In r rs -> v_value (v1 r) = v_value (v2 r)) -> number w v1 rs = number w v2 rs.
Proof. induction rs as [|r rs IH]; intros E; cbn [number]; [reflexivity|]. rewrite (E r) by now left. rewrite IH; [reflexivity|]. intros q Hq. apply E. now right. Qed.
Lemma limb_range W Q x y : 0 <= x < W -> 0 <= y < Q -> 0 <= x + W * y < W * Q.
Proof. nia. Qed.
Lemma number_bound w v rs : 0 <= w -> (forall r, In r rs -> 0 <= v_value (v r) < 2 ^ w) -> 0 <= number w v rs < 2 ^ (Z.of_nat (length rs) * w).
Proof.
  intros Hw. induction rs as [|r rs IH]; intros F; [cbn; lia|]. cbn [number length]. specialize (IH (fun q Hq => F q (or_intror Hq))). pose proof (F r (or_introl eq_refl)) as Fr.
  replace (Z.of_nat (S (length rs)) * w) with (w + Z.of_nat (length rs) * w) by lia. rewrite Z.pow_add_r by lia.
  revert Fr IH. generalize (2 ^ w) (2 ^ (Z.of_nat (length rs) * w)) (v_value (v r)) (number w v rs). clear. intros W Q x y Fr IH. nia.
Qed.
Lemma limb_frame sel D sub : forall l c v r, ~ In r (limb_outs l) -> zvals_run sel D v (limb_prog sub c l) r = v r.
Proof.
  induction l as [|(((dst, co), a), b) l IH]; intros c v r Hr; [reflexivity|]. cbn [limb_outs flat_map app In] in Hr. cbn [limb_prog]. change (zvals_run sel D v (ZCarry sub dst co a b c :: limb_prog sub co l)) with
    (zvals_run sel D (zvals_step sel D v (ZCarry sub dst co a b c)) (limb_prog sub co l)). rewrite IH by (unfold limb_outs; tauto). cbn [zvals_step]. unfold setv.
  destruct (Nat.eqb_spec r co); [subst; tauto|]. destruct (Nat.eqb_spec r dst); [subst; tauto|]. reflexivity.
Qed.
Theorem C137_limbs sel D w sub : 0 <= w -> forall l c v, NoDup (limb_outs l) -> (forall r, In r (limb_ins l) -> ~ In r (limb_outs l)) ->
  (forall r, In r (limb_ins l) -> v_width (v r) = w /\ 0 <= v_value (v r) < 2 ^ w) -> 0 <= v_value (v c) <= 1 ->
  let v' := zvals_run sel D v (limb_prog sub c l) in
  let dsts := map (fun '(dst, _, _, _) => dst) l in let A := number w v (map (fun '(_, _, a, _) => a) l) in let B := number w v (map (fun '(_, _, _, b) => b) l) in
  number w v' dsts = carry_value sub (Z.of_nat (length l) * w) A B (v_value (v c)) /\
  v_value (v' (last_carry c l)) = carry_bit sub (Z.of_nat (length l) * w) A B (v_value (v c)).
Proof.
  intros Hw. induction l as [|(((dst, co), a), b) l IH]; intros c v Nd Sep Hr Hc.
  - cbn [limb_prog map length number last_carry]. unfold zvals_run. cbn [fold_left]. change (Z.of_nat 0 * w) with 0. apply carry_unique; try (change (2 ^ 0) with 1; lia). change (2 ^ 0) with 1. destruct sub; lia.
  - cbv zeta. cbn [limb_prog last_carry]. change (zvals_run sel D v (ZCarry sub dst co a b c :: limb_prog sub co l)) with (zvals_run sel D (zvals_step sel D v (ZCarry sub dst co a b c)) (limb_prog sub co l)).
    set (v1 := zvals_step sel D v (ZCarry sub dst co a b c)).
    cbn [limb_outs limb_ins flat_map app] in Nd, Sep, Hr. change (flat_map _ l) with (limb_outs l) in Nd. 
    apply NoDup_cons_iff in Nd as (N1 & Nd). apply NoDup_cons_iff in Nd as (N2 & Nd). cbn [In] in N1.
    assert (K : forall r, In r (limb_ins l) -> v1 r = v r /\ ~ In r (limb_outs l)).
    { intros r Hi. specialize (Sep r (or_intror (or_intror Hi))). cbn [In] in Sep. split; [|unfold limb_outs; tauto]. unfold v1. cbn [zvals_step]. unfold setv.
      destruct (Nat.eqb_spec r co); [subst; tauto|]. destruct (Nat.eqb_spec r dst); [subst; tauto|]. reflexivity. }
    destruct (Hr a (or_introl eq_refl)) as (Wa & Ra). destruct (Hr b (or_intror (or_introl eq_refl))) as (Wb & Rb).
    assert (HW : 0 < 2 ^ w) by (apply Z.pow_pos_nonneg; lia).
    destruct (carry_split sub w (v_value (v a)) (v_value (v b)) (v_value (v c)) HW Ra Rb Hc) as (X0 & K0 & V0).
    assert (Vd : v_value (v1 dst) = carry_value sub w (v_value (v a)) (v_value (v b)) (v_value (v c))).
    { unfold v1. cbn [zvals_step]. unfold setv. destruct (Nat.eqb_spec dst co); [subst; tauto|]. rewrite Nat.eqb_refl. cbn [v_value]. now rewrite Wa. }
    assert (Vc : v_value (v1 co) = carry_bit sub w (v_value (v a)) (v_value (v b)) (v_value (v c))).
    { unfold v1. cbn [zvals_step]. unfold setv. rewrite Nat.eqb_refl. cbn [v_value]. now rewrite Wa. }
    destruct (IH co v1 Nd (fun r Hi => proj2 (K r Hi))) as (E1 & E2).
    { intros r Hi. rewrite (proj1 (K r Hi)). apply Hr. right. now right. }
    { rewrite Vc. exact K0. }
    cbn [map number length]. rewrite limb_frame by tauto. rewrite E1, E2, Vd, Vc.
    assert (Ia : forall r, In r (map (fun '(_, _, a0, _) => a0) l) -> In r (limb_ins l)).
    { intros r Hi. apply in_map_iff in Hi as ((((d0, c0), a0), b0) & <- & Hl). apply in_flat_map. exists (d0, c0, a0, b0). split; [exact Hl|]. now left. }
    assert (Ib : forall r, In r (map (fun '(_, _, _, b0) => b0) l) -> In r (limb_ins l)).
    { intros r Hi. apply in_map_iff in Hi as ((((d0, c0), a0), b0) & <- & Hl). apply in_flat_map. exists (d0, c0, a0, b0). split; [exact Hl|]. right. now left. }
    rewrite (number_ext w v1 v (map (fun '(_, _, a0, _) => a0) l)) by (intros r Hi; now rewrite (proj1 (K r (Ia r Hi)))).
    rewrite (number_ext w v1 v (map (fun '(_, _, _, b0) => b0) l)) by (intros r Hi; now rewrite (proj1 (K r (Ib r Hi)))).
    pose proof (number_bound w v (map (fun '(_, _, a0, _) => a0) l) Hw (fun r Hi => proj2 (Hr r (or_intror (or_intror (Ia r Hi)))))) as R1.
    pose proof (number_bound w v (map (fun '(_, _, _, b0) => b0) l) Hw (fun r Hi => proj2 (Hr r (or_intror (or_intror (Ib r Hi)))))) as R2.
    rewrite map_length in R1, R2. assert (En : exists n, n = Z.of_nat (length l) * w) by eauto. destruct En as (n & En).
    match type of R1 with 0 <= ?x < _ => assert (R1' : 0 <= x < 2 ^ n) by (rewrite En; exact R1) end. match type of R2 with 0 <= ?x < _ => assert (R2' : 0 <= x < 2 ^ n) by (rewrite En; exact R2) end.
    clear R1 R2. rename R1' into R1, R2' into R2. rewrite <- En.
    assert (HQ : 0 < 2 ^ n) by (apply Z.pow_pos_nonneg; lia).
    destruct (carry_split sub n _ _ _ HQ R1 R2 K0) as (X1 & K1 & V1).
    replace (Z.of_nat (S (length l)) * w) with (w + n) by lia. assert (EQ : 2 ^ (w + n) = 2 ^ w * 2 ^ n) by (apply Z.pow_add_r; lia).
    clear - HW HQ EQ Ra Rb Hc X0 K0 V0 R1 R2 X1 K1 V1.
    apply carry_unique; try assumption; rewrite ?EQ; clear EQ; revert X0 K0 V0 X1 K1 V1.
    all: generalize (carry_value sub w (v_value (v a)) (v_value (v b)) (v_value (v c))) (carry_bit sub w (v_value (v a)) (v_value (v b)) (v_value (v c))); intros x0 k0 X0 K0 V0.
    all: revert R1 R2; generalize (number w v (map (fun '(_, _, a0, _) => a0) l)) (number w v (map (fun '(_, _, _, b0) => b0) l)); intros q s R1 R2.
    all: generalize (carry_value sub n q s k0) (carry_bit sub n q s k0); intros x1 k1 X1 K1 V1.
    all: revert HW HQ Ra Rb R1 R2 X0 V0 X1 V1; generalize (2 ^ w) (2 ^ n) (v_value (v a)) (v_value (v b)); intros W Q p r HW HQ Ra Rb R1 R2 X0 V0 X1 V1.
    1: now apply Z.mul_pos_pos.
    1, 2, 3: now apply limb_range.
    destruct sub; subst x0 x1; ring.
Qed.
Print Assumptions C137_limbs.
(** The premises are met by three limbs in registers 0 to 5, results and carries in 10 to 15. *)
Example C137_limbs_case : let l := [(10, 11, 0, 3); (12, 13, 1, 4); (14, 15, 2, 5)]%nat in
  NoDup (limb_outs l) /\ (forall r, In r (limb_ins l) -> ~ In r (limb_outs l)) /\ limb_prog true 6 l = [ZCarry true 10 11 0 3 6; ZCarry true 12 13 1 4 11; ZCarry true 14 15 2 5 13].
Proof.
  cbn. split; [repeat constructor; cbn; lia|]. split; [|reflexivity]. intros r H. lia.
Qed.

(** ** A concrete case: five-bit registers, in double precision: the lowest bit of a as carry into a + b, the carry of that as borrow into the sum minus b. *)
Definition exz_is : list zinstr := [ ZY (YX (XTrunc 6 0 1)); ZCarry false 2 3 0 1 6; ZCarry true 4 5 2 1 3 ].
Definition exz_sum (a b : list bool) : Z := carry_value false 5 (uval a) (uval b) (uval a mod 2).
Definition exz_carry (a b : list bool) : Z := carry_bit false 5 (uval a) (uval b) (uval a mod 2).
Definition exz_out (a b : list bool) : Z := carry_value true 5 (exz_sum a b) (uval b) (exz_carry a b).
Definition exz_borrow (a b : list bool) : Z := carry_bit true 5 (exz_sum a b) (uval b) (exz_carry a b).
Example exz_program (m : mad_kernel) (a b : list bool) : length a = 5%nat -> length b = 5%nat ->
  exists fk pc st', key_generate_fft f64_ext m ex_hw Release exp_P exf_sk exp_r = Ok fk /\ rproc_new f64_ext m ex_hw Release exp_P fk exf_s exf_s = Ok pc /\
  zrun f64_ext m pc shannon_lib (exp_st a b) exz_is st' /\ reg_decrypts Release exp_P exf_sk st' 4 (5, exz_out a b) /\ reg_decrypts Release exp_P exf_sk st' 5 (1, exz_borrow a b).
Proof.
  intros La Lb. destruct exp_params as (HP & HB & Hs). destruct C134_library as (L & LD).
  destruct (C137_program_end_to_end f64_ext m ex_hw Release exp_P exp_B ex_A exf_sk exp_r exf_s exf_s shannon_lib (fun n => n) exz_is (exq_v a b) HP HB exp_fft Hs exp_rnd
    (or_intror (or_intror (or_intror eq_refl))) (or_intror (or_intror (conj eq_refl eq_refl))) exp_scratch exp_scratch) as (fk & pc & Ek & Ep & K); [vm_compute; reflexivity|exact L|exact LD|auto| |].
  - cbn [exz_is zprog_ok zinstr_ok zvals_step yinstr_ok yvals_step xinstr_ok xvals_step setv exq_v pi_op pi_dst pi_a pi_b Nat.eqb v_width v_noise binop_width width_ok]. unfold width_ok.
    repeat (split; try exact I; try lia); try (intros; lia); vm_compute; reflexivity.
  - destruct (K (exp_st a b)) as ((st' & R) & Dc).
    + exists (a ++ b), (repeat 8 10). split; [rewrite repeat_length, app_length; lia|]. split.
      * do 6 (destruct a as [|? a]; try discriminate La). do 6 (destruct b as [|? b]; try discriminate Lb). cbn [exp_st p_store app nth seq map repeat combine].
        repeat (constructor; [cbn [fst snd]; split; [lia|apply exp_bit_ok]|]). constructor.
      * intros r. unfold exp_st, exq_v. cbn [p_regs]. assert (Fr : forall k n, (k + n <= 10)%nat -> Forall (fun h => (h < length (a ++ b))%nat /\ nth h (repeat 8 10) 0 <= 8) (seq k n)).
        { intros k n Hk. apply Forall_forall. intros x Hx. apply in_seq in Hx. rewrite app_length. split; [lia|]. do 10 (destruct x as [|x]; [cbn; lia|]). lia. }
        destruct r as [|[|r]]; cbn [v_noise v_width v_value].
        -- split; [apply Fr; lia|]. split; [lia|]. split; [reflexivity|]. do 6 (destruct a as [|? a]; try discriminate La). reflexivity.
        -- split; [apply Fr; lia|]. split; [lia|]. split; [reflexivity|]. do 6 (destruct a as [|? a]; try discriminate La). do 6 (destruct b as [|? b]; try discriminate Lb). reflexivity.
        -- split; [constructor|]. split; [lia|]. split; reflexivity.
    + exists fk, pc, st'. split; [exact Ek|]. split; [exact Ep|]. split; [exact R|].
      pose proof (Dc st' R 4%nat) as D4. pose proof (Dc st' R 5%nat) as D5. clear - D4 D5.
      unfold zvals_run in D4, D5. cbn [fold_left exz_is zvals_step yvals_step xvals_step setv exq_v Nat.eqb v_width v_value v_noise] in D4, D5.
      unfold exz_out, exz_borrow, exz_sum, exz_carry. split; [apply D4|apply D5]; vm_compute; reflexivity.
Qed.
