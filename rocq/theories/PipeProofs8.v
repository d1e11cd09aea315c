(** Proofs: encrypted programs with multiplication. *)
From Coq Require Import Reals ZArith List Lia Lra Bool Permutation.
From Coquelicot Require Import Complex.
From Verif Require Import Base BitsLemmas Spec Alu AluProofs AluProofs2 SpecAlu Circuits Graph MuxGraph SpecMux MuxGraphProofs FheGraph SpecFhe FheProofs FheProofs2 FheProofs3 FheProofs4 FheProofs5 Fluent SpecFluent FluentProofs FluentProofs3 FluentProofs5 FluentMul FluentMul2 FluentMul3 MulRecProofs
  PolyRing Tfhe TfheGlwe Eval EvalFft SpecTfhe SpecGlwe SpecBoot SpecCbs SpecEval SpecFftCbs SpecEvalFft TfheProofs EvalProofs EvalFftProofs EvalFftProofs2 EvalFftProofs3 EvalFftProofs4
  SpecPipe PipeProofs PipeProofs2 Pipe SpecPipe2 PipeProofs3 PipeProofs4 Pipe2 SpecPipe3 PipeProofs5 PipeProofs6 Pipe3 SpecPipe4 PipeProofs7.
Import ListNotations.
Ltac Zify.zify_post_hook ::= idtac.
Open Scope Z_scope.

Lemma widths_small n : (1 <= n <= 128)%nat -> ~ (n = 33 \/ 65 <= n <= 67)%nat -> mul_ok (S (n + n)) n n = true.
Proof.
  intros Hn Hb. destruct (mul_ok_char n) as [H _]. apply H; [lia|lia|]. intros (d & H1 & H2).
  destruct d as [|[|[|[|d]]]]; [lia|cbn in H2; lia|cbn in H2; lia|cbn in H2; lia|]. assert (16 <= 2 ^ S (S (S (S d))))%nat by (cbn; pose proof (Nat.pow_nonzero 2 d); lia). nia.
Qed.

(** The number of inputs of the multiplication circuits. *)
Definition mul_arity (n : nat) : nat := if (n <=? 16)%nat then (2 * n)%nat else (4 * n)%nat.
Section P.
Context (X : ext) (m : mad_kernel) (h : hw) (pr : profile) (P : params) (B : bounds) (A : accuracy).
Context (HP : params_ok P) (HB : bounds_ok B) (Hok : fft_ok X h P B A) (sk : secret_key) (Hs : secret_ok P sk).
Context (pc : rproc) (Hpc : rproc_ok X A P B sk h pr pc).
Context (lib : mux_library) (L : lib_ok lib) (D : nat -> nat) (Dmono : forall a b, (a <= b)%nat -> (D a <= D b)%nat) (LD : lib_depth lib D).
Local Notation N := (p_N P).
Local Notation sel := (sel_noise P B (boot_noise P B)).
Let HN : (1 <= N)%nat := Npos P B HP 0 0.

(** The operands, in GGSW form, hold the bits of their handles. *)
Lemma connected_holds bits refs g g' hs : (forall x r, nth_error refs x = Some r -> exists q, nth_error hs x = Some q /\ forall deg cells, (0 < deg)%nat -> cells_typed cells -> carries deg cells g q (CGgsw1 (bit_of (cells TGlwe1 r)))) ->
  length hs = length refs -> grows g g' -> holds N (msgs P bits) g' TGgsw1 hs (bits_of bits refs).
Proof.
  intros V Lh G. assert (Mt : cells_typed (msgs P bits)) by (intros t r; destruct t; reflexivity).
  assert (V' : forall x r, nth_error refs x = Some r -> exists q, nth_error hs x = Some q /\ carries N (msgs P bits) g' q (CGgsw1 (nth r bits false))).
  { intros x r Hr. destruct (V x r Hr) as (q & Hq & Vq). exists q. split; [exact Hq|]. eapply grows_carries; [exact G|]. specialize (Vq N (msgs P bits) HN Mt). cbn [msgs bit_of] in Vq.
    pose proof HN as Np. clear - Np Vq. unfold FheGraph.pconst in Vq. destruct N as [|N']; [lia|]. exact Vq. }
  clear - V' Lh. revert hs Lh V'. induction refs as [|r refs IH]; intros [|q hs] Lh V'; try discriminate; constructor.
  - destruct (V' 0%nat r eq_refl) as (q' & Hq & Vq). injection Hq as <-. exact Vq.
  - apply IH; [now injection Lh|]. intros x r' Hr. exact (V' (S x) r' Hr).
Qed.
Lemma mul_promises bits noise base order ha hb E0 : (forall l, Permutation l (order l)) -> length ha = length hb -> (1 <= length ha <= 128)%nat -> ~ (length ha = 33 \/ 65 <= length ha <= 67)%nat ->
  (forall r, In r ha \/ In r hb -> nth r noise 0 <= E0) -> boot_margin P (E0 + switch_noise P B) ->
  ((16 < length ha)%nat -> boot_margin P (Z.of_nat (D (mul_arity (length ha))) * sel + switch_noise P B)) ->
  exists g outs, mul_graph lib order ha hb base = Ok (g, outs) /\ promises P B bits noise base g outs (to_bits (length ha) (uval (bits_of bits ha) * uval (bits_of bits hb))) (Z.of_nat (D (mul_arity (length ha))) * sel).
Proof.
  intros HO Lab Hw Hw' Hc Hm Hm'. destruct (empty_noise P B noise) as (EN & N0). unfold mul_graph.
  destruct (connect_all_ok ha gempty [] EN) as (g1 & as_ & Q1 & G1 & L1 & K1 & V1).
  destruct (connect_all_noise P B (cellN P B noise) E0 HN Hm ha gempty [] (fun _ => 0) ltac:(intros r Hr; cbn [cellN]; apply Hc; now left) EN N0) as (g1' & as' & E1 & Q1' & _ & _ & B1 & N1 & _).
  unfold fgraph in *. rewrite Q1 in Q1'. injection Q1' as <- <-. rewrite Q1. cbn [bind app].
  destruct (connect_all_ok hb g1 [] (proj1 G1)) as (g2 & bs_ & Q2 & G2 & L2 & K2 & V2).
  destruct (connect_all_noise P B (cellN P B noise) E0 HN Hm hb g1 [] E1 ltac:(intros r Hr; cbn [cellN]; apply Hc; now right) (proj1 G1) N1) as (g2' & bs' & E2 & Q2' & _ & _ & B2 & N2 & O2).
  unfold fgraph in *. rewrite Q2 in Q2'. injection Q2' as <- <-. rewrite Q2. cbn [bind app].
  assert (Lq : length as_ = length bs_) by congruence. rewrite Lq, Nat.eqb_refl. cbn [negb]. 
  assert (Ba : boots_at P B g2 E2 as_). { apply (boots_step P B g1 E1); [split; [exact G2|exact O2]|exact B1]. }
  assert (Bb : boots_at P B g2 E2 bs_) by exact B2.
  pose proof (gappend_uint_ok lib L MGlwe as_ bs_ g2 (proj1 G2) (boots_handles P B _ _ _ Ba) (boots_handles P B _ _ _ Bb)) as Q. rewrite <- Lq, L1, widths_small in Q by assumption.
  destruct Q as (g3 & lo & hi & E3 & G3 & H3 & Llo & Lhi & V3). rewrite E3. cbn [bind fst].
  (* the noise of the product *)
  assert (Nm : exists e3, step_to g2 E2 g3 e3 /\ good P B (cellN P B noise) g3 e3 /\ low (Z.of_nat (D (mul_arity (length ha))) * sel) g3 e3 lo).
  { unfold gappend_uint in E3. destruct (gmul_impl lib _ MGlwe as_ bs_ g2) as [[g3' p]| |] eqn:Em; [|discriminate|discriminate]. cbn [bind] in E3. destruct (_ <=? _)%nat; [|discriminate]. injection E3 as -> <- _.
    destruct (gmul_noise P B (cellN P B noise) HB HN lib L D Dmono LD (mul_arity (length ha)) (S (length as_ + length bs_)) as_ bs_ g2 E2 g3 p ltac:(lia) ltac:(unfold mul_arity; destruct (Nat.leb_spec (length ha) 16); lia) ltac:(unfold mul_arity; destruct (Nat.leb_spec (length ha) 16); lia) (conj (proj1 G2) N2) Ba Bb) as (e3 & S3 & K3 & R3); [|exact Em|].
    - intros Q. apply Hm'. lia.
    - exists e3. split; [exact S3|]. split; [exact K3|]. exact (low_incl _ _ _ _ _ R3 (incl_firstn _ _)). }
  destruct Nm as (e3 & S3 & (EN3 & N3) & R3). set (M := Z.of_nat (D (mul_arity (length ha))) * sel) in *.
  assert (Hp : forall x r, In (x, r) (combine lo (seq base (length lo))) -> contains g3 x = true /\ e3 x <= M) by (intros x r Hi; apply in_combine_l in Hi; exact (R3 x Hi)).
  destruct (emit_ok (combine lo (seq base (length lo))) g3 [] EN3 ltac:(intros x r Hi; exact (proj1 (Hp x r Hi)))) as (g4 & os & Q4 & G4 & L4 & V4).
  destruct (emit_noise P B (cellN P B noise) HN M (combine lo (seq base (length lo))) g3 [] e3 EN3 N3 Hp) as (g4' & os' & e4 & Q4' & N4 & _ & _ & _ & F4).
  unfold fgraph in *. rewrite Q4 in Q4'. injection Q4' as <- <-. rewrite Q4. cbn [bind app]. rewrite combine_length, seq_length, Nat.min_id in L4.
  (* the values of the product *)
  pose proof (connected_holds bits ha g1 g2 as_ V1 L1 G2) as Wa. pose proof (connected_holds bits hb g2 g2 bs_ V2 L2 (grows_refl _ (proj1 G2))) as Wb.
  specialize (V3 N (msgs P bits) _ _ HN (or_introl eq_refl) Wa Wb). cbn [mode_ty] in V3. set (xy := uval (bits_of bits ha) * uval (bits_of bits hb)) in *.
  assert (Vlo : holds N (msgs P bits) g3 TGlwe1 lo (to_bits (length ha) xy)).
  { apply (holds_firstn _ _ _ _ (length ha)) in V3. rewrite firstn_app, firstn_all2, Llo, Nat.sub_diag, app_nil_r in V3 by lia. now rewrite firstn_to_bits in V3 by lia. }
  assert (Vo : forall j o, nth_error os j = Some o -> fvalue N (msgs P bits) g4 o (None, Some (TGlwe1, (base + j)%nat, CGlwe1 (FheGraph.pconst N (nth j (to_bits (length ha) xy) false))))).
  { intros j o Ho. assert (Hj : (j < length lo)%nat) by (rewrite <- L4; apply nth_error_Some; congruence).
    destruct (nth_error lo j) as [x|] eqn:Hx; [|apply nth_error_None in Hx; lia].
    assert (Hcmb : nth_error (combine lo (seq base (length lo))) j = Some (x, (base + j)%nat)).
    { clear - Hx. revert base j Hx. induction lo as [|y lo IH]; intros base [|j] Hx; try discriminate; cbn [length seq combine nth_error] in *; [injection Hx as ->; now rewrite Nat.add_0_r|]. rewrite (IH (S base) j Hx). now replace (S base + j)%nat with (base + S j)%nat by lia. }
    destruct (V4 j x (base + j)%nat Hcmb) as (o' & Ho' & Fv). rewrite Ho in Ho'. injection Ho' as <-. apply Fv.
    clear - Vlo Hx. unfold holds in Vlo. revert j Hx. induction Vlo as [|y b lo l Hy _ IH]; intros [|j] Hx; try discriminate; cbn [nth_error nth] in *; [injection Hx as <-; exact Hy|eauto]. }
  assert (Hv : forall r, In r os -> exists o, fvalue N (msgs P bits) g4 r o) by (intros r Hr; apply In_nth_error in Hr as (j & Hj); eexists; eapply Vo; eassumption).
  assert (RC : forall r, In r os -> contains g4 r = true) by (intros r Hr; destruct (Hv r Hr) as (o & Fv); inversion Fv as [n op ins o' Hn]; subst; unfold contains; now rewrite Hn).
  destruct (prune_ok g4 os (proj1 G4) RC order HO) as (out & ren & EP & _ & Ar & _ & _ & _). rewrite EP. cbn [bind].
  destruct (prune_noise P B (cellN P B noise) N (msgs P bits) g4 os order out ren e4 (proj1 G4) RC HO Hv N4 EP) as (N5 & Pl).
  destruct (lookup_all ren os []) as (ns & EL & F). { intros x Hx. apply Ar, anc_root, Hx. }
  match goal with |- context [foldM ?f ?l ?h] => replace (foldM f l h) with (@Ok (list nat) ns) by (symmetry; exact EL) end. cbn [bind].
  exists out, ns. split; [reflexivity|]. exists (pull e4 ren). split; [exact N5|].
  assert (Lns : length ns = length os) by (clear - F; induction F; cbn; congruence). split; [rewrite Lns, L4, Llo, to_bits_length; reflexivity|].
  intros j o Ho. assert (Hj : exists n, nth_error os j = Some n /\ alookup ren n = Some o).
  { clear - F Ho. revert j Ho. induction F as [|n y os ns Hn _ IH]; intros [|j] Ho; try discriminate; cbn [nth_error] in *; [injection Ho as <-; eauto|eauto]. }
  destruct Hj as (n & Hn & Hr). split.
  - rewrite (Pl n o Hr). exact (proj1 (Forall_forall _ _) F4 n (nth_error_In _ _ Hn)).
  - apply (prune_values g4 os (proj1 G4) RC order out ren HO EP n o Hr N (msgs P bits)). now apply Vo.
Qed.

(** ** One instruction, and a program *)
Let boots (E : Z) : Prop := boot_margin P (E + switch_noise P B).
Lemma ystep_ok s0 st v i : scratch_ok P s0 -> xholds P sk st v -> yinstr_ok boots sel D v i ->
  (exists st', ystep X m pc lib st i st') /\ forall st', ystep X m pc lib st i st' -> xholds P sk st' (yvals_step sel D v i).
Proof.
  intros H0 Hx Hi. destruct i as [i|dst a b].
  - destruct (xstep_ok X m h pr P B A HP HB Hok sk Hs pc Hpc s0 st v i H0 Hx Hi) as ((st' & S1) & K). split; [exists st'; now constructor|]. intros st2 S2. inversion S2; subst. now apply K.
  - destruct Hx as (bits & noise & Ln & F & R). pose proof (conj Ln F : storeN P sk (p_store st) bits noise) as S0. pose proof (storeN_length P B HP sk _ _ _ S0) as Ls. change (regs_ok bits noise st v) in R.
    destruct Hi as (Ew & Hw & Hw' & Hb & Hb'). unfold width_ok in Hw. destruct (R a) as (_ & _ & La & Ua). destruct (R b) as (_ & _ & Lb & Ub).
    pose proof (sel_nonneg P B HB HN) as Sn.
    assert (EM : mul_noise sel D (v_width (v a)) = Z.of_nat (D (mul_arity (length (p_regs st a)))) * sel) by (unfold mul_noise, mul_arity; do 3 f_equal; destruct (Z.leb_spec (v_width (v a)) 16), (Nat.leb_spec (length (p_regs st a)) 16); lia).
    assert (Core : forall order, (forall l, Permutation l (order l)) -> exists g outs, mul_graph lib order (p_regs st a) (p_regs st b) (length (p_store st)) = Ok (g, outs) /\
      promises P B bits noise (length (p_store st)) g outs (to_bits (length (p_regs st a)) (uval (bits_of bits (p_regs st a)) * uval (bits_of bits (p_regs st b)))) (mul_noise sel D (v_width (v a)))).
    { intros order HO. rewrite EM. apply (mul_promises bits noise _ order _ _ (Z.max (v_noise (v a)) (v_noise (v b))) HO); try lia.
      - intros r [Hr|Hr]; pose proof (noise_le _ _ _ _ _ _ R Hr); lia.
      - exact Hb.
      - intros Q. rewrite <- EM. apply Hb'. lia. }
    split.
    + destruct (Core (fun l => l) (fun l => Permutation_refl l)) as (g & outs & Eg & Pr).
      destruct (runs_total X m h pr P B A HP HB Hok sk Hs pc Hpc st bits noise g outs _ _ s0 S0 Pr H0) as (cs & Hc). eexists. exact (ys_mul X m pc lib st dst a b (fun l => l) g outs cs ltac:(lia) (fun l => Permutation_refl l) Eg Hc).
    + intros st' St. inversion St as [|? ? ? order g outs cs Hl HO Eg Hc]; subst. destruct (Core order HO) as (g' & outs' & Eg' & Pr). rewrite Eg in Eg'. injection Eg' as <- <-.
      pose proof (runs_sound X m h pr P B A HP HB Hok sk Hs pc Hpc st bits noise g outs _ _ cs S0 Pr Hc) as Fc. destruct Pr as (_ & _ & Lo & _). rewrite Ls, Lo. cbn [yvals_step]. rewrite EM in *.
      apply (put_new P B HP sk st v bits noise (to_bits (length (p_regs st a)) (uval (bits_of bits (p_regs st a)) * uval (bits_of bits (p_regs st b)))) (Z.of_nat (D (mul_arity (length (p_regs st a)))) * sel) cs); auto; cbn [v_noise v_width v_value]; try lia.
      * rewrite seq_length, to_bits_length. lia.
      * rewrite bits_of_new, uval_to_bits, Ua, Ub, La. reflexivity.
Qed.
Lemma yrun_ok s0 : scratch_ok P s0 -> forall is st v, xholds P sk st v -> yprog_ok boots sel D v is ->
  (exists st', yrun X m pc lib st is st') /\ forall st', yrun X m pc lib st is st' -> xholds P sk st' (yvals_run sel D v is).
Proof.
  intros H0. induction is as [|i is IH]; intros st v Hx Pk; cbn [yprog_ok] in Pk.
  - split; [exists st; constructor|]. intros st' R. inversion R; subst. exact Hx.
  - destruct Pk as (Hi & Pk). destruct (ystep_ok s0 st v i H0 Hx Hi) as ((st1 & S1) & Sd). split.
    + destruct (IH st1 _ (Sd st1 S1) Pk) as ((st' & R) & _). exists st'. econstructor; eassumption.
    + intros st' R. inversion R as [|? ? st2 ? ? S2 R2]; subst. apply (IH st2); auto.
Qed.
End P.
