(** Proofs: encrypted programs with carries. *)
From Coq Require Import Reals ZArith List Lia Lra Bool Permutation.
From Coquelicot Require Import Complex.
From Verif Require Import Base BitsLemmas Spec Alu AluProofs AluProofs2 SpecAlu Circuits Graph MuxGraph SpecMux FheGraph SpecFhe FheProofs FheProofs5 SpecFluent FluentLib
  PolyRing Tfhe TfheGlwe Eval EvalFft SpecTfhe SpecGlwe SpecBoot SpecCbs SpecEval SpecFftCbs SpecEvalFft EvalProofs EvalFftProofs EvalFftProofs2 EvalFftProofs3 EvalFftProofs4
  SpecPipe PipeProofs PipeProofs2 Pipe SpecPipe2 PipeProofs3 PipeProofs4 Pipe2 SpecPipe3 PipeProofs5 PipeProofs6 Pipe3 SpecPipe4 PipeProofs7 PipeProofs8 Pipe5 SpecPipe6.
Import ListNotations.
Ltac Zify.zify_post_hook ::= idtac.
Open Scope Z_scope.

(** ** The circuits *)
Lemma rca_both_length v off k : forall i c, length (fst (rca_both v off i k c)) = k.
Proof. induction k as [|k IH]; intros i c; [reflexivity|]. cbn [rca_both]. match goal with |- context [rca_both v off (S i) k ?x] => specialize (IH (S i) x); destruct (rca_both v off (S i) k x) end. cbn [fst length] in *. now rewrite IH. Qed.
Lemma fs_loop_length v off k : forall i c, length (fst (fs_loop v off i k c)) = k.
Proof. induction k as [|k IH]; intros i c; [reflexivity|]. cbn [fs_loop]. match goal with |- context [fs_loop v off (S i) k ?x] => specialize (IH (S i) x); destruct (fs_loop v off (S i) k x) end. cbn [fst length] in *. now rewrite IH. Qed.
Lemma carry_total sub w : (1 <= w)%nat -> exists c, carry_circuit sub w = Ok c.
Proof. intros Hw. assert (Z0 : (w =? 0)%nat = false) by (apply Nat.eqb_neq; lia). destruct sub; unfold carry_circuit, full_subtractor, ripple_carry_adder; rewrite Z0; cbn [orb]; eauto. Qed.
Lemma carry_facts sub w c : carry_circuit sub w = Ok c -> c_arity c = (2 * w + 1)%nat /\ forall v, length (c_fn c v) = (w + 1)%nat.
Proof.
  destruct sub; unfold carry_circuit, full_subtractor, ripple_carry_adder; destruct (w =? 0)%nat; cbn [orb]; intros E; try discriminate; injection E as <-; cbn [c_arity c_fn]; (split; [lia|]); intros v.
  - pose proof (fs_loop_length v 1 w 0 (var v 0)) as Q. destruct (fs_loop _ _ _ _ _) as (d & b). cbn [fst] in Q. rewrite app_length, Q. reflexivity.
  - rewrite Nat.min_id, Nat.max_id, Nat.sub_diag. pose proof (rca_both_length v 1 w 0 (var v 0)) as Q. destruct (rca_both _ _ _ _ _) as (s1 & c1). cbn [fst rca_rest app] in *. rewrite app_length, Q. reflexivity.
Qed.
Lemma carry_spec sub w c a b k : carry_circuit sub w = Ok c -> (1 <= w)%nat -> length a = w -> length b = w -> exists out x, c_fn c (k :: interleave a b) = out ++ [x] /\ length out = w /\
  uval out = carry_value sub (Z.of_nat w) (uval a) (uval b) (b2z k) /\ b2z x = carry_bit sub (Z.of_nat w) (uval a) (uval b) (b2z k).
Proof.
  intros Ec Hw La Lb. destruct (carry_facts sub w c Ec) as (Ar & _). assert (Li : length (k :: interleave a b) = c_arity c) by (cbn [length]; rewrite CircuitsProofs.interleave_length_min; lia).
  assert (Hk : forall c0, Some [k] = Some c0 -> length c0 = 1%nat) by (intros c0 Q; injection Q as <-; reflexivity).
  assert (Ra : 0 <= uval a < 2 ^ Z.of_nat w) by (rewrite <- La; apply uval_range). assert (Rb : 0 <= uval b < 2 ^ Z.of_nat w) by (rewrite <- Lb; apply uval_range).
  assert (Rk : 0 <= b2z k <= 1) by (destruct k; cbn; lia). assert (Uk : uval [k] = b2z k) by (cbn [uval]; lia).
  unfold carry_value, carry_bit. destruct sub.
  - pose proof (sub_circuit_ok w a b (Some [k]) ltac:(lia) La Lb Hk) as Q. cbn beta zeta in Q. unfold sub_circuit, run_res in Q. cbn [carry_circuit] in Ec. rewrite Ec in Q. cbn [bind app] in Q. unfold run_circuit in Q. rewrite Li, Nat.eqb_refl, Uk in Q. injection Q as Q.
    eexists _, _. split; [exact Q|]. rewrite to_bits_length, uval_to_bits. auto.
  - pose proof (add_circuit_ok w a b (Some [k]) ltac:(lia) La Lb Hk) as Q. unfold add_circuit, run_res in Q. cbn [carry_circuit] in Ec. rewrite Ec in Q. cbn [bind app] in Q. unfold run_circuit in Q. rewrite Li, Nat.eqb_refl, Uk, to_bits_snoc in Q. injection Q as Q.
    eexists _, _. split; [exact Q|]. rewrite to_bits_length, uval_to_bits. split; [reflexivity|]. split; [reflexivity|]. f_equal.
    set (s := uval a + uval b + b2z k) in *. pose proof (pow2_pos (Z.of_nat w) ltac:(lia)) as Hp. destruct (Z.leb_spec (2 ^ Z.of_nat w) s) as [H|H].
    + replace (s / 2 ^ Z.of_nat w) with 1; [reflexivity|]. apply Z.div_unique with (s - 2 ^ Z.of_nat w); lia.
    + rewrite Z.div_small by lia. reflexivity.
Qed.

Section P.
Context (X : ext) (m : mad_kernel) (h : hw) (pr : profile) (P : params) (B : bounds) (A : accuracy).
Context (HP : params_ok P) (HB : bounds_ok B) (Hok : fft_ok X h P B A) (sk : secret_key) (Hs : secret_ok P sk).
Context (pc : rproc) (Hpc : rproc_ok X A P B sk h pr pc).
Context (lib : mux_library) (L : lib_ok lib) (D : nat -> nat) (Dmono : forall a b, (a <= b)%nat -> (D a <= D b)%nat) (LD : lib_depth lib D).
Local Notation N := (p_N P).
Local Notation sel := (sel_noise P B (boot_noise P B)).
Let HN : (1 <= N)%nat := Npos P B HP 0 0.
Let boots (E : Z) : Prop := boot_margin P (E + switch_noise P B).

(** Two registers written at once. *)
Lemma put_two st v bits noise out M cs dst co h1 h2 x1 x2 : storeN P sk (p_store st) bits noise -> regs_ok bits noise st v -> 0 <= M -> Forall2 (fun c b => encrypts P sk M (CGlwe1 (FheGraph.pconst N b)) (KGlwe1 c)) cs out ->
  (forall n, In n h1 -> In n (seq (length bits) (length out))) -> M <= v_noise x1 -> Z.of_nat (length h1) = v_width x1 -> uval (bits_of (bits ++ out) h1) = v_value x1 ->
  (forall n, In n h2 -> In n (seq (length bits) (length out))) -> M <= v_noise x2 -> Z.of_nat (length h2) = v_width x2 -> uval (bits_of (bits ++ out) h2) = v_value x2 ->
  xholds P sk (put (put st dst h1 cs) co h2 []) (setv (setv v dst x1) co x2).
Proof.
  intros S0 R HM Fc F1 N1 W1 V1 F2 N2 W2 V2.
  pose proof (put_new P B HP sk st v bits noise out M cs co h2 x2 S0 R HM Fc F2 N2 W2 V2) as H2. pose proof (put_new P B HP sk st v bits noise out M cs dst h1 x1 S0 R HM Fc F1 N1 W1 V1) as H1.
  destruct S0 as (Ln & F). exists (bits ++ out), (noise ++ repeat M (length out)).
  split; [rewrite !app_length, repeat_length; lia|]. split.
  - cbn [put p_store]. rewrite app_nil_r. rewrite combine_app' by congruence. apply Forall2_app; [exact F|]. clear - Fc HM. induction Fc as [|c b cs out Hc _ IH]; cbn [length repeat combine]; constructor; auto.
  - assert (Q : forall k i, (i < k)%nat -> nth i (repeat M k) 0 = M). { induction k as [|k IH]; intros [|i] Hi'; try (exfalso; lia); [reflexivity|]. cbn [repeat nth]. apply IH. lia. }
    assert (G : forall hs x, (forall n, In n hs -> In n (seq (length bits) (length out))) -> M <= v_noise x -> Forall (fun n => (n < length (bits ++ out))%nat /\ nth n (noise ++ repeat M (length out)) 0 <= v_noise x) hs).
    { intros hs x Fh Hn. apply Forall_forall. intros n Hi. apply Fh, in_seq in Hi. rewrite app_length. split; [lia|]. rewrite app_nth2 by lia. rewrite Ln, Q by lia. exact Hn. }
    intros r. unfold setv. cbn [put p_regs]. destruct (r =? co)%nat; [split; [now apply G|]; split; [lia|auto]|]. destruct (r =? dst)%nat; [split; [now apply G|]; split; [lia|auto]|].
    destruct (R r) as (R1 & R2 & R3 & R4). assert (Fr : Forall (fun n => (n < length bits)%nat) (p_regs st r)) by (eapply Forall_impl; [|exact R1]; cbn; tauto).
    split; [|split; [exact R2|split; [exact R3|now rewrite bits_of_app]]]. eapply Forall_impl; [|exact R1]. cbn. intros n (Q1 & Q2). rewrite app_length, app_nth1 by lia. split; [lia|exact Q2].
Qed.

Lemma zstep_ok s0 st v i : scratch_ok P s0 -> xholds P sk st v -> zinstr_ok boots sel D v i ->
  (exists st', zstep X m pc lib st i st') /\ forall st', zstep X m pc lib st i st' -> xholds P sk st' (zvals_step sel D v i).
Proof.
  intros H0 Hx Hi. destruct i as [i|sub dst co a b cin].
  - destruct (ystep_ok X m h pr P B A HP HB Hok sk Hs pc Hpc lib L D Dmono LD s0 st v i H0 Hx Hi) as ((st' & S1) & K). split; [exists st'; now constructor|]. intros st2 S2. inversion S2; subst. now apply K.
  - destruct Hx as (bits & noise & Ln & F & R). pose proof (conj Ln F : storeN P sk (p_store st) bits noise) as S0. pose proof (storeN_length P B HP sk _ _ _ S0) as Ls. change (regs_ok bits noise st v) in R.
    destruct Hi as (Nd & Ew & Hw & Hc1 & Hb). unfold width_ok in Hw. destruct (R a) as (_ & Na & La & Ua). destruct (R b) as (_ & Nb & Lb & Ub). destruct (R cin) as (_ & Nc & Lc & Uc).
    set (w := length (p_regs st a)) in *. assert (Lw : length (p_regs st b) = w) by lia.
    destruct (p_regs st cin) as [|hc [|? ?]] eqn:Erc; cbn [length] in Lc; try lia.
    assert (Hhc : nth hc noise 0 <= v_noise (v cin)) by (apply (noise_le bits noise st v cin hc R); rewrite Erc; now left).
    set (refs := [hc] ++ interleave (p_regs st a) (p_regs st b)).
    assert (Lr : length refs = (2 * w + 1)%nat) by (unfold refs; cbn [app length]; rewrite CircuitsProofs.interleave_length_min; lia).
    pose proof (sel_nonneg P B HB HN) as Sn.
    assert (Core : forall c ds mc inputs, carry_circuit sub w = Ok c -> diagrams_of c ds -> from_bdds ds = Ok (mc, inputs) -> exists g outs,
      insert_and_connect gempty mc inputs refs (length (p_store st)) = Ok (g, outs) /\ promises P B bits noise (length (p_store st)) g outs (c_fn c (bits_of bits refs)) ((2 * v_width (v a) + 1) * sel)).
    { intros c ds mc inputs Ec Ds Em. destruct (carry_facts _ _ _ Ec) as (Ar & _). destruct (diagrams_compiled c ds Ds) as (g0 & i0 & g1 & i1 & E0 & _ & (Cp & Dm) & _). rewrite E0 in Em. injection Em as -> ->.
      replace ((2 * v_width (v a) + 1) * sel) with (Z.of_nat (c_arity c) * sel) by (f_equal; lia).
      apply (circuit_promises P B HP HB bits noise (length (p_store st)) c ds mc inputs refs (Z.max (Z.max (v_noise (v a)) (v_noise (v b))) (v_noise (v cin)))); auto; [lia|].
      intros r Hr. unfold refs in Hr. destruct Hr as [<-|Hr].
      - pose proof (Hhc : nth hc noise 0 <= v_noise (v cin)). lia.
      - apply in_interleave in Hr as [Hr|Hr]; pose proof (noise_le _ _ _ _ _ _ R Hr); lia. }
    split.
    + destruct (carry_total sub w ltac:(lia)) as (c & Ec). destruct (carry_facts sub w c Ec) as (Ar & Lo).
      destruct (diagrams_exist c (w + 1) ltac:(lia)) as (ds & _ & Ds); [intros u _; apply Lo|].
      destruct (diagrams_compiled c ds Ds) as (mc & inputs & g1 & i1 & Em & _). destruct (Core c ds mc inputs Ec Ds Em) as (g & outs & Ei & Pr).
      destruct (runs_total X m h pr P B A HP HB Hok sk Hs pc Hpc st bits noise g outs _ _ s0 S0 Pr H0) as (cs & Hcs). eexists.
      apply (zs_carry X m pc lib st sub dst co a b cin c ds mc inputs g outs cs); [fold w; lia|now rewrite Erc|exact Ec|exact Ds|exact Em|rewrite Erc; exact Ei|exact Hcs].
    + intros st' St. inversion St as [|? ? ? ? ? ? c ds mc inputs g outs cs G1 G2 Ec Ds Em Ei Hcs]; subst. rewrite Erc in Ei. fold refs in Ei. fold w in Ec.
      destruct (Core c ds mc inputs Ec Ds Em) as (g' & outs' & Ei' & Pr). rewrite Ei in Ei'. injection Ei' as <- <-.
      pose proof (runs_sound X m h pr P B A HP HB Hok sk Hs pc Hpc st bits noise g outs _ _ cs S0 Pr Hcs) as Fc. destruct Pr as (_ & _ & Lo & _). rewrite Ls, Lo. cbn [zvals_step].
      destruct (carry_spec sub w c (bits_of bits (p_regs st a)) (bits_of bits (p_regs st b)) (nth hc bits false) Ec ltac:(lia) ltac:(apply bits_of_length) ltac:(rewrite bits_of_length; lia)) as (out & x & Eo & Lout & Uo & Ux).
      assert (Eb : bits_of bits refs = nth hc bits false :: interleave (bits_of bits (p_regs st a)) (bits_of bits (p_regs st b))) by (unfold refs, bits_of; cbn [app map]; now rewrite interleave_map).
      rewrite Eb, Eo in *. rewrite Ua, Ub in *. cbn [bits_of map uval] in Uc. assert (Ek : b2z (nth hc bits false) = v_value (v cin)) by lia. rewrite Ek in *. replace (Z.of_nat w) with (v_width (v a)) in Uo, Ux by lia.
      assert (Es : seq (length bits) (length (out ++ [x])) = seq (length bits) (length out) ++ [(length bits + length out)%nat]) by (rewrite app_length; cbn [length]; now rewrite Nat.add_1_r, seq_S).
      rewrite Es, removelast_last, last_last.
      assert (HM : 0 <= (2 * v_width (v a) + 1) * sel) by (apply Z.mul_nonneg_nonneg; lia).
      apply (put_two st v bits noise (out ++ [x]) ((2 * v_width (v a) + 1) * sel) cs); auto; cbn [v_noise v_width v_value]; try lia.
      * intros n Hn. rewrite Es. apply in_or_app. now left.
      * rewrite seq_length. lia.
      * rewrite app_assoc, bits_of_app by (apply Forall_forall; intros n Hn; apply in_seq in Hn; rewrite app_length; lia). rewrite bits_of_new. exact Uo.
      * intros n Hn. rewrite Es. apply in_or_app. now right.
      * cbn [bits_of map uval]. rewrite app_assoc, app_nth2 by (rewrite app_length; lia). rewrite app_length, Nat.sub_diag. cbn [nth]. lia.
Qed.
Lemma zrun_ok s0 : scratch_ok P s0 -> forall is st v, xholds P sk st v -> zprog_ok boots sel D v is ->
  (exists st', zrun X m pc lib st is st') /\ forall st', zrun X m pc lib st is st' -> xholds P sk st' (zvals_run sel D v is).
Proof.
  intros H0. induction is as [|i is IH]; intros st v Hx Pk; cbn [zprog_ok] in Pk.
  - split; [exists st; constructor|]. intros st' R. inversion R; subst. exact Hx.
  - destruct Pk as (Hi & Pk). destruct (zstep_ok s0 st v i H0 Hx Hi) as ((st1 & S1) & Sd). split.
    + destruct (IH st1 _ (Sd st1 S1) Pk) as ((st' & R) & _). exists st'. econstructor; eassumption.
    + intros st' R. inversion R as [|? ? st2 ? ? S2 R2]; subst. apply (IH st2); auto.
Qed.
End P.
