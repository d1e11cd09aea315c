(** Proofs: programs over plaintext and encrypted registers. *)
From Coq Require Import Reals ZArith List Lia Lra Bool Permutation.
From Coquelicot Require Import Complex.
From Verif Require Import Base BitsLemmas Spec Alu AluProofs AluProofs2 SpecAlu Circuits Graph MuxGraph SpecMux FheGraph SpecFhe FheProofs FheProofs5 SpecFluent FluentLib
  PolyRing Tfhe TfheGlwe Eval EvalFft SpecTfhe SpecGlwe SpecBoot SpecCbs SpecEval SpecFftCbs SpecEvalFft EvalProofs EvalFftProofs EvalFftProofs2 EvalFftProofs3 EvalFftProofs4
  SpecPipe PipeProofs PipeProofs2 Pipe SpecPipe2 PipeProofs3 PipeProofs4 Pipe2 SpecPipe3 PipeProofs5 PipeProofs6 Pipe3 SpecPipe4 PipeProofs7 PipeProofs8 Pipe4 SpecPipe5.
Import ListNotations.
Ltac Zify.zify_post_hook ::= idtac.
Open Scope Z_scope.

Lemma binop_value_range op w a b : 1 <= w -> 0 <= a < 2 ^ w -> 0 <= b < 2 ^ w -> 0 <= binop_value op w a b < 2 ^ binop_width op w.
Proof.
  intros Hw Ha Hb. assert (Hp : 0 < 2 ^ w) by (apply pow2_pos; lia). destruct op as [| | | | | |[|[|] g e]]; cbn [binop_value binop_width].
  - apply Z.mod_pos_bound; lia.
  - apply Z.mod_pos_bound; lia.
  - apply Z.mod_pos_bound; lia.
  - apply land_range; lia.
  - apply lor_range; lia.
  - apply lxor_range; lia.
  - destruct (a =? b); cbn; lia.
  - match goal with |- context [b2z ?x] => destruct x end; cbn; lia.
  - match goal with |- context [b2z ?x] => destruct x end; cbn; lia.
Qed.
Lemma not_value w v : 1 <= w <= 128 -> 0 <= v < 2 ^ w -> unot 128 v mod 2 ^ w = 2 ^ w - 1 - v.
Proof.
  intros Hw Hv. unfold unot. replace (2 ^ 128 - 1 - v) with (2 ^ w - 1 - v + (2 ^ (128 - w) - 1) * 2 ^ w).
  2: { rewrite Z.mul_sub_distr_r, <- Z.pow_add_r by lia. replace (128 - w + w) with 128 by lia. lia. }
  rewrite Z_mod_plus_full. apply Z.mod_small. lia.
Qed.
Lemma sint_mod w v : 1 <= w -> 0 <= v < 2 ^ w -> sint w v mod 2 ^ w = v.
Proof.
  intros Hw Hv. unfold sint. destruct (v <? 2 ^ (w - 1)).
  - apply Z.mod_small. exact Hv.
  - rewrite <- (Z_mod_plus_full _ 1). rewrite Z.mod_small by lia. lia.
Qed.

(** ** The plaintext branch *)
Lemma plain_ok boots sel D p ms v i r : plains_hold ms v -> minstr_ok boots sel D v i -> plain_step p (m_plain ms) i = Some r ->
  exists y, r = Ok (RPlain (v_value y) (v_width y)) /\ mvals_step sel D v i = setm v (minstr_dst i) (true, y) /\ v_noise y = 0 /\ 1 <= v_width y <= 128 /\ 0 <= v_value y < 2 ^ v_width y.
Proof.
  intros Hv Hi E. destruct i as [dst imm w|op dst a b|op dst a s|dst s a b|dst a|dst a|signed dst a w|dst a w]; cbn [plain_step] in E; cbn [minstr_dst].
  - injection E as <-. destruct Hi as (Hw & Hm & Hr). exists {| v_width := w; v_value := imm mod 2 ^ w; v_noise := 0 |}. cbn [v_width v_value v_noise mvals_step]. split.
    + rewrite loadi_ok by assumption. destruct (Z.ltb_spec imm (2 ^ w)); [reflexivity|]. destruct (Z.leb_spec (2 ^ 32 - 2 ^ (w - 1)) imm); [reflexivity|lia].
    + split; [reflexivity|]. split; [reflexivity|]. split; [lia|]. apply Z.mod_pos_bound, pow2_pos; lia.
  - pose proof (Hv a) as Ra. pose proof (Hv b) as Rb. destruct (m_plain ms a) as [(x & wa)|]; [|discriminate]. destruct (m_plain ms b) as [(y & wb)|]; [|discriminate].
    destruct Ra as (Ea & Wa & Xa), Rb as (Eb & Wb & Xb). injection E as <-. cbn [minstr_ok mvals_step] in *. rewrite Ea, Eb in *. cbn [andb v_width v_value v_noise] in *. destruct Hi as (Ew & Hw). subst wb.
    eexists. split; [|split; [reflexivity|]].
    + rewrite binop_plain by lia. reflexivity.
    + cbn [v_noise v_width v_value]. split; [reflexivity|]. split; [destruct op; cbn; lia|]. apply binop_value_range; lia.
  - pose proof (Hv a) as Ra. pose proof (Hv s) as Rb. destruct (m_plain ms a) as [(x & wa)|]; [|discriminate]. destruct (m_plain ms s) as [(y & wb)|]; [|discriminate].
    destruct Ra as (Ea & Wa & Xa), Rb as (Eb & Wb & Xb). injection E as <-. cbn [minstr_ok mvals_step] in *. rewrite Ea, Eb in *. cbn [andb v_width v_value v_noise] in *. destruct Hi as (H1 & H2 & H3 & H4).
    destruct (shift_plain_ok p op wa wb x y H2 Xa ltac:(lia) H3) as (r & Er & Em & Ev & _). specialize (Ev H4). eexists. split; [|split; [reflexivity|]].
    + cbn [op_shift] in Er. rewrite Er, Ev. reflexivity.
    + cbn [v_noise v_width v_value]. split; [reflexivity|]. split; [lia|]. rewrite <- Em. apply Z.mod_pos_bound, pow2_pos; lia.
  - pose proof (Hv a) as Ra. pose proof (Hv b) as Rb. pose proof (Hv s) as Rs. destruct (m_plain ms s) as [(z & ws)|]; [|discriminate]. destruct (m_plain ms a) as [(x & wa)|]; [|discriminate]. destruct (m_plain ms b) as [(y & wb)|]; [|discriminate].
    destruct Ra as (Ea & Wa & Xa), Rb as (Eb & Wb & Xb), Rs as (Es & Ws & Xs). injection E as <-. cbn [minstr_ok mvals_step] in *. rewrite Ea, Eb, Es in *. cbn [andb snd v_width v_value v_noise] in *. destruct Hi as (H1 & H2 & H3 & _).
    eexists. split; [|split; [reflexivity|]].
    + unfold op_cmux. rewrite (check_ok (RPlain x wa) (RPlain y wb) wa); [|reflexivity|symmetry; exact H2|exact H3]. cbn [bind reg_width]. rewrite H1. cbn [Z.eqb Pos.eqb negb]. destruct (z =? 0); reflexivity.
    + cbn [v_noise v_width v_value]. split; [destruct (z =? 0); reflexivity|]. split; [lia|]. destruct (z =? 0); [rewrite H2|]; lia.
  - pose proof (Hv a) as Ra. destruct (m_plain ms a) as [(x & wa)|]; [|discriminate]. destruct Ra as (Ea & Wa & Xa). injection E as <-. cbn [minstr_ok mvals_step] in *. rewrite Ea in *. cbn [v_width v_value v_noise] in *.
    specialize (Hi eq_refl). eexists. split; [|split; [reflexivity|]].
    + cbn [op_not]. rewrite umask_ok by lia. cbn [bind]. rewrite land_mask, not_value by lia. reflexivity.
    + cbn [v_noise v_width v_value]. split; [reflexivity|]. lia.
  - pose proof (Hv a) as Ra. destruct (m_plain ms a) as [(x & wa)|]; [|discriminate]. destruct Ra as (Ea & Wa & Xa). injection E as <-. cbn [minstr_ok mvals_step] in *. rewrite Ea in *.
    eexists. split; [|split; [reflexivity|]]; [reflexivity|]. cbn [v_noise v_width v_value]. auto.
  - pose proof (Hv a) as Ra. destruct (m_plain ms a) as [(x & wa)|]; [|discriminate]. destruct Ra as (Ea & Wa & Xa). injection E as <-. cbn [minstr_ok mvals_step] in *. rewrite Ea in *. cbn [v_width v_value v_noise] in *.
    destruct Hi as (H1 & H2 & H3). assert (RO : reg_ok (RPlain x wa)) by (split; [exact Wa|exact Xa]). eexists. split; [|split; [reflexivity|]]; cbn [v_noise v_width v_value].
    + destruct signed.
      * destruct (sext_ok p (RPlain x wa) (Z.of_nat w) RO H2 (or_introl (H3 eq_refl eq_refl))) as (d & Ed & Od & Wd & Cd & Sd). rewrite Ed. destruct d as [y wd|]; [|discriminate]. cbn [reg_width reg_value reg_enc] in *. subst wd.
        destruct Od as (_ & Od). rewrite <- Sd, sint_mod by lia. reflexivity.
      * destruct (zext_ok p (RPlain x wa) (Z.of_nat w) RO H2) as (d & Ed & Od & Wd & Cd & Sd). rewrite Ed. destruct d as [y wd|]; [|discriminate]. cbn [reg_width reg_value reg_enc] in *. now subst.
    + split; [reflexivity|]. split; [lia|]. destruct signed; [apply Z.mod_pos_bound, pow2_pos; lia|]. assert (2 ^ wa <= 2 ^ Z.of_nat w) by (apply Z.pow_le_mono_r; lia). lia.
  - pose proof (Hv a) as Ra. destruct (m_plain ms a) as [(x & wa)|]; [|discriminate]. destruct Ra as (Ea & Wa & Xa). injection E as <-. cbn [minstr_ok mvals_step] in *. rewrite Ea in *. cbn [v_width v_value v_noise] in *.
    destruct Hi as (H1 & H2 & H3). assert (RO : reg_ok (RPlain x wa)) by (split; [exact Wa|exact Xa]). eexists. split; [|split; [reflexivity|]]; cbn [v_noise v_width v_value].
    + destruct (trunc_ok p (RPlain x wa) (Z.of_nat w) RO H2 (or_introl (H3 eq_refl))) as (d & Ed & Od & Wd & Cd & Sd). rewrite Ed. destruct d as [y wd|]; [|discriminate]. cbn [reg_width reg_value reg_enc] in *. now subst.
    + split; [reflexivity|]. split; [lia|]. apply Z.mod_pos_bound, pow2_pos; lia.
Qed.

Section P.
Context (X : ext) (m : mad_kernel) (h : hw) (pr : profile) (P : params) (B : bounds) (A : accuracy).
Context (HP : params_ok P) (HB : bounds_ok B) (Hok : fft_ok X h P B A) (sk : secret_key) (Hs : secret_ok P sk).
Context (pc : rproc) (Hpc : rproc_ok X A P B sk h pr pc).
Context (lib : mux_library) (L : lib_ok lib) (D : nat -> nat) (Dmono : forall a b, (a <= b)%nat -> (D a <= D b)%nat) (LD : lib_depth lib D).
Local Notation N := (p_N P).
Local Notation enc E c b := (encrypts P sk E (CGlwe1 (FheGraph.pconst N b)) (KGlwe1 c)).
Local Notation sel := (sel_noise P B (boot_noise P B)).

(** ** Trivial encryptions *)
Lemma one_enc : enc 0 (rp_one_glwe1 pc) true.
Proof. destruct (rk_one_glwe1 _ _ _ _ _ _ _ _ Hpc) as (kc & Rp & Enc). destruct kc as [y|y|y|y|y]; cbn [represents] in Rp; try contradiction; try (cbn [encrypts] in Enc; contradiction). subst y. exact Enc. Qed.
Lemma zero_enc1 : enc 0 (rp_zero_glwe1 pc) false.
Proof. destruct (rk_zero_glwe1 _ _ _ _ _ _ _ _ Hpc) as (kc & Rp & Enc). destruct kc as [y|y|y|y|y]; cbn [represents] in Rp; try contradiction; try (cbn [encrypts] in Enc; contradiction). subst y. exact Enc. Qed.
Lemma trivial_ok st v' r x w : xholds P sk st v' -> 1 <= w <= 128 -> 0 <= x < 2 ^ w ->
  exists st1, trivially_encrypt pr pc st r x w = Ok st1 /\ xholds P sk st1 (setv v' r {| v_width := w; v_value := x; v_noise := 0 |}).
Proof.
  intros (bits & noise & Ln & F & R) Hw Hx. unfold trivially_encrypt. rewrite convert_ok by lia. cbn [bind]. eexists. split; [reflexivity|].
  pose proof (conj Ln F : storeN P sk (p_store st) bits noise) as S0. pose proof (storeN_length P B HP sk _ _ _ S0) as Ls. rewrite Ls.
  apply (put_new P B HP sk st v' bits noise (to_bits (Z.to_nat w) x) 0); auto; cbn [v_noise v_width v_value]; try lia.
  - pose proof one_enc as E1. pose proof zero_enc1 as E0. clear - E0 E1. induction (to_bits (Z.to_nat w) x) as [|[|] l IH]; cbn [map]; constructor; auto.
  - rewrite seq_length, to_bits_length. lia.
  - rewrite bits_of_new, uval_to_bits, Z2Nat.id by lia. apply Z.mod_small. lia.
Qed.

Definition agree (ms : mstate) (v : mvals) (v' : xvals) : Prop := forall r, m_plain ms r = None -> v' r = snd (v r).
Lemma lifts_ok ms v : plains_hold ms v -> forall rs st v', xholds P sk st v' -> agree ms v v' ->
  exists st1 v1, foldM (lift_operand pr pc (m_plain ms)) rs st = Ok st1 /\ xholds P sk st1 v1 /\ agree ms v v1 /\ forall r, v' r = snd (v r) \/ In r rs -> v1 r = snd (v r).
Proof.
  intros Hv. induction rs as [|r rs IH]; intros st v' Hx Ag; cbn [foldM].
  - exists st, v'. split; [reflexivity|]. split; [exact Hx|]. split; [exact Ag|]. intros r [Q|[]]. exact Q.
  - pose proof (Hv r) as Hr. unfold lift_operand at 1. destruct (m_plain ms r) as [(x & w)|] eqn:Er.
    + destruct Hr as (Ev & Hw & Hx'). destruct (trivial_ok st v' r x w Hx Hw Hx') as (st1 & E1 & H1). rewrite E1. cbn [bind].
      destruct (IH st1 _ H1) as (st2 & v2 & E2 & H2 & A2 & K2).
      * intros q Hq. unfold setv. destruct (Nat.eqb_spec q r) as [->|]; [congruence|]. now apply Ag.
      * exists st2, v2. split; [exact E2|]. split; [exact H2|]. split; [exact A2|]. intros q Hq. apply K2. unfold setv. destruct (Nat.eqb_spec q r) as [->|Nq].
        -- left. now rewrite Ev.
        -- destruct Hq as [Hq|[Hq|Hq]]; [now left|congruence|now right].
    + cbn [bind]. destruct (IH st v' Hx Ag) as (st2 & v2 & E2 & H2 & A2 & K2). exists st2, v2. split; [exact E2|]. split; [exact H2|]. split; [exact A2|].
      intros q [Hq|[Hq|Hq]]; [apply K2; now left| |apply K2; now right]. subst q. now apply A2.
Qed.

(** ** The encrypted branch *)
Let boots (E : Z) : Prop := boot_margin P (E + switch_noise P B).
Lemma widths ms v r : mholds P sk ms v -> mwidth ms r = v_width (snd (v r)).
Proof.
  intros (Hv & v' & Hx & Ag). unfold mwidth. pose proof (Hv r) as Hr. destruct (m_plain ms r) as [(x & w)|] eqn:E.
  - destruct Hr as (-> & _). reflexivity.
  - rewrite <- (Ag r E). destruct Hx as (bits & noise & _ & _ & R). exact (proj1 (proj2 (proj2 (R r)))).
Qed.
Lemma check_widths_ok ms v a b : mholds P sk ms v -> v_width (snd (v a)) = v_width (snd (v b)) -> 1 <= v_width (snd (v a)) <= 128 -> mcheck_width ms a b = Ok tt.
Proof.
  intros Hm E Hw. unfold mcheck_width. rewrite !(widths ms v) by assumption. rewrite <- E, Z.eqb_refl. cbn [negb].
  destruct (Z.ltb_spec (v_width (snd (v a))) 1); [lia|]. destruct (Z.ltb_spec 128 (v_width (snd (v a)))); [lia|reflexivity].
Qed.
Lemma enc_ok ms v v1 i : mholds P sk ms v -> minstr_ok boots sel D v i -> plain_step pr (m_plain ms) i = None -> agree ms v v1 ->
  (forall r, In r (fst (enc_step (m_plain ms) i)) -> v1 r = snd (v r)) ->
  mcheck ms i = Ok tt /\ yinstr_ok boots sel D v1 (snd (enc_step (m_plain ms) i)) /\
  exists y, yvals_step sel D v1 (snd (enc_step (m_plain ms) i)) = setv v1 (minstr_dst i) y /\ mvals_step sel D v i = setm v (minstr_dst i) (false, y).
Proof.
  intros Hm Hi E Ag Hl. pose proof (proj1 Hm) as Hv. unfold width_ok in *.
  destruct i as [dst imm w|op dst a b|op dst a s|dst s a b|dst a|dst a|signed dst a w|dst a w]; cbn [plain_step] in E; cbn [minstr_dst mcheck].
  - discriminate.
  - assert (Hpp : fst (v a) && fst (v b) = false).
    { pose proof (Hv a) as Ra. pose proof (Hv b) as Rb. destruct (m_plain ms a) as [(? & ?)|]; [|now rewrite Ra]. destruct (m_plain ms b) as [(? & ?)|]; [discriminate|]. rewrite Rb. apply andb_false_r. }
    pose proof (Hl a (or_introl eq_refl)) as Ea. pose proof (Hl b (or_intror (or_introl eq_refl))) as Eb. pose proof (check_widths_ok ms v a b Hm) as Hc.
    cbn [minstr_ok mvals_step] in *. destruct (v a) as (pa & x). destruct (v b) as (pb & y). cbn [fst snd] in *. rewrite Hpp in *. destruct Hi as (Ew & Hw & Hi). unfold width_ok in Hw.
    split; [apply Hc; assumption|]. destruct op; cbn [enc_step snd fst yinstr_ok xinstr_ok yvals_step xvals_step pi_op pi_dst pi_a pi_b].
    + rewrite Ea, Eb. split; [unfold width_ok; auto|]. eexists. split; reflexivity.
    + rewrite Ea, Eb. split; [unfold width_ok; auto|]. eexists. split; reflexivity.
    + destruct Hi as (H1 & H2 & H3). destruct (m_plain ms a) as [pa'|]; cbn [yinstr_ok yvals_step]; rewrite Ea, Eb; unfold width_ok.
      * rewrite <- Ew. split; [rewrite Z.max_comm; auto|]. eexists. split; [reflexivity|]. cbn [binop_width binop_value]. now rewrite (Z.mul_comm (v_value y)).
      * split; [auto|]. eexists. split; reflexivity.
    + rewrite Ea, Eb. split; [unfold width_ok; auto|]. eexists. split; reflexivity.
    + rewrite Ea, Eb. split; [unfold width_ok; auto|]. eexists. split; reflexivity.
    + rewrite Ea, Eb. split; [unfold width_ok; auto|]. eexists. split; reflexivity.
    + rewrite Ea, Eb. split; [unfold width_ok; auto|]. eexists. split; reflexivity.
  - split; [reflexivity|]. pose proof (Hv s) as Rs. pose proof (Hv a) as Ra. cbn [enc_step minstr_ok mvals_step] in *. destruct (m_plain ms s) as [(k & ws)|] eqn:Es.
    + destruct (m_plain ms a) as [(? & ?)|] eqn:Epa; [discriminate|]. pose proof (Ag a Epa) as Ea. destruct Rs as (Evs & Wk & Hk). rewrite Evs in *. destruct (v a) as (pa & x). cbn [fst snd] in *. subst pa. cbn [andb v_value v_width v_noise] in *.
      destruct Hi as (H1 & H2). unfold width_ok in H2. assert (Ek : Z.of_nat (Z.to_nat (uwrap 32 k)) = k).
      { unfold uwrap. rewrite Z.mod_small by (change (2 ^ 32) with 4294967296; lia). lia. }
      cbn [yinstr_ok xinstr_ok yvals_step xvals_step]. rewrite Ea, Ek. split; [unfold width_ok; auto|]. eexists. split; reflexivity.
    + pose proof (Ag s Es) as E2. pose proof (Hl a (or_introl eq_refl)) as Ea. destruct (v s) as (ps & k). destruct (v a) as (pa & x). cbn [fst snd] in *. subst ps. rewrite andb_false_r.
      cbn [yinstr_ok xinstr_ok yvals_step xvals_step]. rewrite Ea, E2. split; [exact Hi|]. eexists. split; reflexivity.
  - pose proof (Hl a (or_introl eq_refl)) as Ea. pose proof (Hl b (or_intror (or_introl eq_refl))) as Eb. pose proof (check_widths_ok ms v a b Hm) as Hc. pose proof (widths ms v s Hm) as Hws.
    assert (Hpp : fst (v s) && fst (v a) && fst (v b) = false).
    { pose proof (Hv a) as Ra. pose proof (Hv b) as Rb. pose proof (Hv s) as Rs. destruct (m_plain ms s) as [(? & ?)|]; [|now rewrite Rs]. destruct (m_plain ms a) as [(? & ?)|]; [|rewrite Ra; now rewrite andb_false_r]. destruct (m_plain ms b) as [(? & ?)|]; [discriminate|]. rewrite Rb. apply andb_false_r. }
    pose proof (Hv s) as Rs. pose proof (Ag s) as As. cbn [enc_step minstr_ok mvals_step] in *. destruct (v s) as (ps & k). destruct (v a) as (pa & x). destruct (v b) as (pb & y). cbn [fst snd] in *. rewrite Hpp. destruct Hi as (H1 & H2 & H3 & H4).
    split; [rewrite (Hc H2 H3), Hws, H1; reflexivity|]. destruct (m_plain ms s) as [(z & ws)|] eqn:Es.
    + destruct Rs as (Er & _). injection Er as -> ->. cbn [v_value] in *. cbn [yinstr_ok xinstr_ok yvals_step xvals_step snd]. split; [exact I|]. destruct (z =? 0); cbn [negb].
      * rewrite Eb. eexists. split; [reflexivity|]. destruct y as [yw yv yn]. cbn [v_width v_value v_noise] in *. now rewrite H2.
      * rewrite Ea. eexists. split; [reflexivity|]. now destruct x.
    + subst ps. cbn [yinstr_ok xinstr_ok yvals_step xvals_step snd]. rewrite (As eq_refl), Ea, Eb. split; [auto|]. eexists. split; reflexivity.
  - split; [reflexivity|]. pose proof (Hv a) as Ra. destruct (m_plain ms a) as [(? & ?)|] eqn:Epa; [discriminate|]. pose proof (Ag a Epa) as Ea. cbn [enc_step minstr_ok mvals_step] in *. destruct (v a) as (pa & x). cbn [fst snd] in *. subst pa.
    cbn [yinstr_ok xinstr_ok yvals_step xvals_step]. rewrite Ea. split; [exact I|]. eexists. split; reflexivity.
  - split; [reflexivity|]. pose proof (Hv a) as Ra. destruct (m_plain ms a) as [(? & ?)|] eqn:Epa; [discriminate|]. pose proof (Ag a Epa) as Ea. cbn [enc_step minstr_ok mvals_step] in *. destruct (v a) as (pa & x). cbn [fst snd] in *. subst pa.
    cbn [yinstr_ok xinstr_ok yvals_step xvals_step]. rewrite Ea. split; [exact I|]. eexists. split; reflexivity.
  - split; [reflexivity|]. pose proof (Hv a) as Ra. destruct (m_plain ms a) as [(? & ?)|] eqn:Epa; [discriminate|]. pose proof (Ag a Epa) as Ea. cbn [enc_step minstr_ok mvals_step] in *. destruct (v a) as (pa & x). cbn [fst snd] in *. subst pa.
    cbn [snd yinstr_ok xinstr_ok yvals_step xvals_step]. rewrite Ea. split; [tauto|]. eexists. split; reflexivity.
  - split; [reflexivity|]. pose proof (Hv a) as Ra. destruct (m_plain ms a) as [(? & ?)|] eqn:Epa; [discriminate|]. pose proof (Ag a Epa) as Ea. cbn [enc_step minstr_ok mvals_step] in *. destruct (v a) as (pa & x). cbn [fst snd] in *. subst pa.
    cbn [snd yinstr_ok xinstr_ok yvals_step xvals_step]. rewrite Ea. split; [tauto|]. eexists. split; reflexivity.
Qed.

(** ** One instruction, and a program *)
Lemma mstep_ok s0 ms v i : scratch_ok P s0 -> mholds P sk ms v -> minstr_ok boots sel D v i ->
  (exists ms', mstep X m pr pc lib ms i ms') /\ forall ms', mstep X m pr pc lib ms i ms' -> mholds P sk ms' (mvals_step sel D v i).
Proof.
  intros H0 Hm Hi. pose proof Hm as (Hv & v' & Hx & Ag). destruct (plain_step pr (m_plain ms) i) as [r|] eqn:E.
  - destruct (plain_ok boots sel D pr ms v i r Hv Hi E) as (y & -> & Ev & Ny & Wy & Vy). split; [eexists; exact (ms_plain X m pr pc lib ms i _ _ E)|].
    intros ms' St. inversion St as [x w E'|? ? E']; subst; [|congruence]. rewrite E in E'. injection E' as <- <-. rewrite Ev. split.
    + intros r. cbn [m_plain]. unfold set_plain, setm. destruct (r =? minstr_dst i)%nat; [|apply Hv]. split; [|auto]. rewrite <- Ny. now destruct y.
    + exists v'. split; [exact Hx|]. intros r. cbn [m_plain]. unfold set_plain, setm. destruct (r =? minstr_dst i)%nat; [discriminate|apply Ag].
  - destruct (lifts_ok ms v Hv (fst (enc_step (m_plain ms) i)) (m_enc ms) v' Hx Ag) as (st1 & v1 & E1 & H1 & A1 & K1).
    destruct (enc_ok ms v v1 i Hm Hi E A1 (fun r Hr => K1 r (or_intror Hr))) as (Ec & Hy & y & Ey & Ev).
    destruct (ystep_ok X m h pr P B A HP HB Hok sk Hs pc Hpc lib L D Dmono LD s0 st1 v1 _ H0 H1 Hy) as ((st2 & S2) & Sd). split; [eexists; exact (ms_enc X m pr pc lib ms i st1 st2 E Ec E1 S2)|].
    intros ms' St. inversion St as [x w E'|st1' st2' _ _ E1' S2']; subst; [congruence|]. rewrite E1 in E1'. injection E1' as <-. apply Sd in S2'. rewrite Ey in S2'. rewrite Ev. split.
    + intros r. cbn [m_plain]. unfold set_plain, setm. destruct (r =? minstr_dst i)%nat; [reflexivity|apply Hv].
    + exists (setv v1 (minstr_dst i) y). split; [exact S2'|]. intros r. cbn [m_plain]. unfold set_plain, setm, setv. destruct (r =? minstr_dst i)%nat; [reflexivity|apply A1].
Qed.
Lemma mrun_ok s0 : scratch_ok P s0 -> forall is ms v, mholds P sk ms v -> mprog_ok boots sel D v is ->
  (exists ms', mrun X m pr pc lib ms is ms') /\ forall ms', mrun X m pr pc lib ms is ms' -> mholds P sk ms' (mvals_run sel D v is).
Proof.
  intros H0. induction is as [|i is IH]; intros ms v Hx Pk; cbn [mprog_ok] in Pk.
  - split; [exists ms; constructor|]. intros ms' R. inversion R; subst. exact Hx.
  - destruct Pk as (Hi & Pk). destruct (mstep_ok s0 ms v i H0 Hx Hi) as ((ms1 & S1) & Sd). split.
    + destruct (IH ms1 _ (Sd ms1 S1) Pk) as ((ms' & R) & _). exists ms'. econstructor; eassumption.
    + intros ms' R. inversion R as [|? ? ms2 ? ? S2 R2]; subst. apply (IH ms2); auto.
Qed.
Lemma mholds_shows ms v r : mholds P sk ms v -> v_noise (snd (v r)) < 2 ^ 62 -> mreg_shows pr P sk ms r (fst (v r)) (v_width (snd (v r))) (v_value (snd (v r))).
Proof.
  intros (Hv & v' & Hx & Ag) Hn. unfold mreg_shows. pose proof (Hv r) as Hr. destruct (m_plain ms r) as [(x & w)|] eqn:E.
  - destruct Hr as (-> & _). auto.
  - split; [exact Hr|]. rewrite <- (Ag r E) in *. exact (xholds_decrypts X m h pr P B A HP HB Hok sk Hs (m_enc ms) v' r Hx Hn).
Qed.
End P.
