(** The other direction: an operation that succeeds on ciphertexts succeeds on the messages. *)
From Verif Require Import Base Alu AluProofs Graph MuxGraph MuxGraphProofs FheGraph SpecFhe FheProofs PolyRing Eval SpecTfhe SpecGlwe SpecBoot SpecTrace SpecSwitch SpecCbs SpecEval EvalProofs EvalProofs2 EvalProofs3.
Ltac Zify.zify_post_hook ::= idtac.
Open Scope Z_scope.

Section S.
Context (P : params) (B : bounds) (sk : secret_key).
Local Notation enc := (encrypts P sk).

Lemma rmatched_0 ms cs Es c : matched P sk ms cs Es -> kin0 cs = Ok c -> exists m, inp0 ms = Ok m /\ encrypts_opt P sk (noise0 Es) m c.
Proof. intros H. destruct H as [|l m' c' E ms cs Es He H]; [discriminate|]. cbn [inp0 kin0 snd noise0]. intros [= <-]. eauto. Qed.
Lemma rmatched_1 ms cs Es c : matched P sk ms cs Es -> kin1 cs = Ok c -> exists m, inp1 ms = Ok m /\ encrypts_opt P sk (noise1 Es) m c.
Proof.
  intros H. destruct H as [|l m' c' E ms cs Es He H]; [discriminate|]. destruct H as [|l2 m2 c2 E2 ms cs Es He2 H]; [discriminate|].
  cbn [inp1 kin1 snd noise1]. intros [= <-]. eauto.
Qed.
Lemma rmatched_l l ms cs Es c : matched P sk ms cs Es -> kinl l cs = Ok c -> exists m, inpl l ms = Ok m /\ encrypts_opt P sk (noise_at l Es) m c.
Proof.
  intros H. induction H as [|l' m' c' E ms cs Es He H IH]; [discriminate|]. unfold inpl, kinl, noise_at, find_in in *. cbn [find fst].
  destruct (fedge_eqb l' l); [|exact IH]. cbn [option_map snd]. intros [= <-]. eauto.
Qed.
Lemma renc_lwe0 E m c x : encrypts_opt P sk E m c -> as_lwe0 c = Ok x -> exists b, lwe0 m = Ok b.
Proof. destruct c as [[]|]; try discriminate. intros H _. destruct m as [[]|]; cbn [encrypts_opt encrypts] in H; try contradiction. eexists. reflexivity. Qed.
Lemma renc_lwe1 E m c x : encrypts_opt P sk E m c -> as_lwe1 c = Ok x -> exists b, lwe1 m = Ok b.
Proof. destruct c as [[]|]; try discriminate. intros H _. destruct m as [[]|]; cbn [encrypts_opt encrypts] in H; try contradiction. eexists. reflexivity. Qed.
Lemma renc_glwe E m c x : encrypts_opt P sk E m c -> as_glwe c = Ok x -> exists b, FheGraph.glwe m = Ok b.
Proof. destruct c as [[]|]; try discriminate. intros H _. destruct m as [[]|]; cbn [encrypts_opt encrypts] in H; try contradiction. eexists. reflexivity. Qed.
Lemma renc_ggsw E m c x : encrypts_opt P sk E m c -> as_ggsw c = Ok x -> exists b, FheGraph.ggsw m = Ok b.
Proof. destruct c as [[]|]; try discriminate. intros H _. destruct m as [[]|]; cbn [encrypts_opt encrypts] in H; try contradiction. eexists. reflexivity. Qed.
Lemma renc_glev E m c x : encrypts_opt P sk E m c -> as_glev c = Ok x -> exists b, FheGraph.glev m = Ok b.
Proof. destruct c as [[]|]; try discriminate. intros H _. destruct m as [[]|]; cbn [encrypts_opt encrypts] in H; try contradiction. eexists. reflexivity. Qed.

Ltac in0 Hm Hk := match type of Hk with context [bind (kin0 ?i) _] => let c := fresh "c" in let E := fresh "E" in destruct (kin0 i) as [c| |] eqn:E; try discriminate; let m := fresh "m" in destruct (rmatched_0 _ _ _ _ Hm E) as (m & -> & ?) end.
Ltac in1 Hm Hk := match type of Hk with context [bind (kin1 ?i) _] => let c := fresh "c" in let E := fresh "E" in destruct (kin1 i) as [c| |] eqn:E; try discriminate; let m := fresh "m" in destruct (rmatched_1 _ _ _ _ Hm E) as (m & -> & ?) end.
Ltac inl' Hm Hk := match type of Hk with context [bind (kinl ?l ?i) _] => let c := fresh "c" in let E := fresh "E" in destruct (kinl l i) as [c| |] eqn:E; try discriminate; let m := fresh "m" in destruct (rmatched_l _ _ _ _ _ Hm E) as (m & -> & ?) end.
Ltac as' Hk := match type of Hk with
  | context [bind (as_lwe0 ?c) _] => let E := fresh "E" in destruct (as_lwe0 c) eqn:E; try discriminate; match goal with H : encrypts_opt _ _ _ _ c |- _ => destruct (renc_lwe0 _ _ _ _ H E) as (? & ->) end
  | context [bind (as_lwe1 ?c) _] => let E := fresh "E" in destruct (as_lwe1 c) eqn:E; try discriminate; match goal with H : encrypts_opt _ _ _ _ c |- _ => destruct (renc_lwe1 _ _ _ _ H E) as (? & ->) end
  | context [bind (as_glwe ?c) _] => let E := fresh "E" in destruct (as_glwe c) eqn:E; try discriminate; match goal with H : encrypts_opt _ _ _ _ c |- _ => destruct (renc_glwe _ _ _ _ H E) as (? & ->) end
  | context [bind (as_ggsw ?c) _] => let E := fresh "E" in destruct (as_ggsw c) eqn:E; try discriminate; match goal with H : encrypts_opt _ _ _ _ c |- _ => destruct (renc_ggsw _ _ _ _ H E) as (? & ->) end
  | context [bind (as_glev ?c) _] => let E := fresh "E" in destruct (as_glev c) eqn:E; try discriminate; match goal with H : encrypts_opt _ _ _ _ c |- _ => destruct (renc_glev _ _ _ _ H E) as (? & ->) end
  end.
Lemma op_reflects pc f cells kcells op ins kins ns co : pc_params pc = P -> matched P sk ins kins ns ->
  kexec_op pc f kcells op kins = Ok co -> exists o, exec_op (p_N P) cells op ins = Ok o.
Proof.
  intros HPp Hm Hk. unfold exec_op, kexec_op in *. rewrite HPp in Hk.
  rewrite (validate_same (p_N P) op (shapes kins) ins (matched_same P sk _ _ _ Hm)) in Hk.
  destruct (validate (p_N P) op ins) as [[]| |]; try discriminate. cbn [bind] in *. unfold krun_op in Hk. rewrite HPp in Hk. cbv zeta in Hk. unfold run_op.
  destruct op; try (eexists; reflexivity).
  - in0 Hm Hk. cbn [bind] in *. destruct c as [c|]; [|discriminate]. destruct m as [m|]; [|contradiction]. destruct (encrypts_ty P sk _ _ _ H) as (_ & Et). rewrite Et in Hk.
    destruct (cty_eqb (ty_of m) t); [|discriminate]. eexists; reflexivity.
  - in0 Hm Hk. cbn [bind] in *. as' Hk. eexists; reflexivity.
  - in0 Hm Hk. cbn [bind] in *. as' Hk. eexists; reflexivity.
  - in0 Hm Hk. cbn [bind] in *. as' Hk. eexists; reflexivity.
  - in0 Hm Hk. cbn [bind] in *. as' Hk. cbn [bind] in *. in1 Hm Hk. cbn [bind] in *. as' Hk. eexists; reflexivity.
  - inl' Hm Hk. cbn [bind] in *. as' Hk. cbn [bind] in *. inl' Hm Hk. cbn [bind] in *. as' Hk. cbn [bind] in *. inl' Hm Hk. cbn [bind] in *. as' Hk. eexists; reflexivity.
  - inl' Hm Hk. cbn [bind] in *. as' Hk. cbn [bind] in *. inl' Hm Hk. cbn [bind] in *. as' Hk. cbn [bind] in *. inl' Hm Hk. cbn [bind] in *. as' Hk. eexists; reflexivity.
  - inl' Hm Hk. cbn [bind] in *. as' Hk. cbn [bind] in *. inl' Hm Hk. cbn [bind] in *. as' Hk. eexists; reflexivity.
  - in0 Hm Hk. cbn [bind] in *. as' Hk. eexists; reflexivity.
  - inl' Hm Hk. cbn [bind] in *. as' Hk. eexists; reflexivity.
  - destruct t; try discriminate; eexists; reflexivity.
  - destruct t; try discriminate; eexists; reflexivity.
  - inl' Hm Hk. cbn [bind] in *. as' Hk. eexists; reflexivity.
Qed.

Context (HP : params_ok P) (HB : bounds_ok B) (Hsk : secret_ok P sk).
Lemma circuit_reflects pc fp cells kcells cell g E : proc_ok P B sk pc -> (forall n, fenv_ok P B (fp n)) ->
  (forall t r, enc (cell t r) (cells t r) (kcells t r)) -> noise_ok P B cell g E ->
  (forall n co, kvalue pc fp kcells g n co -> exists o, fvalue (p_N P) cells g n o /\ encrypts_out P sk (E n) o co) /\
  (forall es kins, kinputs pc fp kcells g es kins -> exists ins, finputs (p_N P) cells g es ins /\
     matched P sk ins kins (map (fun e => (snd e, E (fst (fst e)))) es)).
Proof.
  intros Hpc Hf Hcells Hn. apply kvalue_kinputs_min.
  - intros n op kins co Hop _ (ins & Hk & Hm) He. destruct (Hn n op Hop) as (Hc & Hle).
    destruct (op_reflects pc (fp n) cells kcells op ins kins _ co (pk_params _ _ _ _ Hpc) Hm He) as (o & Eo).
    destruct (op_refines P B sk pc (fp n) HP HB Hsk Hpc (Hf n) cells kcells cell op ins kins _ o Hcells Hm Hc Eo) as (co' & Eco & Henc).
    rewrite Eco in He. injection He as ->. exists o. split; [econstructor; eassumption|]. eapply encrypts_out_weaken; eassumption.
  - exists []. split; constructor.
  - intros s t l es c w ins _ (co & Hv & He) _ (kins & Hi & Hm). destruct co as [kc kw]. exists ((l, kc) :: kins). split.
    + econstructor; eassumption.
    + cbn [map fst snd]. constructor; [|assumption]. apply He.
Qed.
End S.
