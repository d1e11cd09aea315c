(** Proofs: the out-of-order processor against the machine that runs one instruction at a time. *)
From Coq Require Import ZifyBool ZifyNat.
From Verif Require Import Base Alu Memory Isa SpecMem Processor SpecCpu ProcessorProofs ProcessorProofs2 ProcessorProofs3 ProcessorProofs4 ProcessorProofs5 ProcessorProofs6.
Open Scope nat_scope.

Lemma uadd_nonneg' p w a b r : (0 <= a)%Z -> (0 <= b)%Z -> (0 <= w)%Z -> uadd p w a b = Ok r -> (0 <= r)%Z.
Proof.
  unfold uadd, uwrap. intros A B W H. repeat match type of H with context [if ?c then _ else _] => destruct c end; try discriminate; injection H as <-; try lia; apply Z.mod_pos_bound; lia.
Qed.
Lemma next_pc_nonneg p i vals pc pc' : (0 <= pc)%Z -> next_pc p i vals pc = Ok (NGoto pc') -> (0 <= pc')%Z.
Proof.
  intros H. unfold next_pc.
  assert (S : (x <- uadd p 32 pc 8;; Ok (NGoto x)) = Ok (NGoto pc') -> (0 <= pc')%Z).
  { destruct (uadd p 32 pc 8) as [x| |] eqn:E; cbn [bind]; intros K; try discriminate. injection K as <-. eapply uadd_nonneg'; [exact H| | |exact E]; lia. }
  assert (U : forall x, (0 <= uwrap 32 x)%Z) by (intros x; unfold uwrap; apply Z.mod_pos_bound; lia).
  intros K. repeat match type of K with context [match ?x with _ => _ end] => destruct x; try discriminate; auto end; injection K as <-; auto.
Qed.

Lemma target_no_panic s w off : target s w off <> PlPanic.
Proof.
  unfold target, ptr_signed_offset. destruct s as [v x|]; [|discriminate]. destruct ((0 <=? uwrap 32 v + off)%Z && (uwrap 32 v + off <? 2 ^ 32)%Z); [|discriminate]. destruct (invalid_alignment _ _); discriminate.
Qed.
Lemma footprint_no_panic i vals : footprint i vals <> Panic.
Proof.
  rewrite footprint_place. assert (N : place_of i vals <> PlPanic).
  { unfold place_of. destruct (op i); try discriminate; repeat (destruct vals as [|? vals]; try discriminate); destruct (metas i) as [|? [|? [|? ?]]]; try discriminate; apply target_no_panic. }
  destruct (place_of i vals); cbn; congruence.
Qed.

Section Seq.
Context (p : profile) (glim : option Z) (r0 : Z -> reg) (m0 : mem) (pc0 : Z).
Local Notation T := (T p r0 m0).
Local Notation outs := (outs p).
Local Notation einv := (einv p r0 m0).
Local Notation winv := (winv p r0 m0).
Local Notation rob := (rob r0).
Local Notation trans := (trans p glim r0).
Local Notation reach := (reach p glim r0 m0 pc0).

Definition start : mach := {| m_pc := pc0; m_regs := r0; m_mem := m0 |}.
Definition St (es : list entry) (pc : Z) (k : nat) : mach := {| m_pc := pc; m_regs := fst (T es k); m_mem := snd (T es k) |}.
Definition vnext (es : list entry) (k : nat) (e : entry) : res next := next_pc p (e_ins e) (tvals (T es k) (e_ins e)) (e_pc e).
Definition arrives (es : list entry) (pc : Z) : Prop := match length es with O => pc = pc0 | S n => exists e, nth_error es n = Some e /\ vnext es n e = Ok (NGoto pc) end.
Definition SF : Prop := seq_faults p start.
Definition halted (es : list entry) : Prop := exists n e, length es = S n /\ nth_error es n = Some e /\ vnext es n e = Ok NHalt.

Record path (es : list entry) : Prop := {
  n_first : forall e, nth_error es 0 = Some e -> e_pc e = pc0;
  n_pcs : forall k e e', nth_error es k = Some e -> nth_error es (S k) = Some e' -> vnext es k e = Ok (NGoto (e_pc e'));
  n_fetch : forall k e, nth_error es k = Some e -> fetch (snd (T es k)) (e_pc e) = Ok (e_ins e);
  n_pos : forall k e, nth_error es k = Some e -> (0 <= e_pc e)%Z
}.
Record ninv (s : cpu) : Prop := {
  n_path : path (ents s);
  n_range : (0 <= pcv s)%Z;
  n_fe : fault s = None -> match fe s with FFetch => arrives (ents s) (pcv s) | FPump None | FBusy None _ | FEnd => halted (ents s) | _ => True end;
  n_flt : forall e, fault s = Some e -> e = EOutOfGas \/ SF;
  n_ffail : forall e, fault s = None -> fe s = FFail e -> e = EOutOfGas \/ SF;
  n_ph : forall j e, ph s j = PRet (Some e) \/ ph s j = PLock (Some e) \/ ph s j = PDrain (Some e) -> SF;
  n_msg : forall e, In (MRetire (Some e)) (chan s) -> SF;
  n_leak : leak s <> 0 -> SF;
  n_live : fault s <> None -> match fe s with FFetch | FLink _ _ | FPump (Some _) | FBusy (Some _) _ => SF | _ => True end
}.

Lemma seq_step_ok es k e m vs : fetch (snd (T es k)) (e_pc e) = Ok (e_ins e) -> nth_error es k = Some e -> outs (T es k) (e_ins e) = Some (m, vs) ->
  seq_step p (St es (e_pc e) k) = n <- vnext es k e ;; match n with NGoto pc => Ok (St es pc (S k), false) | NHalt => Ok (St es (e_pc e) (S k), true) end.
Proof.
  intros F N O. unfold seq_step, St. cbn [m_pc m_regs m_mem]. rewrite F. cbn [bind]. change (map (fst (T es k)) (src_regs (e_ins e))) with (tvals (T es k) (e_ins e)).
  rewrite (T_S p r0 m0 es k e N). unfold tstep. rewrite O. unfold ProcessorProofs5.outs in O.
  destruct (exec_instr p (e_ins e) (tvals (T es k) (e_ins e)) (snd (T es k))) as [m' [vs'| |]]; try discriminate. injection O as -> ->. cbn [bind fst snd]. unfold vnext.
  destruct (next_pc p (e_ins e) (tvals (T es k) (e_ins e)) (e_pc e)) as [[pc|]| |]; cbn [bind]; auto.
Qed.
Lemma seq_step_bad es k e : fetch (snd (T es k)) (e_pc e) = Ok (e_ins e) -> outs (T es k) (e_ins e) = None -> match seq_step p (St es (e_pc e) k) with Ok _ => False | _ => True end.
Proof.
  intros F O. unfold seq_step, St. cbn [m_pc m_regs m_mem]. rewrite F. cbn [bind]. change (map (fst (T es k)) (src_regs (e_ins e))) with (tvals (T es k) (e_ins e)).
  unfold ProcessorProofs5.outs in O. destruct (exec_instr p (e_ins e) (tvals (T es k) (e_ins e)) (snd (T es k))) as [m' [vs'| |]]; try discriminate; cbn [bind]; auto.
Qed.
Definition all_ok (es : list entry) (K : nat) : Prop := forall k e, k < K -> nth_error es k = Some e -> outs (T es k) (e_ins e) <> None.
Lemma run_to es K e : path es -> nth_error es K = Some e -> all_ok es K -> seq_run p start K (St es (e_pc e) K).
Proof.
  intros H. revert e. induction K as [|K IH]; intros e N A.
  - rewrite (n_first _ H e N). constructor.
  - destruct (nth_error es K) as [e'|] eqn:N'; [|apply nth_error_None in N'; assert (S K < length es) by (apply nth_error_Some; congruence); lia].
    assert (A' : all_ok es K) by (intros k x L; apply A; lia). specialize (IH e' eq_refl A'). econstructor; [exact IH|].
    destruct (outs (T es K) (e_ins e')) as [[m vs]|] eqn:O; [|exfalso; eapply (A K); eauto].
    rewrite (seq_step_ok es K e' m vs) by (auto; now apply H). rewrite (n_pcs _ H K e' e N' N). reflexivity.
Qed.
Lemma fail_or_ok es K : K <= length es -> all_ok es K \/ exists k e, k < K /\ nth_error es k = Some e /\ outs (T es k) (e_ins e) = None /\ all_ok es k.
Proof.
  induction K as [|K IH]; intros L; [left; intros k e Hk; lia|]. destruct IH as [A|(k & e & B)]; [lia| |right; exists k, e; intuition lia].
  destruct (nth_error es K) as [e|] eqn:N; [|apply nth_error_None in N; lia]. destruct (outs (T es K) (e_ins e)) as [y|] eqn:O; [|right; exists K, e; auto].
  left. intros k x Lk Nk. destruct (Nat.eq_dec k K) as [->|]; [congruence|]. eapply A; eauto. lia.
Qed.
Lemma SF_first es k e : path es -> nth_error es k = Some e -> outs (T es k) (e_ins e) = None -> all_ok es k -> SF.
Proof. intros H N O A. exists k, (St es (e_pc e) k). split; [now apply run_to|]. apply seq_step_bad; [now apply H|auto]. Qed.
Lemma SF_exec es j e : path es -> nth_error es j = Some e -> outs (T es j) (e_ins e) = None -> SF.
Proof.
  intros H N O. assert (L : j < length es) by (apply nth_error_Some; congruence). destruct (fail_or_ok es j ltac:(lia)) as [A|(k & x & Lk & Nk & Ok & A)]; eapply SF_first; eauto.
Qed.
Lemma run_here es pc : path es -> arrives es pc -> SF \/ seq_run p start (length es) (St es pc (length es)) /\ all_ok es (length es).
Proof.
  intros H A. destruct (fail_or_ok es (length es) ltac:(lia)) as [B|(k & x & Lk & Nk & Ok & B)]; [|left; eapply SF_first; eauto]. right. split; [|auto]. unfold arrives in A.
  destruct (length es) as [|n] eqn:L; [subst; constructor|]. destruct A as (e & N & V). econstructor; [apply (run_to es n e H N)|].
  - intros k x Lk. apply B. lia.
  - destruct (outs (T es n) (e_ins e)) as [[m vs]|] eqn:O; [|exfalso; eapply (B n); eauto]. rewrite (seq_step_ok es n e m vs) by (auto; now apply H). rewrite V. reflexivity.
Qed.
Lemma SF_here es pc : path es -> arrives es pc -> (match seq_step p (St es pc (length es)) with Ok _ => False | _ => True end) -> SF.
Proof. intros H A B. destruct (run_here es pc H A) as [|[R _]]; [auto|]. exists (length es), (St es pc (length es)). auto. Qed.
Lemma SF_next es n e : path es -> nth_error es n = Some e -> (match vnext es n e with Ok _ => False | _ => True end) -> SF.
Proof.
  intros H N V. destruct (outs (T es n) (e_ins e)) as [[m vs]|] eqn:O; [|eapply SF_exec; eauto]. assert (L : n < length es) by (apply nth_error_Some; congruence).
  destruct (fail_or_ok es n ltac:(lia)) as [A|(k & x & Lk & Nk & Ok & A)]; [|eapply SF_first; eauto]. exists n, (St es (e_pc e) n). split; [now apply run_to|].
  rewrite (seq_step_ok es n e m vs) by (auto; now apply H). destruct (vnext es n e); [contradiction|exact I|exact I].
Qed.

(** What the front end sees. *)
Lemma fetch_eq s : sinv s -> einv (ents s) (rm s) (mops s) -> winv s -> (forall o j, fe s <> FBusy o j) -> fault s = None -> (0 <= pcv s)%Z -> code_clear s (pcv s) = true ->
  fetch (mm s) (pcv s) = fetch (snd (T (ents s) (length (ents s)))) (pcv s).
Proof.
  intros SI E W NF Fa R CC. apply fetch_local; [auto|]. intros x Hx. apply (w_mem _ _ _ _ W); [|lia|].
  - intros j K. destruct (no_bad s SI Fa NF j); congruence.
  - intros j Hj. split; [intros _; eapply toucher_lt; eauto|intros L]. unfold code_clear in CC. rewrite forallb_forall in CC. specialize (CC (Z.to_nat (x - pcv s)) ltac:(apply in_seq; lia)).
    replace (pcv s + Z.of_nat (Z.to_nat (x - pcv s)))%Z with x in CC by lia. pose proof (v_mops _ _ _ _ _ _ E x) as M. destruct (mops s x) as [k|]; [|exfalso; eapply M; eauto]. destruct M as [M1 M2].
    unfold settled in CC. destruct (xs s k) eqn:X; try discriminate. specialize (M2 j Hj). destruct (Nat.eq_dec j k) as [->|]; [auto|]. eapply (chain_closed p r0 m0 s x SI E k j); eauto; [lia|]. intros t Ht. eapply s_cl; eauto.
Qed.
Lemma next_eq s n e : sinv s -> einv (ents s) (rm s) (mops s) -> winv s -> nth_error (ents s) n = Some e -> forallb (resolved s) (condition_reg (e_ins e) (e_src e)) = true ->
  next_pc p (e_ins e) (map (rob s) (e_src e)) (e_pc e) = vnext (ents s) n e.
Proof.
  intros SI E W N R. unfold vnext. apply next_pc_cond. rewrite <- (v_src _ _ _ _ _ _ E n e N).
  assert (G : condition_reg (e_ins e) (e_src e) = e_src e -> map (rob s) (e_src e) = map (valT p r0 m0 (ents s)) (e_src e)).
  { intros C. rewrite C in R. rewrite forallb_forall in R. apply map_ext_in. intros x I. apply rob_valT; auto. intros j q ->. pose proof (v_old _ _ _ _ _ _ E n e j q N I) as D.
    apply (c_dep _ _ _ _ _ _ (s_core _ SI)) in D. assert (n < length (ents s)) by (apply nth_error_Some; congruence). lia. }
  unfold condition_reg in G. destruct (op (e_ins e)); auto.
Qed.

Lemma path_snoc es e : path es -> (0 <= e_pc e)%Z -> arrives es (e_pc e) -> fetch (snd (T es (length es))) (e_pc e) = Ok (e_ins e) -> path (es ++ [e]).
Proof.
  intros H P A F. assert (L : forall k x, nth_error es k = Some x -> k <= length es) by (intros k x K; assert (k < length es) by (apply nth_error_Some; congruence); lia).
  assert (V : forall k x, nth_error es k = Some x -> vnext (es ++ [e]) k x = vnext es k x) by (intros k x K; unfold vnext; now rewrite T_snoc by eauto).
  split.
  - intros x K. apply nth_snoc in K as [K|[K ->]]; [now apply H|]. unfold arrives in A. rewrite <- K in A. exact A.
  - intros k x y Kx Ky. apply nth_snoc in Ky as [Ky|[Ky ->]].
    + apply nth_snoc in Kx as [Kx|[Kx _]]; [rewrite V by auto; now apply H|]. assert (S k < length es) by (apply nth_error_Some; congruence). lia.
    + apply nth_snoc in Kx as [Kx|[Kx _]]; [|lia]. rewrite V by auto. unfold arrives in A. rewrite <- Ky in A. destruct A as (z & Nz & A). congruence.
  - intros k x K. apply nth_snoc in K as [K|[-> ->]]; rewrite T_snoc by (eauto; lia); [now apply H|auto].
  - intros k x K. apply nth_snoc in K as [K|[-> ->]]; [eapply n_pos; eauto|auto].
Qed.

Record vinv (s : cpu) : Prop := { i_e : einv (ents s) (rm s) (mops s); i_w : winv s; i_n : ninv s }.

Lemma vinv_init : (0 <= pc0)%Z -> vinv (cpu_init m0 pc0).
Proof.
  intros P. split.
  - split; cbn; try tauto; try (intros k e; destruct k; discriminate); try (intros k e j q; destruct k; discriminate).
    + intros a k (e & K & _). destruct k; discriminate.
    + intros a k j (e & K & _). destruct k; discriminate.
  - split; cbn; try discriminate.
    + intros k e K. destruct k; discriminate.
    + intros _ a k L _. replace k with 0 by lia. reflexivity.
  - split; cbn; try discriminate; auto; try tauto.
    + split; cbn; try discriminate; intros k e; destruct k; discriminate.
    + intros j e [K|[K|K]]; discriminate.
Qed.

Lemma vinv_trans s s' : sinv s -> vinv s -> hazard s' = false -> trans s s' -> fe s' <> FAbort -> vinv s'.
Proof.
  intros SI V HZ TR NA. pose proof (s_core _ SI) as C. destruct V as [E W N]. destruct N as [NP NR NF NFl NFf NPh NM NK NV].
  destruct TR as [e F Fa|e F Fa Fe|i F Fa Fe G|i e F Fa Fe G Ft|i foot F Fa Fe G Ft|n d ds F D L|n d ds F D L|n F|n e pc g F Ch En Np G|n e F Ch En Np|n e x F Ch En Np|F I
    |o r rest F I Ch|o j rest e x F I Ch En Fa|o j rest e m vs F I Ch En Fa X|o j rest e m x F I Ch En Fa X|o j F P|e F|j r P|j r P|j r d rest P D|j r P D|s' A].
  - split; [exact E|eapply winv_same; eauto|]. split; pj; auto; try discriminate; try solve [intros K9; rewrite F in NV; apply NV; congruence|intros K9; congruence|destruct o; auto|intros K9; specialize (NV K9); rewrite F in NV; destruct o; auto]; try congruence; try discriminate.
  - assert (HC := HZ). apply consult_false in HC as [H0 HC]. specialize (HC Fa). assert (FE := fetch_eq s SI E W ltac:(rewrite F; discriminate) Fa NR HC).
    specialize (NF Fa). rewrite F in NF. assert (SFH : SF). { apply (SF_here (ents s) (pcv s) NP NF). unfold seq_step, St. cbn [m_pc m_mem]. rewrite <- FE, Fe. exact Logic.I. }
    split; [exact E|eapply winv_same; eauto|]. split; pj; auto; try discriminate; try solve [intros K9; rewrite F in NV; apply NV; congruence|intros K9; congruence|destruct o; auto|intros K9; specialize (NV K9); rewrite F in NV; destruct o; auto].
  - split; [exact E|eapply winv_same; eauto|]. split; pj; auto; try discriminate; try solve [intros K9; rewrite F in NV; apply NV; congruence|intros K9; congruence|destruct o; auto|intros K9; specialize (NV K9); rewrite F in NV; destruct o; auto]. intros e _ K. injection K as <-. auto.
  - assert (HC := HZ). pj. apply consult_false in HC as [H1 HC2]. pj. specialize (HC2 Fa). assert (HC := H1). apply consult_false in HC as [H0 HC1]. specialize (HC1 Fa).
    assert (FE := fetch_eq s SI E W ltac:(rewrite F; discriminate) Fa NR HC1). specialize (NF Fa). rewrite F in NF.
    assert (FT := disp_foot p r0 m0 s i _ SI E W Ft HC2). assert (SFH : SF).
    { apply (SF_here (ents s) (pcv s) NP NF). unfold seq_step, St. cbn [m_pc m_mem m_regs]. rewrite <- FE, Fe. cbn [bind].
      change (map (fst (T (ents s) (length (ents s)))) (src_regs i)) with (tvals (T (ents s) (length (ents s))) i). destruct (exec_bad p i _ e FT (snd (T (ents s) (length (ents s))))) as (r & -> & [->| ->]); exact Logic.I. }
    split; [exact E|eapply winv_same; eauto|]. split; pj; auto; try discriminate; try solve [intros K9; rewrite F in NV; apply NV; congruence|intros K9; congruence|destruct o; auto|intros K9; specialize (NV K9); rewrite F in NV; destruct o; auto].
  - assert (HC := HZ). pj. apply consult_false in HC as [H1 HC2]. pj. specialize (HC2 Fa). assert (HC := H1). apply consult_false in HC as [H0 HC1]. specialize (HC1 Fa).
    assert (FE := fetch_eq s SI E W ltac:(rewrite F; discriminate) Fa NR HC1). specialize (NF Fa). rewrite F in NF.
    assert (FT := disp_foot p r0 m0 s i _ SI E W Ft HC2).
    split; [exact (einv_disp p r0 m0 s i foot E SI)| |].
    + apply (winv_disp p r0 m0 s _ i {| e_ins := i; e_pc := pcv s; e_src := map (rm s) (src_regs i); e_deps := flat_map producer (map (rm s) (src_regs i)) ++ mem_deps s foot;
        e_foot := foot; e_gas := compute_gas i (map (rob s) (map (rm s) (src_regs i))) |}); auto.
    + split; pj; auto; try discriminate; try solve [intros K9; rewrite F in NV; apply NV; congruence|intros K9; congruence|destruct o; auto|intros K9; specialize (NV K9); rewrite F in NV; destruct o; auto]; try (intros; congruence).
      * apply path_snoc; auto. cbn [e_pc e_ins]. congruence.
      * intros j x K. ucase j (length (ents s)); [intuition discriminate|]. eauto.
  - split; [exact E|eapply winv_same; eauto|]. split; pj; auto; try discriminate; try solve [intros K9; rewrite F in NV; apply NV; congruence|intros K9; congruence|destruct o; auto|intros K9; specialize (NV K9); rewrite F in NV; destruct o; auto].
  - split; [exact E|eapply winv_same; eauto|]. split; pj; auto; try discriminate; try solve [intros K9; rewrite F in NV; apply NV; congruence|intros K9; congruence|destruct o; auto|intros K9; specialize (NV K9); rewrite F in NV; destruct o; auto].
  - prel n s. split; [pj; rewrite RPents, RPrm, RPmops; exact E|eapply winv_same; eauto|]. split; pj; rewrite ?RPents, ?RPpc, ?RPfault, ?RPchan, ?RPph, ?RPleak; auto; try discriminate; try solve [intros K9; rewrite F in NV; apply NV; congruence|intros K9; congruence|destruct o; auto|intros K9; specialize (NV K9); rewrite F in NV; destruct o; auto].
    + intros j x K. destruct (nd s n =? 1); [|eauto]. ucase j n; [intuition discriminate|eauto].
    + intros x K. destruct (nd s n =? 1); [|eauto]. apply in_app_or in K as [K|[K|[]]]; [eauto|discriminate].
  - assert (HC := HZ). pj. apply consult_false in HC as [H0 HC]. split; [exact E|eapply winv_same; eauto|]. split; pj; auto; try discriminate; try solve [intros K9; rewrite F in NV; apply NV; congruence|intros K9; congruence|destruct o; auto|intros K9; specialize (NV K9); rewrite F in NV; destruct o; auto].
    + eapply next_pc_nonneg; [|exact Np]. eapply n_pos; eauto.
    + intros Fa. specialize (HC Fa). pose proof (next_eq s n e SI E W En HC) as NE. pose proof (c_front _ _ _ _ _ _ C) as CF. rewrite F in CF. unfold arrives. rewrite <- CF. exists e. split; [auto|congruence].
  - assert (HC := HZ). pj. apply consult_false in HC as [H0 HC]. split; [exact E|eapply winv_same; eauto|]. split; pj; auto; try discriminate; try solve [intros K9; rewrite F in NV; apply NV; congruence|intros K9; congruence|destruct o; auto|intros K9; specialize (NV K9); rewrite F in NV; destruct o; auto].
    intros Fa. specialize (HC Fa). pose proof (next_eq s n e SI E W En HC) as NE. pose proof (c_front _ _ _ _ _ _ C) as CF. rewrite F in CF. exists n, e. split; [auto|]. split; [auto|congruence].
  - assert (HC := HZ). pj. apply consult_false in HC as [H0 HC]. split; [exact E|eapply winv_same; eauto|]. split; pj; auto; try discriminate; try solve [intros K9; rewrite F in NV; apply NV; congruence|intros K9; congruence|destruct o; auto|intros K9; specialize (NV K9); rewrite F in NV; destruct o; auto].
    intros y Fa K. injection K as <-. specialize (HC Fa). right. pose proof (next_eq s n e SI E W En HC) as NE. apply (SF_next (ents s) n e NP En). rewrite <- NE, Np. exact Logic.I.
  - split; [exact E|eapply winv_same; eauto|]. split; pj; auto; try discriminate; try solve [intros K9; rewrite F in NV; apply NV; congruence|intros K9; congruence|destruct o; auto|intros K9; specialize (NV K9); rewrite F in NV; destruct o; auto]. rewrite F in NF. auto.
  - split; [exact E|eapply winv_same; eauto|]. split; pj; auto; try discriminate; try solve [intros K9; rewrite F in NV; apply NV; congruence|intros K9; congruence|destruct o; auto|intros K9; specialize (NV K9); rewrite F in NV; destruct o; auto].
    + intros K. apply NF. destruct (fault s); [discriminate|auto].
    + intros x K. destruct (fault s) as [y|] eqn:Fa; cbn in K; [auto|]. right. subst r. apply (NM x). rewrite Ch. now left.
    + intros x K. apply (NM x). rewrite Ch. now right.
    + intros K. destruct (fault s) as [y|] eqn:Fa; [apply NV; congruence|]. cbn in K. destruct r as [x|]; [|congruence]. assert SF by (apply (NM x); rewrite Ch; now left). rewrite F. destruct o; auto.
  - assert (Xj : xs s j = XNo). { apply (s_xs _ SI). rewrite F, Ch in C. destruct (core_exec _ _ _ _ _ _ _ (PRet None) C eq_refl) as [_ Rj]. lia. }
    split; [exact E|eapply winv_skip; eauto|]. split; pj; auto; try discriminate; try solve [intros K9; rewrite F in NV; apply NV; congruence|intros K9; congruence|destruct o; auto|intros K9; specialize (NV K9); rewrite F in NV; destruct o; auto]; try (intros; congruence).
    + intros k y K. ucase k j; [intuition discriminate|eauto].
    + intros y K. apply (NM y). rewrite Ch. now right.
  - destruct (exec_ok_proj r0 j e m vs o (set_chan rest s)) as (Q1 & Q2 & Q3 & Q4 & Q5 & Q6 & Q7 & Q8 & Q9 & Q10 & Q11 & Q12 & Q13 & Q14 & Q15 & Q16 & Q17 & Q18). pj.
    split; [rewrite Q4, Q5, Q6; exact E|eapply winv_ok with (s := s); eauto|]. split; rewrite ?Q1, ?Q2, ?Q4, ?Q7, ?Q11, ?Q13, ?Q18; auto.
    + intros K. specialize (NF K). rewrite F in NF. destruct (spawns _ _); auto.
    + intros y _ K. destruct (spawns _ _); discriminate.
    + intros k y K. ucase k j; [intuition discriminate|eauto].
    + intros y K. apply (NM y). rewrite Ch. now right.
    + intros K. specialize (NV K). rewrite F in NV. destruct (spawns _ _); auto.
  - assert (W' : winv (set_fe (FBusy o j) (set_ph (upd (ph s) j (PRet (Some x))) (set_xs (upd (xs s) j XFail) (set_mm m (set_chan rest s)))))) by (eapply winv_fail with (s := s); eauto; reflexivity).
    assert (SFH : SF). { apply (SF_exec (ents s) j e NP En). apply (w_fail _ _ _ _ W' j e); [pj; now rewrite upd_same|auto]. }
    split; [exact E|exact W'|]. split; pj; auto; try discriminate; try solve [intros K9; rewrite F in NV; apply NV; congruence|intros K9; congruence|destruct o; auto|intros K9; specialize (NV K9); rewrite F in NV; destruct o; auto].
    + intros K. specialize (NF K). rewrite F in NF. auto.
  - split; [exact E|eapply winv_same; eauto|]. split; pj; auto; try discriminate; try solve [intros K9; rewrite F in NV; apply NV; congruence|intros K9; congruence|destruct o; auto|intros K9; specialize (NV K9); rewrite F in NV; destruct o; auto].
    intros K. specialize (NF K). rewrite F in NF. auto.
  - split; [exact E|eapply winv_same; eauto|]. split; pj; auto; try discriminate; try solve [intros K9; rewrite F in NV; apply NV; congruence|intros K9; congruence|destruct o; auto|intros K9; specialize (NV K9); rewrite F in NV; destruct o; auto].
    + intros K. destruct (fault s); discriminate.
    + intros x K. destruct (fault s) as [y|] eqn:Fa; cbn in K; [auto|]. injection K as <-. auto.
  - split; [exact E|eapply winv_same; eauto|]. split; pj; auto; try discriminate; try solve [intros K9; rewrite F in NV; apply NV; congruence|intros K9; congruence|destruct o; auto|intros K9; specialize (NV K9); rewrite F in NV; destruct o; auto].
    + intros K. apply NF. destruct (fault s); [discriminate|auto].
    + intros x K. destruct (fault s) as [y|] eqn:Fa; cbn in K; [auto|]. right. subst r. apply (NPh j x). auto.
    + intros x K. apply NFf. destruct (fault s); [discriminate|auto].
    + intros k x K. ucase k j; [|eauto]. apply (NPh j x). rewrite P. destruct K as [K|[K|K]]; try discriminate. injection K as ->. auto.
    + intros K. destruct (fault s) as [y|] eqn:Fa; [apply NV; congruence|]. cbn in K. destruct r as [x|]; [|congruence]. assert SF by (apply (NPh j x); auto). destruct (fe s) as [| |[]|[]| | |]; auto.
  - split; [exact E|eapply winv_same; eauto|]. split; pj; auto; try discriminate; try solve [intros K9; rewrite F in NV; apply NV; congruence|intros K9; congruence|destruct o; auto|intros K9; specialize (NV K9); rewrite F in NV; destruct o; auto].
    intros k x K. ucase k j; [|eauto]. apply (NPh j x). rewrite P. destruct K as [K|[K|K]]; try discriminate. injection K as ->. auto.
  - prel d (set_dl (upd (dl s) j rest) s). pj. split; [rewrite RPents, RPrm, RPmops; exact E|eapply winv_same; eauto|]. split; rewrite ?RPfe, ?RPents, ?RPpc, ?RPfault, ?RPchan, ?RPph, ?RPleak; auto; try discriminate; try solve [intros K9; rewrite F in NV; apply NV; congruence|intros K9; congruence|destruct o; auto|intros K9; specialize (NV K9); rewrite F in NV; destruct o; auto].
    + intros k x K. destruct (nd s d =? 1); [|eauto]. ucase k d; [intuition discriminate|eauto].
    + intros x K. destruct (nd s d =? 1); [|eauto]. apply in_app_or in K as [K|[K|[]]]; [eauto|discriminate].
  - split; [exact E|eapply winv_same; eauto|]. split; pj; auto; try discriminate; try solve [intros K9; rewrite F in NV; apply NV; congruence|intros K9; congruence|destruct o; auto|intros K9; specialize (NV K9); rewrite F in NV; destruct o; auto].
    + intros k x K. ucase k j; [intuition discriminate|eauto].
    + intros x K. apply in_app_or in K as [K|[K|[]]]; [eauto|]. injection K as ->. apply (NPh j x). auto.
  - apply why_abort in A. congruence.
Qed.

Lemma hazard_trans s s' : trans s s' -> hazard s' = false -> hazard s = false.
Proof.
  assert (K : forall x b, consult x b = false -> hazard x = false) by (intros x b H; now apply consult_false in H).
  intros TR H. destruct TR; pj; eauto.
  - apply K in H. pj. eauto.
  - apply K in H. pj. eauto.
  - prel n s. congruence.
  - destruct (exec_ok_proj r0 j e m vs o (set_chan rest s)) as (Q1 & Q2 & Q3 & Q4 & Q5 & Q6 & Q7 & Q8 & Q9 & Q10 & Q11 & Q12 & Q13 & Q14 & Q15 & Q16 & Q17 & Q18). pj. congruence.
  - prel d (set_dl (upd (dl s) j rest) s). pj. congruence.
  - destruct H0; pj; eauto. apply K in H. pj. eauto.
Qed.
Lemma reach_vinv s : (0 <= pc0)%Z -> reach s -> fe s <> FAbort -> hazard s = false -> vinv s.
Proof.
  intros P R F. revert s R F. apply (reach_ind' p glim r0 m0 pc0 (fun s => hazard s = false -> vinv s)); [intros _; now apply vinv_init|].
  intros s s' R IH Fs Fs' TR H. eapply vinv_trans; eauto; [eapply reach_sinv; eauto|]. apply IH; auto. eapply hazard_trans; eauto.
Qed.

(** All instructions have been executed when the main thread has finished. *)
Lemma all_done s : sinv s -> infl s = 0 -> forall j, j < length (ents s) -> rank (ph s j) = 6.
Proof.
  intros SI H j L. pose proof (s_acc _ SI) as A. assert (U : undone (ph s) (length (ents s)) = 0) by lia. unfold undone in U.
  pose proof (sumn_ge (fun k => if rank (ph s k) =? 6 then 0 else 1) (length (ents s)) j L) as G. cbn beta in G. destruct (rank (ph s j) =? 6) eqn:E; lia.
Qed.
Lemma end_infl s : reach s -> fe s = FEnd -> infl s = 0 /\ chan s = [].
Proof.
  intros R F. assert (G : fe s <> FAbort -> fe s = FEnd -> infl s = 0 /\ chan s = []).
  { revert s R F. intros s R _. revert s R. apply (reach_ind' p glim r0 m0 pc0 (fun s => fe s = FEnd -> infl s = 0 /\ chan s = [])); [discriminate|].
    intros s s' R IH Fs Fs' TR E. assert (SI : sinv s) by (eapply reach_sinv; eauto).
    assert (PH : fe s = FEnd -> forall j, rank (ph s j) = 0 \/ rank (ph s j) = 6).
    { intros K j. destruct (IH Fs K) as [I _]. destruct (Nat.ltb_spec j (length (ents s))) as [L|L]; [right; now apply all_done|]. pose proof (c_rank _ _ _ _ _ _ (s_core _ SI) j). left. lia. }
    destruct TR as [e F Fa|e F Fa Fe|i F Fa Fe G|i e F Fa Fe G Ft|i foot F Fa Fe G Ft|n d ds F D L|n d ds F D L|n F|n e pc g F Ch En Np G|n e F Ch En Np|n e x F Ch En Np|F I
    |o r rest F I Ch|o j rest e x F I Ch En Fa|o j rest e m vs F I Ch En Fa X|o j rest e m x F I Ch En Fa X|o j F P|e F|j r P|j r P|j r d rest P D|j r P D|s' A]; pj; try discriminate; try congruence.
    - split; [auto|]. pose proof (s_acc _ SI) as A. destruct (chan s) as [|m c] eqn:Ch; [auto|]. exfalso. destruct m as [j|r].
      + pose proof (c_queue _ _ _ _ _ _ (s_core _ SI) j) as Q. rewrite Ch, cexec_cons, Nat.eqb_refl in Q. assert (Rj : rank (ph s j) = 2) by (destruct (rank (ph s j) =? 2) eqn:K; lia).
        assert (j < length (ents s)) by (apply (c_rank _ _ _ _ _ _ (s_core _ SI)); lia). pose proof (all_done s SI I j ltac:(auto)). lia.
      + change (cret (MRetire r :: c)) with (S (cret c)) in A. lia.
    - destruct (exec_ok_proj r0 j e m vs o (set_chan rest s)) as (Q1 & _). rewrite Q1 in E. destruct (spawns _ _); discriminate.
    - destruct (PH E j) as [K|K]; rewrite P in K; discriminate.
    - destruct (PH E j) as [K|K]; rewrite P in K; discriminate.
    - prel d (set_dl (upd (dl s) j rest) s). pj. rewrite RPfe in E. destruct (PH E j) as [K|K]; rewrite P in K; discriminate.
    - destruct (PH E j) as [K|K]; rewrite P in K; discriminate.
    - apply why_abort in A. congruence. }
  apply G; [congruence|auto].
Qed.

(** The processor stopped without a fault: it computed what running the program one instruction at a time computes. *)
Theorem ooo_end s : (0 <= pc0)%Z -> reach s -> hazard s = false -> fe s = FEnd -> fault s = None ->
  exists s', seq_halts p start (length (ents s)) s' /\ same_regs (fun r => rob s (rm s r)) (m_regs s') /\ same_mem (mm s) (m_mem s').
Proof.
  intros P R H F Fa. assert (NA : fe s <> FAbort) by congruence. assert (SI : sinv s) by (eapply reach_sinv; eauto). destruct (reach_vinv s P R NA H) as [E W N].
  destruct (end_infl s R F) as [I0 _]. assert (XK : forall j, j < length (ents s) -> xs s j = XOk).
  { intros j L. destruct (no_bad s SI Fa ltac:(rewrite F; discriminate) j) as [X|X]; [|auto]. apply (s_xs _ SI) in X. pose proof (all_done s SI I0 j L). lia. }
  assert (AO : all_ok (ents s) (length (ents s))). { intros k e L K O. destruct (w_ok _ _ _ _ W k e (XK k L) K) as (m & O'). congruence. }
  pose proof (n_fe _ N Fa) as Hh. rewrite F in Hh. destruct Hh as (n & e & L & Ne & V).
  exists (St (ents s) (e_pc e) (S n)). split; [|split].
  - exists n, (St (ents s) (e_pc e) n). split; [auto|]. split; [apply run_to; [apply N|auto|intros k x Lk; apply AO; lia]|].
    destruct (outs (T (ents s) n) (e_ins e)) as [[m vs]|] eqn:O; [|exfalso; eapply (AO n); eauto; lia]. rewrite (seq_step_ok (ents s) n e m vs) by (auto; now apply N). rewrite V. reflexivity.
  - intros r. cbn [St m_regs]. rewrite <- L, (v_rm _ _ _ _ _ _ E r). apply rob_valT; auto; [|intros j q Q; eapply s_rm; eauto].
    destruct (rm s r) as [|j q] eqn:Q; [auto|]. cbn. unfold settled. now rewrite XK by (eapply s_rm; eauto).
  - intros a. cbn [St m_mem]. rewrite <- L. apply (w_mem _ _ _ _ W); [intros j K; destruct (no_bad s SI Fa ltac:(rewrite F; discriminate) j); congruence|lia|].
    intros j Hj. apply toucher_lt in Hj. split; auto.
Qed.
(** A fault other than running out of gas means that the program faults. *)
Theorem ooo_fault s e : (0 <= pc0)%Z -> reach s -> hazard s = false -> fe s <> FAbort -> fault s = Some e -> e = EOutOfGas \/ seq_faults p start.
Proof. intros P R H F Fa. destruct (reach_vinv s P R F H) as [E W N]. eapply n_flt; eauto. Qed.
Theorem ooo_leak s : (0 <= pc0)%Z -> reach s -> hazard s = false -> fe s <> FAbort -> leak s <> 0 -> seq_faults p start.
Proof. intros P R H F L. destruct (reach_vinv s P R F H) as [E W N]. eapply n_leak; eauto. Qed.

(** A panic of the main thread means that the program faults, or that the gas counter overflowed. *)
Lemma uadd_release w a b : exists g, uadd Release w a b = Ok g.
Proof. unfold uadd. destruct (a + b <? 2 ^ w)%Z; eexists; reflexivity. Qed.
Lemma ooo_abort_step s s' : (0 <= pc0)%Z -> sinv s -> vinv s -> hazard s' = false -> why p r0 s s' -> SF \/ p = Debug /\ exists e n, S n = length (ents s) /\ nth_error (ents s) n = Some e /\ forall g, uadd p 32 (gasv s) (e_gas e) <> Ok g.
Proof.
  intros P SI [E W N] HZ Y. destruct N as [NP NR NF NFl NFf NPh NM NK NV]. pose proof (s_core _ SI) as C.
  destruct Y as [F Fa Fe|i F Fa Fe Ft|n ds F|n F En|n e F Ch En Np|n e pc F Ch En Np G|o j rest F Ch En|o j rest e m F Ch En Fa X]; pj.
  - left. apply consult_false in HZ as [H0 HC]. specialize (HC Fa). assert (FE := fetch_eq s SI E W ltac:(rewrite F; discriminate) Fa NR HC).
    specialize (NF Fa). rewrite F in NF. apply (SF_here (ents s) (pcv s) NP NF). unfold seq_step, St. cbn [m_pc m_mem]. rewrite <- FE, Fe. exact Logic.I.
  - exfalso. eapply footprint_no_panic; eauto.
  - exfalso. pose proof (c_front _ _ _ _ _ _ C) as CF. rewrite F in CF. destruct CF as [_ D]. specialize (D n ltac:(now left)). apply (c_dep _ _ _ _ _ _ C) in D. lia.
  - exfalso. pose proof (c_front _ _ _ _ _ _ C) as CF. rewrite F in CF. apply nth_error_None in En. lia.
  - destruct (fault s) eqn:Fa.
    + left. rewrite F in NV. apply NV. congruence.
    + left. apply consult_false in HZ as [H0 HC]. specialize (HC Fa). pose proof (next_eq s n e SI E W En HC) as NE. apply (SF_next (ents s) n e NP En). rewrite <- NE, Np. exact Logic.I.
  - right. split; [destruct p; [auto|]|]. 
    + exfalso. destruct (uadd_release 32 (gasv s) (e_gas e)) as (g & Gg). eapply G; eauto.
    + pose proof (c_front _ _ _ _ _ _ C) as CF. rewrite F in CF. exists e, n. auto.
  - exfalso. rewrite F, Ch in C. destruct (core_exec _ _ _ _ _ _ _ (PRet None) C eq_refl) as [_ Rj]. apply nth_error_None in En. assert (j < length (ents s)) by (apply (c_rank _ _ _ _ _ _ C); lia). lia.
  - left. destruct (exec_inputs p r0 m0 s o j rest e SI E W F Ch En Fa) as (V & A & Xj). pose proof (outs_eq p _ _ _ _ _ _ V X _ (w_foot _ _ _ _ W j e En) A) as O. cbn in O. eapply SF_exec; eauto.
Qed.
End Seq.
