(** Proofs: gas; total correctness of direct programs; what a fault does. *)
From Coq Require Import ZifyBool ZifyNat.
From Verif Require Import Base Alu Memory Isa SpecMem Processor SpecCpu ProcessorProofs ProcessorProofs2 ProcessorProofs3 ProcessorProofs4 ProcessorProofs5 ProcessorProofs6 ProcessorProofs7 ProcessorProofs8 ProcessorProofs9.
Open Scope nat_scope.

Lemma uadd_le p w a b r : (0 <= a)%Z -> (0 <= b)%Z -> (0 <= w)%Z -> uadd p w a b = Ok r -> (0 <= r <= a + b)%Z.
Proof.
  unfold uadd, uwrap. intros A B W H. repeat match type of H with context [if ?c then _ else _] => destruct c end; try discriminate; injection H as <-; try lia.
  assert (0 < 2 ^ w)%Z by lia. pose proof (Z.mod_pos_bound (a + b) (2 ^ w) ltac:(lia)). pose proof (Z.mod_le (a + b) (2 ^ w) ltac:(lia) ltac:(lia)). lia.
Qed.
Lemma gas_pos i vals : (0 <= compute_gas i vals)%Z.
Proof. unfold compute_gas. destruct (op i); repeat match goal with |- context [if ?c then _ else _] => destruct c end; lia. Qed.
Definition less_cipher (a b : reg) : Prop := is_cipher_reg a = true -> is_cipher_reg b = true.
Lemma cipher_mono xs ys : Forall2 less_cipher xs ys -> existsb is_cipher_reg xs = true -> existsb is_cipher_reg ys = true.
Proof. induction 1 as [|x y xs ys H _ IH]; cbn; [auto|]. unfold less_cipher in H. intros K. apply orb_true_iff in K as [K|K]; apply orb_true_iff; auto. Qed.
Lemma gas_mono i xs ys : Forall2 less_cipher xs ys -> (compute_gas i xs <= compute_gas i ys)%Z.
Proof.
  intros H. unfold compute_gas. pose proof (cipher_mono xs ys H) as E.
  assert (Q : (match xs with [_; s] => is_cipher_reg s | _ => false end) = true -> (match ys with [_; s] => is_cipher_reg s | _ => false end) = true).
  { destruct H as [|x y xs ys _ [|x' y' xs' ys' H' [|]]]; try discriminate. exact H'. }
  destruct (op i); try lia;
  repeat match goal with |- context [if ?c then _ else _] => destruct c end; try lia; try (specialize (E eq_refl); discriminate); try (specialize (Q eq_refl); discriminate).
Qed.

Section Gas.
Context (p : profile) (glim : option Z) (r0 : Z -> reg) (m0 : mem) (pc0 : Z).
Local Notation T := (T p r0 m0).
Local Notation outs := (outs p).
Local Notation einv := (einv p r0 m0).
Local Notation winv := (winv p r0 m0).
Local Notation rob := (rob r0).
Local Notation trans := (trans p glim r0).
Local Notation reach := (reach p glim r0 m0 pc0).
Local Notation step := (step p glim r0).
Local Notation start := (start r0 m0 pc0).
Local Notation St := (St p r0 m0).
Local Notation SF := (SF p r0 m0 pc0).
Local Notation path := (path p r0 m0 pc0).
Local Notation arrives := (arrives p r0 m0 pc0).
Local Notation vinv := (vinv p r0 m0 pc0).
Local Notation qinv := (qinv p r0 m0).

(** Registers nobody has written hold the default. *)
Definition dinv (s : cpu) : Prop := forall j, xs s j <> XOk -> dv s j = [].
Lemma dinv_trans s s' : sinv s -> dinv s -> trans s s' -> fe s' <> FAbort -> dinv s'.
Proof.
  intros SI D TR NA. unfold dinv in *. destruct TR as [e F Fa|e F Fa Fe|i F Fa Fe G|i e F Fa Fe G Ft|i foot F Fa Fe G Ft|n d ds F D' L|n d ds F D' L|n F|n e pc g F Ch En Np G|n e F Ch En Np|n e x F Ch En Np|F I
    |o r rest F I Ch|o j rest e x F I Ch En Fa|o j rest e m vs F I Ch En Fa X|o j rest e m x F I Ch En Fa X|o j F P|e F|j r P|j r P|j r d rest P D'|j r P D'|s' A]; pj; auto.
  - prel n s. rewrite RPxs, RPdv. auto.
  - intros k K. ucase k j; [|auto]. apply D. assert (X : xs s j = XNo); [|congruence]. apply (s_xs _ SI). pose proof (s_core _ SI) as C. rewrite F, Ch in C. destruct (core_exec _ _ _ _ _ _ _ (PRet None) C eq_refl) as [_ Rj]. lia.
  - destruct (exec_ok_proj r0 j e m vs o (set_chan rest s)) as (Q1 & Q2 & Q3 & Q4 & Q5 & Q6 & Q7 & Q8 & Q9 & Q10 & Q11 & Q12 & Q13 & Q14 & Q15 & Q16 & Q17 & Q18). pj. rewrite Q10, Q16. intros k K. ucase k j; [congruence|auto].
  - intros k K. ucase k j; [|auto]. apply D. assert (X' : xs s j = XNo); [|congruence]. apply (s_xs _ SI). pose proof (s_core _ SI) as C. rewrite F, Ch in C. destruct (core_exec _ _ _ _ _ _ _ (PRet None) C eq_refl) as [_ Rj]. lia.
  - prel d (set_dl (upd (dl s) j rest) s). pj. rewrite RPxs, RPdv. auto.
  - apply why_abort in A. congruence.
Qed.

Fixpoint Gs (es : list entry) (k : nat) : Z :=
  match k with O => 0%Z | S k => (Gs es k + match nth_error es k with Some e => compute_gas (e_ins e) (tvals (T es k) (e_ins e)) | None => 0%Z end)%Z end.
Lemma Gs_snoc es e k : k <= length es -> Gs (es ++ [e]) k = Gs es k.
Proof. induction k as [|k IH]; intros L; [auto|]. cbn [Gs]. rewrite IH, T_snoc, nth_error_app1 by lia. reflexivity. Qed.
Lemma Gs_step es k : (Gs es k <= Gs es (S k))%Z.
Proof. cbn [Gs]. destruct (nth_error es k) as [e|]; [pose proof (gas_pos (e_ins e) (tvals (T es k) (e_ins e)))|]; lia. Qed.
Lemma gas_to es K e : path es -> nth_error es K = Some e -> all_ok p r0 m0 es K -> gas_run p start K (St es (e_pc e) K) (Gs es K).
Proof.
  intros H. revert e. induction K as [|K IH]; intros e N A.
  - rewrite (n_first _ _ _ _ _ H e N). constructor.
  - destruct (nth_error es K) as [e'|] eqn:N'; [|apply nth_error_None in N'; assert (S K < length es) by (apply nth_error_Some; congruence); lia].
    assert (A' : all_ok p r0 m0 es K) by (intros k x L; apply A; lia). specialize (IH e' eq_refl A'). cbn [Gs]. rewrite N'.
    assert (E : seq_gas (St es (e_pc e') K) = compute_gas (e_ins e') (tvals (T es K) (e_ins e'))).
    { unfold seq_gas. cbn [ProcessorProofs7.St m_mem m_pc m_regs]. rewrite (n_fetch _ _ _ _ _ H K e' N'). reflexivity. }
    rewrite <- E. econstructor; [exact IH|].
    destruct (outs (T es K) (e_ins e')) as [[m vs]|] eqn:O; [|exfalso; eapply (A K); eauto].
    rewrite (seq_step_ok p r0 m0 es K e' m vs) by (auto; now apply H). rewrite (n_pcs _ _ _ _ _ H K e' e N' N). reflexivity.
Qed.
Lemma gas_next es K e pc : path es -> nth_error es K = Some e -> all_ok p r0 m0 es (S K) -> vnext p r0 m0 es K e = Ok (NGoto pc) -> gas_run p start (S K) (St es pc (S K)) (Gs es (S K)).
Proof.
  intros H N A V. cbn [Gs]. rewrite N.
  assert (E : seq_gas (St es (e_pc e) K) = compute_gas (e_ins e) (tvals (T es K) (e_ins e))).
  { unfold seq_gas. cbn [ProcessorProofs7.St m_mem m_pc m_regs]. rewrite (n_fetch _ _ _ _ _ H K e N). reflexivity. }
  rewrite <- E. econstructor; [apply (gas_to es K e H N); intros k x L; apply A; lia|].
  destruct (outs (T es K) (e_ins e)) as [[m vs]|] eqn:O; [|exfalso; eapply (A K); eauto]. rewrite (seq_step_ok p r0 m0 es K e m vs) by (auto; now apply H). rewrite V. reflexivity.
Qed.

Definition counted (s : cpu) : nat := match fe s with FLink _ _ | FPump (Some _) | FBusy (Some _) _ => length (ents s) - 1 | _ => length (ents s) end.
Record ginv (s : cpu) : Prop := {
  g_ent : forall k e, nth_error (ents s) k = Some e -> (0 <= e_gas e <= compute_gas (e_ins e) (tvals (T (ents s) k) (e_ins e)))%Z;
  g_tot : (0 <= gasv s <= Gs (ents s) (counted s))%Z
}.
Lemma gas_less s i : sinv s -> dinv s -> einv (ents s) (rm s) (mops s) -> winv s -> (gas_of r0 i s <= compute_gas i (tvals (T (ents s) (length (ents s))) i))%Z.
Proof.
  intros SI D E W. unfold gas_of. apply gas_mono. unfold tvals. induction (src_regs i) as [|r rs IH]; cbn [map]; constructor; [|auto]. rewrite (v_rm _ _ _ _ _ _ E r). unfold less_cipher.
  destruct (rm s r) as [r'|j q] eqn:R; [auto|]. destruct (xs s j) eqn:X.
  2: { rewrite (rob_valT p r0 m0 s (RDst j q) W); [auto|cbn; unfold settled; now rewrite X|]. intros j' q' K. injection K as <- <-. eapply s_rm; eauto. }
  all: cbn [Processor.rob]; rewrite (D j) by congruence; destruct q; discriminate.
Qed.
Lemma ginv_trans s s' : sinv s -> dinv s -> vinv s -> ginv s -> hazard s' = false -> trans s s' -> fe s' <> FAbort -> ginv s'.
Proof.
  intros SI D V [GE GT] HZ TR NA. pose proof (s_core _ SI) as C. pose proof (c_front _ _ _ _ _ _ C) as CF. destruct V as [E W N]. unfold counted in GT.
  assert (ST : (Gs (ents s) (length (ents s) - 1) <= Gs (ents s) (length (ents s)))%Z).
  { destruct (length (ents s)) as [|n]; [cbn; lia|]. replace (S n - 1) with n by lia. apply Gs_step. }
  destruct TR as [e F Fa|e F Fa Fe|i F Fa Fe G|i e F Fa Fe G Ft|i foot F Fa Fe G Ft|n d ds F D' L|n d ds F D' L|n F|n e pc g F Ch En Np G|n e F Ch En Np|n e x F Ch En Np|F I
    |o r rest F I Ch|o j rest e x F I Ch En Fa|o j rest e m vs F I Ch En Fa X|o j rest e m x F I Ch En Fa X|o j F P|e F|j r P|j r P|j r d rest P D'|j r P D'|s' A];
    try solve [split; pj; [auto|]; unfold counted; pj; rewrite F in GT; auto; try (destruct o; auto); lia].
  - split; pj.
    + intros k x K. apply nth_snoc in K as [K|[-> ->]]; rewrite T_snoc by (try lia; assert (k < length (ents s)) by (apply nth_error_Some; congruence); lia); [auto|]. cbn [e_gas e_ins].
      split; [apply gas_pos|exact (gas_less s i SI D E W)].
    + unfold counted. pj. rewrite app_length. cbn [length]. replace (length (ents s) + 1 - 1) with (length (ents s)) by lia. rewrite Gs_snoc by lia. rewrite F in GT. exact GT.
  - prel n s. split; pj; rewrite ?RPents, ?RPgas; [auto|]. unfold counted. pj. rewrite RPents. rewrite F in GT. exact GT.
  - rewrite F in CF, GT. split; pj; [auto|]. unfold counted. pj. rewrite <- CF in *. replace (S n - 1) with n in GT by lia. cbn [Gs]. rewrite En. specialize (GE n e En). apply uadd_le in G; lia.
  - split; pj; [auto|]. unfold counted. pj. rewrite F in *. destruct o; exact GT.
  - destruct (exec_ok_proj r0 j e m vs o (set_chan rest s)) as (Q1 & Q2 & Q3 & Q4 & Q5 & Q6 & Q7 & Q8 & Q9 & Q10 & Q11 & Q12 & Q13 & Q14 & Q15 & Q16 & Q17 & Q18). pj.
    split; rewrite ?Q4, ?Q3; [auto|]. unfold counted. rewrite Q1, Q4. rewrite F in GT. destruct o, (spawns _ _); exact GT.
  - split; pj; [auto|]. unfold counted. pj. exact GT.
  - split; pj; [auto|]. unfold counted. pj. exact GT.
  - prel d (set_dl (upd (dl s) j rest) s). pj. split; rewrite ?RPents, ?RPgas; [auto|]. unfold counted. rewrite RPents, RPfe. exact GT.
  - split; pj; [auto|]. unfold counted. pj. exact GT.
  - apply why_abort in A. congruence.
Qed.
Lemma ginv_init : ginv (cpu_init m0 pc0).
Proof. split; cbn; [intros k e K; destruct k; discriminate|lia]. Qed.
Lemma dinv_init : dinv (cpu_init m0 pc0).
Proof. intros j _. reflexivity. Qed.
Lemma reach_dinv s : reach s -> fe s <> FAbort -> dinv s.
Proof. apply (reach_ind' p glim r0 m0 pc0); [apply dinv_init|]. intros a b R IH Fa Fb TR. eapply dinv_trans; eauto. eapply reach_sinv; eauto. Qed.
Lemma reach_ginv s : (0 <= pc0)%Z -> reach s -> fe s <> FAbort -> hazard s = false -> ginv s.
Proof.
  intros P R F. revert s R F. apply (reach_ind' p glim r0 m0 pc0 (fun s => hazard s = false -> ginv s)); [intros _; apply ginv_init|].
  intros s s' R IH Fs Fs' TR H. pose proof (hazard_trans p glim r0 s s' TR H) as H0. eapply ginv_trans; eauto; [eapply reach_sinv; eauto|eapply reach_dinv; eauto|eapply reach_vinv; eauto].
Qed.

(** The gas the processor reports is at most the gas of the program run one instruction at a time. *)
Theorem ooo_gas s : (0 <= pc0)%Z -> reach s -> hazard s = false -> fe s = FEnd -> fault s = None ->
  exists k s1 s' g, gas_run p start k s1 g /\ seq_step p s1 = Ok (s', true) /\ (0 <= gasv s <= g + seq_gas s1)%Z.
Proof.
  intros P R H F Fa. assert (NA : fe s <> FAbort) by congruence. assert (SI : sinv s) by (eapply reach_sinv; eauto). destruct (reach_vinv p glim r0 m0 pc0 s P R NA H) as [E W N].
  destruct (reach_ginv s P R NA H) as [GE GT]. unfold counted in GT. rewrite F in GT.
  destruct (end_infl p glim r0 m0 pc0 s R F) as [I0 _]. assert (XK : forall j, j < length (ents s) -> xs s j = XOk).
  { intros j L. destruct (no_bad s SI Fa ltac:(rewrite F; discriminate) j) as [X|X]; [|auto]. apply (s_xs _ SI) in X. pose proof (all_done r0 pc0 s SI I0 j L). lia. }
  assert (AO : all_ok p r0 m0 (ents s) (length (ents s))). { intros k e L K O. destruct (w_ok _ _ _ _ W k e (XK k L) K) as (m & O'). congruence. }
  pose proof (n_fe _ _ _ _ _ N Fa) as Hh. rewrite F in Hh. destruct Hh as (n & e & L & Ne & V). pose proof (n_path _ _ _ _ _ N) as PA.
  exists n, (St (ents s) (e_pc e) n), (St (ents s) (e_pc e) (S n)), (Gs (ents s) n). split; [apply gas_to; auto; intros k x Lk; apply AO; lia|]. split.
  - destruct (outs (T (ents s) n) (e_ins e)) as [[m vs]|] eqn:O; [|exfalso; eapply (AO n); eauto; lia]. rewrite (seq_step_ok p r0 m0 (ents s) n e m vs) by (auto; now apply PA). rewrite V. reflexivity.
  - unfold seq_gas. cbn [ProcessorProofs7.St m_mem m_pc m_regs]. rewrite (n_fetch _ _ _ _ _ PA n e Ne). rewrite L in GT. cbn [Gs] in GT. rewrite Ne in GT. exact GT.
Qed.

(** ** Total correctness *)
Definition enough (s0 : mach) : Prop := p = Release \/ forall k s1 g, gas_run p s0 k s1 g -> (g < 2 ^ 32)%Z.
Definition affordable (s0 : mach) : Prop := match glim with None => True | Some l => forall k s1, seq_run p s0 k s1 -> (seq_gas s1 <= l)%Z end.

Definition clean (s : cpu) : Prop := fault s = None /\ forall e, fe s <> FFail e.
Lemma clean_trans s s' : ~ SF -> affordable start -> sinv s -> dinv s -> vinv s -> clean s -> hazard s' = false -> trans s s' -> fe s' <> FAbort -> clean s'.
Proof.
  intros NS AF SI D V [Fa NF] HZ TR NA. destruct V as [E W N]. pose proof N as N'. destruct N' as [NP NR NE NFl NFf NPh NM NK NV]. specialize (NE Fa).
  destruct TR as [e F _|e F _ Fe|i F _ Fe G|i e F _ Fe G Ft|i foot F _ Fe G Ft|n d ds F D' L|n d ds F D' L|n F|n e pc g F Ch En Np G|n e F Ch En Np|n e x F Ch En Np|F I
    |o r rest F I Ch|o j rest e x F I Ch En _|o j rest e m vs F I Ch En _ X|o j rest e m x F I Ch En _ X|o j F P|e F|j r P|j r P|j r d rest P D'|j r P D'|s' A];
    try solve [split; pj; auto; try discriminate; intros; try discriminate; congruence].
  - exfalso. apply NS. assert (HC := HZ). apply consult_false in HC as [H0 HC]. specialize (HC Fa). assert (FE := fetch_eq p r0 m0 s SI E W ltac:(rewrite F; discriminate) Fa NR HC).
    rewrite F in NE. apply (SF_here p r0 m0 pc0 (ents s) (pcv s) NP NE). unfold seq_step, ProcessorProofs7.St. cbn [m_pc m_mem]. rewrite <- FE, Fe. exact Logic.I.
  - exfalso. assert (HC := HZ). apply consult_false in HC as [H0 HC]. specialize (HC Fa). assert (FE := fetch_eq p r0 m0 s SI E W ltac:(rewrite F; discriminate) Fa NR HC).
    rewrite F in NE. destruct (run_here p r0 m0 pc0 (ents s) (pcv s) NP NE) as [X|[RU _]]; [auto|]. unfold over in G. unfold affordable in AF. destruct glim as [l|]; [|discriminate]. specialize (AF _ _ RU).
    unfold seq_gas in AF. cbn [ProcessorProofs7.St m_pc m_mem m_regs] in AF. rewrite <- FE, Fe in AF. pose proof (gas_less s i SI D E W) as GL. unfold tvals in GL. lia.
  - exfalso. apply NS. assert (HC := HZ). pj. apply consult_false in HC as [H1 HC2]. pj. specialize (HC2 Fa). assert (HC := H1). apply consult_false in HC as [H0 HC1]. specialize (HC1 Fa).
    assert (FE := fetch_eq p r0 m0 s SI E W ltac:(rewrite F; discriminate) Fa NR HC1). rewrite F in NE. assert (FT := disp_foot p r0 m0 s i _ SI E W Ft HC2).
    apply (SF_here p r0 m0 pc0 (ents s) (pcv s) NP NE). unfold seq_step, ProcessorProofs7.St. cbn [m_pc m_mem m_regs]. rewrite <- FE, Fe. cbn [bind].
    change (map (fst (T (ents s) (length (ents s)))) (src_regs i)) with (tvals (T (ents s) (length (ents s))) i). destruct (exec_bad p i _ e FT (snd (T (ents s) (length (ents s))))) as (r & -> & [->| ->]); exact Logic.I.
  - prel n s. split; pj; [congruence|discriminate].
  - exfalso. apply NS. assert (HC := HZ). pj. apply consult_false in HC as [H0 HC]. specialize (HC Fa). pose proof (next_eq p r0 m0 s n e SI E W En HC) as NX. apply (SF_next p r0 m0 pc0 (ents s) n e NP En). rewrite <- NX, Np. exact Logic.I.
  - split; pj; [|auto]. rewrite Fa. cbn. destruct r as [x|]; [|auto]. exfalso. apply NS. apply (NM x). rewrite Ch. now left.
  - destruct (exec_ok_proj r0 j e m vs o (set_chan rest s)) as (Q1 & Q2 & Q3 & Q4 & Q5 & Q6 & Q7 & Q8 & Q9 & Q10 & Q11 & Q12 & Q13 & Q14 & Q15 & Q16 & Q17 & Q18). pj.
    split; [congruence|]. intros y. rewrite Q1. destruct (spawns _ _); discriminate.
  - split; pj; [|auto]. rewrite Fa. cbn. destruct r as [x|]; [|auto]. exfalso. apply NS. apply (NPh j x). auto.
  - prel d (set_dl (upd (dl s) j rest) s). pj. split; [congruence|]. intros y. rewrite RPfe. auto.
  - apply why_abort in A. congruence.
Qed.

Lemma no_abort s s' : (0 <= pc0)%Z -> ~ SF -> enough start -> sinv s -> dinv s -> vinv s -> ginv s -> hazard s' = false -> trans s s' -> fe s <> FAbort -> fe s' <> FAbort.
Proof.
  intros P NS EN SI D V G HZ TR NA K.
  assert (Y : why p r0 s s').
  { destruct TR as [e F Fa|e F Fa Fe|i F Fa Fe G'|i e F Fa Fe G' Ft|i foot F Fa Fe G' Ft|n d ds F D' L|n d ds F D' L|n F|n e pc g F Ch En Np G'|n e F Ch En Np|n e x F Ch En Np|F I
    |o r rest F I Ch|o j rest e x F I Ch En Fa|o j rest e m vs F I Ch En Fa X|o j rest e m x F I Ch En Fa X|o j F P'|e F|j r P'|j r P'|j r d rest P' D'|j r P' D'|s' A]; pj; try congruence.
    - destruct (exec_ok_proj r0 j e m vs o (set_chan rest s)) as (Q1 & _). rewrite Q1 in K. destruct (spawns _ _); discriminate.
    - prel d (set_dl (upd (dl s) j rest) s). pj. congruence. }
  destruct (ooo_abort_step p r0 m0 pc0 s s' P SI V HZ Y) as [X|(DB & e & n & Ln & Ne & OV)]; [auto|].
  destruct EN as [EN|EN]; [congruence|]. destruct G as [GE GT].
  assert (F : exists n0 e0 pc, fe s = FPump (Some n0) /\ chan s = [] /\ nth_error (ents s) n0 = Some e0 /\ next_pc p (e_ins e0) (map (rob s) (e_src e0)) (e_pc e0) = Ok (NGoto pc) /\ s' = set_fe FAbort (h3 e0 s) /\ (forall g, uadd p 32 (gasv s) (e_gas e0) <> Ok g) \/ SF).
  { pose proof (s_core _ SI) as C. destruct V as [E W N]. pose proof N as N'. destruct N' as [NP NR NE NFl NFf NPh NM NK NV].
    assert (ES : forall A : Prop, SF -> exists (n0 : nat) (e0 : entry) (pc : Z), A \/ SF) by (intros A HS; exists 0, e, 0%Z; auto).
    destruct (ooo_abort_step p r0 m0 pc0 s s' P SI (Build_vinv p r0 m0 pc0 s E W N) HZ Y) as [X|_]; [exists 0, e, 0%Z; auto|].
    destruct Y as [F Fa Fe|i F Fa Fe Ft|n0 ds F|n0 F En|n0 e0 F Ch En Np|n0 e0 pc F Ch En Np Gx|o j rest F Ch En|o j rest e0 m F Ch En Fa X]; pj.
    - exists 0, e, 0%Z. right. apply consult_false in HZ as [H0 HC]. specialize (HC Fa). assert (FE := fetch_eq p r0 m0 s SI E W ltac:(rewrite F; discriminate) Fa NR HC).
      specialize (NE Fa). rewrite F in NE. apply (SF_here p r0 m0 pc0 (ents s) (pcv s) NP NE). unfold seq_step, ProcessorProofs7.St. cbn [m_pc m_mem]. rewrite <- FE, Fe. exact Logic.I.
    - exfalso. eapply footprint_no_panic; eauto.
    - exfalso. pose proof (c_front _ _ _ _ _ _ C) as CF. rewrite F in CF. destruct CF as [_ Dx]. specialize (Dx n0 ltac:(now left)). apply (c_dep _ _ _ _ _ _ C) in Dx. lia.
    - exfalso. pose proof (c_front _ _ _ _ _ _ C) as CF. rewrite F in CF. apply nth_error_None in En. lia.
    - exists 0, e, 0%Z. right. destruct (fault s) eqn:Fa.
      + rewrite F in NV. apply NV. congruence.
      + apply consult_false in HZ as [H0 HC]. specialize (HC Fa). pose proof (next_eq p r0 m0 s n0 e0 SI E W En HC) as NX. apply (SF_next p r0 m0 pc0 (ents s) n0 e0 NP En). rewrite <- NX, Np. exact Logic.I.
    - exists n0, e0, pc. left. auto 10.
    - exfalso. rewrite F, Ch in C. destruct (core_exec _ _ _ _ _ _ _ (PRet None) C eq_refl) as [_ Rj]. apply nth_error_None in En. assert (j < length (ents s)) by (apply (c_rank _ _ _ _ _ _ C); lia). lia.
    - exists 0, e, 0%Z. right. destruct (exec_inputs p r0 m0 s o j rest e0 SI E W F Ch En Fa) as (Vv & A & Xj). pose proof (outs_eq p _ _ _ _ _ _ Vv X _ (w_foot _ _ _ _ W j e0 En) A) as O. cbn in O. exact (SF_exec p r0 m0 pc0 (ents s) j e0 NP En O). }
  destruct F as (n0 & e0 & pc & [(F & Ch & En & Np & -> & OV')|X]); [|auto].
  destruct V as [E W N]. pose proof (n_path _ _ _ _ _ N) as PA. pose proof (c_front _ _ _ _ _ _ (s_core _ SI)) as CF. rewrite F in CF. assert (n0 = n) by lia. subst n0. rewrite Ne in En. injection En as <-.
  destruct (fault s) as [x|] eqn:Fa.
  { apply NS. pose proof (n_live _ _ _ _ _ N) as NV. rewrite F, Fa in NV. apply NV. congruence. }
  pj. apply consult_false in HZ as [H0 HC]. specialize (HC Fa). pose proof (next_eq p r0 m0 s n e SI E W Ne HC) as NX. rewrite Np in NX. symmetry in NX.
  pose proof (gas_next (ents s) n e pc PA Ne (no_fail p r0 m0 pc0 (ents s) (S n) PA NS ltac:(lia)) NX) as GR. specialize (EN _ _ _ GR).
  unfold counted in GT. rewrite F in GT. replace (length (ents s) - 1) with n in GT by lia. cbn [Gs] in EN. rewrite Ne in EN. specialize (GE n e Ne).
  apply (OV (gasv s + e_gas e)%Z). unfold uadd. replace (gasv s + e_gas e <? 2 ^ 32)%Z with true by lia. reflexivity.
Qed.

(** A direct program that halts: every execution of the processor is finite, can always go on until it has finished, and finishes
    without a fault and with the registers and memory of the program run one instruction at a time. *)
Theorem ooo_total N s' : (0 <= pc0)%Z -> direct p start -> seq_halts p start N s' -> enough start -> affordable start ->
  Acc (fun y x => step x y) (cpu_init m0 pc0) /\
  forall s, reach s -> hazard s = false /\ fault s = None /\
    ((exists s2, step s s2) \/ fe s = FEnd /\ length (ents s) = N /\ same_regs (fun r => rob s (rm s r)) (m_regs s') /\ same_mem (mm s) (m_mem s')).
Proof.
  intros P DI HA EN AF. assert (NS : ~ SF) by (eapply halts_no_fault; eauto).
  assert (IV : forall s, reach s -> fe s <> FAbort /\ clean s).
  { intros s R. induction R as [|s s2 R IH S2]; [split; [discriminate|split; [auto|discriminate]]|]. destruct IH as [NA CL]. pose proof S2 as S3. apply step_trans in S2.
    destruct (reach_direct p glim r0 m0 pc0 NS DI s P R) as [H0 VQ]. destruct (VQ NA) as [V Q]. assert (SI : sinv s) by (eapply reach_sinv; eauto). assert (D : dinv s) by (eapply reach_dinv; eauto).
    assert (H2 : hazard s2 = false) by (eapply hazard_clear; eauto). assert (NA2 : fe s2 <> FAbort) by (eapply (no_abort s s2); eauto; eapply reach_ginv; eauto). split; [auto|]. eapply clean_trans; eauto. }
  split.
  - apply (finite_if_bounded p glim r0 m0 pc0 N reach).
    + intros s R. split; [auto|]. now apply IV.
    + intros s s2 R S2. econstructor; eauto.
    + intros s R F Fa. destruct (IV s R) as [NA _]. destruct (reach_direct p glim r0 m0 pc0 NS DI s P R) as [H0 VQ]. destruct (VQ NA) as [[E W NN] Q].
      pose proof (n_fe _ _ _ _ _ NN Fa) as A. rewrite F in A. destruct (run_here p r0 m0 pc0 (ents s) (pcv s) (n_path _ _ _ _ _ NN) A) as [X|[RU _]]; [contradiction|]. eapply halts_bound; eauto.
    + constructor.
  - intros s R. destruct (IV s R) as [NA [Fa NF]]. destruct (reach_direct p glim r0 m0 pc0 NS DI s P R) as [H0 VQ]. destruct (VQ NA) as [V Q]. split; [auto|]. split; [auto|].
    assert (LK : leak s = 0). { destruct (Nat.eq_dec (leak s) 0) as [|L]; [auto|]. exfalso. apply NS. destruct V as [E W NN]. eapply n_leak; eauto. }
    assert (D : fe s = FEnd \/ fe s <> FEnd) by (destruct (fe s); try (right; discriminate); auto). destruct D as [F|F].
    + right. destruct (ooo_end p glim r0 m0 pc0 s P R H0 F Fa) as (s2 & H2 & RG & MM). destruct (halts_det _ _ _ _ _ _ HA H2) as [-> ->]. auto.
    + left. eapply progress; eauto.
Qed.
End Gas.
