(** Proofs: programs that never need a pending result to find their way run without hazards. *)
From Coq Require Import ZifyBool ZifyNat.
From Verif Require Import Base Alu Memory Isa SpecMem Processor SpecCpu ProcessorProofs ProcessorProofs2 ProcessorProofs3 ProcessorProofs4 ProcessorProofs5 ProcessorProofs6 ProcessorProofs7.
Open Scope nat_scope.

Lemma rename_read n ds : forall q f r, rename n q ds f r = f r /\ existsb (Z.eqb r) ds = false \/ (exists q', rename n q ds f r = RDst n q') /\ existsb (Z.eqb r) ds = true.
Proof.
  induction ds as [|d ds IH]; intros q f r; cbn [rename existsb]; [auto|].
  destruct (IH (S q) (fun r => if (r =? d)%Z then RDst n q else f r) r) as [[A B]|[[q' A] B]].
  - rewrite A, B. destruct (r =? d)%Z; [right; split; [eauto|reflexivity]|left; auto].
  - right. split; [eauto|]. rewrite B. apply orb_true_r.
Qed.
Lemma existsb_map {A B} (f : A -> B) g l : existsb g (map f l) = existsb (fun x => g (f x)) l.
Proof. induction l as [|x l IH]; [reflexivity|]. cbn. now rewrite IH. Qed.
Lemma existsb_false {A} (f : A -> bool) l : existsb f l = false -> forall x, In x l -> f x = false.
Proof. intros H x I. destruct (f x) eqn:E; [|auto]. assert (existsb f l = true) by (apply existsb_exists; eauto). congruence. Qed.

Section Direct.
Context (p : profile) (glim : option Z) (r0 : Z -> reg) (m0 : mem) (pc0 : Z).
Local Notation T := (T p r0 m0).
Local Notation outs := (outs p).
Local Notation einv := (einv p r0 m0).
Local Notation winv := (winv p r0 m0).
Local Notation rob := (rob r0).
Local Notation trans := (trans p glim r0).
Local Notation reach := (reach p glim r0 m0 pc0).
Local Notation start := (start r0 m0 pc0).
Local Notation St := (St p r0 m0).
Local Notation SF := (SF p r0 m0 pc0).
Local Notation path := (path p r0 m0 pc0).
Local Notation arrives := (arrives p r0 m0 pc0).
Local Notation vinv := (vinv p r0 m0 pc0).

Fixpoint Sh (es : list entry) (k : nat) : shadow :=
  match k with O => no_shadow | S k => match nth_error es k with Some e => mark (e_ins e) (tvals (T es k) (e_ins e)) (Sh es k) | None => Sh es k end end.
Definition sl (es : list entry) (k : nat) : bool := match nth_error es k with Some e => slow (e_ins e) (tvals (T es k) (e_ins e)) (Sh es k) | None => false end.
Definition slr (es : list entry) (x : rid) : bool := match x with RInit _ => false | RDst j _ => sl es j end.

Lemma Sh_snoc es e k : k <= length es -> Sh (es ++ [e]) k = Sh es k.
Proof. induction k as [|k IH]; intros L; [auto|]. cbn [Sh]. rewrite nth_error_app1 by lia. rewrite IH, T_snoc by lia. reflexivity. Qed.
Lemma Sh_last es e : Sh (es ++ [e]) (S (length es)) = mark (e_ins e) (tvals (T es (length es)) (e_ins e)) (Sh es (length es)).
Proof. cbn [Sh]. rewrite nth_last, Sh_snoc, T_snoc by lia. reflexivity. Qed.
Lemma sl_snoc es e k : k < length es -> sl (es ++ [e]) k = sl es k.
Proof. intros L. unfold sl. rewrite nth_error_app1, Sh_snoc, T_snoc by lia. reflexivity. Qed.
Lemma sl_last es e : sl (es ++ [e]) (length es) = slow (e_ins e) (tvals (T es (length es)) (e_ins e)) (Sh es (length es)).
Proof. unfold sl. rewrite nth_last, Sh_snoc, T_snoc by lia. reflexivity. Qed.

(** The shadow of the dispatched instructions is the shadow of the run. *)
Lemma shadow_to es K e : path es -> nth_error es K = Some e -> all_ok p r0 m0 es K -> shadow_run p start K (St es (e_pc e) K) (Sh es K).
Proof.
  intros H. revert e. induction K as [|K IH]; intros e N A.
  - rewrite (n_first _ _ _ _ _ H e N). constructor.
  - destruct (nth_error es K) as [e'|] eqn:N'; [|apply nth_error_None in N'; assert (S K < length es) by (apply nth_error_Some; congruence); lia].
    assert (A' : all_ok p r0 m0 es K) by (intros k x L; apply A; lia). specialize (IH e' eq_refl A'). cbn [Sh]. rewrite N'.
    refine (shadow_more p start K (St es (e_pc e') K) (Sh es K) (St es (e_pc e) (S K)) (e_ins e') IH _ _).
    + destruct (outs (T es K) (e_ins e')) as [[m vs]|] eqn:O; [|exfalso; eapply (A K); eauto].
      rewrite (seq_step_ok p r0 m0 es K e' m vs) by (auto; now apply H). rewrite (n_pcs _ _ _ _ _ H K e' e N' N). reflexivity.
    + cbn [ProcessorProofs7.St m_mem m_pc]. now apply H.
Qed.
Lemma no_fail es K : path es -> ~ SF -> K <= length es -> all_ok p r0 m0 es K.
Proof. intros H N L. destruct (fail_or_ok p r0 m0 pc0 es K L) as [A|(k & e & Lk & Nk & O & A)]; [auto|]. exfalso. apply N. eapply SF_first; eauto. Qed.
Lemma shadow_here es pc : path es -> arrives es pc -> ~ SF -> shadow_run p start (length es) (St es pc (length es)) (Sh es (length es)).
Proof.
  intros H A N. pose proof (no_fail es (length es) H N ltac:(lia)) as B. unfold ProcessorProofs7.arrives in A.
  destruct (length es) as [|n] eqn:L; [subst; constructor|]. destruct A as (e & Ne & V). cbn [Sh]. rewrite Ne. refine (shadow_more p start n (St es (e_pc e) n) (Sh es n) (St es pc (S n)) (e_ins e) _ _ _); [apply (shadow_to es n e H Ne)| |].
  - intros k x Lk. apply B. lia.
  - destruct (outs (T es n) (e_ins e)) as [[m vs]|] eqn:O; [|exfalso; eapply (B n); eauto]. rewrite (seq_step_ok p r0 m0 es n e m vs) by (auto; now apply H). rewrite V. reflexivity.
  - cbn [ProcessorProofs7.St m_mem m_pc]. now apply H.
Qed.

(** Which instructions are slow, and where they can be. *)
Record tinv (es : list entry) (rmf : Z -> rid) (mo : Z -> option nat) : Prop := {
  q_rm : forall r, t_regs (Sh es (length es)) r = slr es (rmf r);
  q_mem : forall a, t_mem (Sh es (length es)) a = match mo a with None => false | Some j => sl es j end;
  q_src : forall k e, nth_error es k = Some e -> map (slr es) (e_src e) = map (t_regs (Sh es k)) (src_regs (e_ins e));
  q_dep : forall k t, is_dep es k t -> sl es t = true -> sl es k = true
}.
Record qinv (s : cpu) : Prop := {
  q_t : tinv (ents s) (rm s) (mops s);
  q_run : fault s = None -> forall j, 3 <= rank (ph s j) <= 5 -> sl (ents s) j = true \/ exists o, fe s = FBusy o j;
  q_fetch : fault s = None -> fe s = FFetch -> forall j, j < length (ents s) -> sl (ents s) j = false -> rank (ph s j) = 6
}.

Lemma tinv_disp s i foot g : tinv (ents s) (rm s) (mops s) -> sinv s -> einv (ents s) (rm s) (mops s) ->
  footprint i (tvals (T (ents s) (length (ents s))) i) = Ok foot ->
  let srcs := map (rm s) (src_regs i) in let e := {| e_ins := i; e_pc := pcv s; e_src := srcs; e_deps := flat_map producer srcs ++ mem_deps s foot; e_foot := foot; e_gas := g |} in
  tinv (ents s ++ [e]) (rename (length (ents s)) 0 (dst_regs i) (rm s)) (touch (length (ents s)) foot (mops s)).
Proof.
  intros Q SI E Ft srcs e. set (es := ents s) in *. set (n := length es) in *.
  assert (VS : forall x, (forall j q, x = RDst j q -> j < n) -> slr (es ++ [e]) x = slr es x).
  { intros [|j q] H; [auto|]. cbn. apply sl_snoc. eapply H; eauto. }
  assert (LV : forall k x, nth_error es k = Some x -> forall y, In y (e_src x) -> forall j q, y = RDst j q -> j < n).
  { intros k x K y I j q ->. pose proof (v_old _ _ _ _ _ _ E k x j q K I) as D. pose proof (is_dep_lt _ _ _ D). apply (c_dep _ _ _ _ _ _ (s_core _ SI)) in D. unfold n, es in *. lia. }
  assert (TD : touched i (tvals (T es n) i) = foot) by (unfold touched; now rewrite Ft).
  split.
  - rewrite app_length. cbn [length]. replace (length es + 1) with (S n) by (unfold n; lia). unfold n at 1. rewrite Sh_last. intros r. cbn [mark t_regs]. change (e_ins e) with i. fold n.
    destruct (rename_read n (dst_regs i) 0 (rm s) r) as [[A B]|[[q' A] B]]; rewrite A, B.
    + rewrite VS by (intros j q K; eapply s_rm; eauto). apply Q.
    + cbn [slr]. unfold n at 3. rewrite sl_last. reflexivity.
  - rewrite app_length. cbn [length]. replace (length es + 1) with (S n) by (unfold n; lia). unfold n at 1. rewrite Sh_last. intros a. cbn [mark t_mem]. change (e_ins e) with i. fold n. rewrite TD. unfold touch.
    destruct (existsb (Z.eqb a) foot).
    + unfold n at 3. rewrite sl_last. reflexivity.
    + pose proof (q_mem _ _ _ Q a) as QM. fold n in QM. rewrite QM. destruct (mops s a) as [j|] eqn:M; [|auto]. rewrite sl_snoc; [auto|]. eapply s_mops; eauto.
  - intros k x K. apply nth_snoc in K as [K|[-> ->]].
    + rewrite Sh_snoc by (assert (k < length es) by (apply nth_error_Some; congruence); lia). rewrite <- (q_src _ _ _ Q k x K). apply map_ext_in. intros y I. apply VS. eapply LV; eauto.
    + rewrite Sh_snoc by lia. cbn [e_src e_ins e]. unfold srcs. rewrite map_map. apply map_ext_in. intros r I. rewrite VS; [symmetry; apply Q|]. intros j q K. eapply s_rm; eauto.
  - intros k t D St'. apply is_dep_snoc in D as [D|[-> D]].
    + pose proof (is_dep_lt _ _ _ D). pose proof (c_dep _ _ _ _ _ _ (s_core _ SI) k t D). rewrite sl_snoc by (unfold es in *; lia). rewrite sl_snoc in St' by (unfold es in *; lia). eapply q_dep; eauto.
    + fold n. unfold n. rewrite sl_last. change (e_ins e) with i. cbn [e_deps e] in D.
      assert (Lt : t < n) by (eapply deps_lt; eauto). rewrite sl_snoc in St' by (unfold n in *; lia). unfold slow. apply in_app_or in D as [D|D].
      * apply in_flat_map in D as (x & I & J). apply in_map_iff in I as (r & Er & Ir). destruct x as [|j q]; cbn in J; [tauto|]. destruct J as [->|[]].
        assert (X : existsb (t_regs (Sh es n)) (src_regs i) = true). { apply existsb_exists. exists r. split; [auto|]. pose proof (q_rm _ _ _ Q r) as QR. fold n in QR. rewrite QR, Er. exact St'. }
        fold n. rewrite X. rewrite orb_true_r. reflexivity.
      * apply mem_deps_in in D as (a & Ia & Ma). fold n. rewrite TD.
        assert (X : existsb (t_mem (Sh es n)) foot = true). { apply existsb_exists. exists a. split; [auto|]. pose proof (q_mem _ _ _ Q a) as QR. fold n in QR. rewrite QR, Ma. exact St'. }
        rewrite X. apply orb_true_r.
Qed.

(** When the channel is empty, every instruction that is not slow has retired. *)
Lemma fast_done s : sinv s -> qinv s -> fault s = None -> chan s = [] -> (forall o j, fe s <> FBusy o j) -> (forall n ds, fe s <> FLink n ds) ->
  forall j, j < length (ents s) -> sl (ents s) j = false -> rank (ph s j) = 6.
Proof.
  intros SI Q Fa Ch NB NL j. induction j as [j IH] using lt_wf_ind. intros L S'. pose proof (s_core _ SI) as C.
  pose proof (proj2 (c_rank _ _ _ _ _ _ C j)) as R1. specialize (R1 L). pose proof (c_queue _ _ _ _ _ _ C j) as Qj. rewrite Ch in Qj. change (cexec j []) with 0 in Qj.
  assert (N2 : rank (ph s j) <> 2) by (intros K; rewrite K in Qj; discriminate).
  assert (N3 : ~ (3 <= rank (ph s j) <= 5)). { intros K. destruct (q_run _ Q Fa j K) as [A|(o & A)]; [congruence|]. eapply NB; eauto. }
  assert (N1 : rank (ph s j) <> 1).
  { intros K. apply (c_blocked _ _ _ _ _ _ C) in K. rewrite (c_nd _ _ _ _ _ _ C) in K. rewrite own_nolink in K by auto. cbn in K. unfold occ in K.
    destruct (sumn_pos _ _ K) as (t & Lt & P). apply (count_occ_In Nat.eq_dec) in P. destruct (c_list _ _ _ _ _ _ C t j P) as (B & D & Rt).
    assert (Ltj : t < j) by (eapply c_dep; eauto). assert (St' : sl (ents s) t = false). { destruct (sl (ents s) t) eqn:X; [|auto]. pose proof (q_dep _ _ _ (q_t _ Q) j t D X). congruence. }
    pose proof (IH t Ltj ltac:(lia) St'). lia. }
  assert (rank (ph s j) <= 6) by (destruct (ph s j); cbn; lia). lia.
Qed.
Lemma done_ok s j : sinv s -> fault s = None -> (forall o k, fe s <> FBusy o k) -> rank (ph s j) = 6 -> settled s j = true.
Proof.
  intros SI Fa NB R. unfold settled. destruct (no_bad s SI Fa NB j) as [X|X]; [|now rewrite X]. apply (s_xs _ SI) in X. lia.
Qed.

Context (NS : ~ SF).
Context (DI : direct p start).

Lemma clear_code s : sinv s -> vinv s -> qinv s -> fault s = None -> fe s = FFetch -> code_clear s (pcv s) = true.
Proof.
  intros SI [E W N] Q Fa F. pose proof (n_fe _ _ _ _ _ N Fa) as A. rewrite F in A. destruct (DI _ _ _ (shadow_here _ _ (n_path _ _ _ _ _ N) A NS)) as [CC _]. cbn [ProcessorProofs7.St m_pc] in CC.
  unfold code_clear. apply forallb_forall. intros k I. apply in_seq in I. specialize (CC k ltac:(lia)). rewrite (q_mem _ _ _ (q_t _ Q)) in CC. destruct (mops s (pcv s + Z.of_nat k)%Z) as [j|] eqn:M; [|auto].
  apply done_ok; auto; [rewrite F; discriminate|]. apply (q_fetch _ Q Fa F); [eapply s_mops; eauto|auto].
Qed.
Lemma clear_regs s rs : sinv s -> tinv (ents s) (rm s) (mops s) -> fault s = None -> (forall o k, fe s <> FBusy o k) -> (forall j, j < length (ents s) -> sl (ents s) j = false -> rank (ph s j) = 6) ->
  (forall r, In r rs -> t_regs (Sh (ents s) (length (ents s))) r = false) -> forallb (resolved s) (map (rm s) rs) = true.
Proof.
  intros SI Q Fa NB D H. apply forallb_forall. intros x I. apply in_map_iff in I as (r & E & I). specialize (H r I). rewrite (q_rm _ _ _ Q r) in H. subst x. destruct (rm s r) as [|j q] eqn:R; [auto|].
  cbn [resolved slr] in *. apply done_ok; auto. apply D; [eapply s_rm; eauto|auto].
Qed.
Lemma clear_addr s i : sinv s -> vinv s -> qinv s -> fault s = None -> fe s = FFetch -> fetch (mm s) (pcv s) = Ok i -> forallb (resolved s) (address_reg i (map (rm s) (src_regs i))) = true.
Proof.
  intros SI V Q Fa F Fe. pose proof (clear_code s SI V Q Fa F) as CC. destruct V as [E W N]. pose proof (n_fe _ _ _ _ _ N Fa) as A. rewrite F in A.
  destruct (DI _ _ _ (shadow_here _ _ (n_path _ _ _ _ _ N) A NS)) as [_ CR]. cbn [ProcessorProofs7.St m_pc m_mem] in CR.
  rewrite <- (fetch_eq p r0 m0 s SI E W ltac:(rewrite F; discriminate) Fa (n_range _ _ _ _ _ N) CC) in CR. specialize (CR i Fe).
  assert (X : address_reg i (map (rm s) (src_regs i)) = map (rm s) (address_regs i)). { unfold address_reg, address_regs. destruct (op i); auto; now rewrite firstn_map. }
  rewrite X. apply clear_regs; auto.
  - apply Q.
  - rewrite F. discriminate.
  - intros j L S'. apply (q_fetch _ Q Fa F); auto.
  - intros r I. apply CR. apply in_or_app. auto.
Qed.
Lemma clear_cond s n e : sinv s -> vinv s -> qinv s -> fault s = None -> fe s = FPump (Some n) -> chan s = [] -> nth_error (ents s) n = Some e -> forallb (resolved s) (condition_reg (e_ins e) (e_src e)) = true.
Proof.
  intros SI [E W N] Q Fa F Ch Ne. pose proof (n_path _ _ _ _ _ N) as P. assert (L : n < length (ents s)) by (apply nth_error_Some; congruence).
  destruct (DI _ _ _ (shadow_to _ n e P Ne (no_fail _ n P NS ltac:(lia)))) as [_ CR]. cbn [ProcessorProofs7.St m_pc m_mem] in CR. specialize (CR (e_ins e) (n_fetch _ _ _ _ _ P n e Ne)).
  assert (G : condition_reg (e_ins e) (e_src e) = e_src e -> condition_regs (e_ins e) = src_regs (e_ins e) -> forallb (resolved s) (e_src e) = true).
  { intros _ B. rewrite B in CR. apply forallb_forall. intros x I. assert (Sx : slr (ents s) x = false).
    { assert (J : In (slr (ents s) x) (map (t_regs (Sh (ents s) n)) (src_regs (e_ins e)))) by (rewrite <- (q_src _ _ _ (q_t _ Q) n e Ne); now apply in_map).
      apply in_map_iff in J as (r & J & Ir). rewrite <- J. apply CR. apply in_or_app. auto. }
    destruct x as [|j q]; [auto|]. cbn [resolved slr] in *. apply done_ok; auto; [rewrite F; discriminate|]. apply fast_done; auto; try (rewrite F; discriminate).
    pose proof (v_old _ _ _ _ _ _ E n e j q Ne I) as D. apply (c_dep _ _ _ _ _ _ (s_core _ SI)) in D. lia. }
  unfold condition_reg, condition_regs in *. destruct (op (e_ins e)); auto.
Qed.
Lemma consult_clear s b : hazard s = false -> (fault s = None -> b = true) -> consult s b = false.
Proof. unfold consult. intros -> H. destruct (fault s); cbn; [auto|]. now rewrite H. Qed.

Lemma hazard_clear s s' : sinv s -> vinv s -> qinv s -> hazard s = false -> trans s s' -> hazard s' = false.
Proof.
  intros SI V Q H TR.
  assert (HC : fe s = FFetch -> consult s (code_clear s (pcv s)) = false) by (intros F; apply consult_clear; auto; intros Fa; now apply clear_code).
  assert (HA : forall i, fe s = FFetch -> fetch (mm s) (pcv s) = Ok i -> fault s = None -> hazard (h2 i (h1 s)) = false).
  { intros i F Fe Fa. pj. apply consult_clear; pj; [auto|]. intros _. exact (clear_addr s i SI V Q Fa F Fe). }
  assert (HN : forall n e, fe s = FPump (Some n) -> chan s = [] -> nth_error (ents s) n = Some e -> hazard (h3 e s) = false).
  { intros n e F Ch Ne. pj. apply consult_clear; [auto|]. intros Fa. eapply clear_cond; eauto. }
  destruct TR as [e F Fa|e F Fa Fe|i F Fa Fe G|i e F Fa Fe G Ft|i foot F Fa Fe G Ft|n d ds F D L|n d ds F D L|n F|n e pc g F Ch En Np G|n e F Ch En Np|n e x F Ch En Np|F I
    |o r rest F I Ch|o j rest e x F I Ch En Fa|o j rest e m vs F I Ch En Fa X|o j rest e m x F I Ch En Fa X|o j F P|e F|j r P|j r P|j r d rest P D|j r P D|s' A]; pj; auto.
  - prel n s. congruence.
  - exact (HN n e F Ch En).
  - exact (HN n e F Ch En).
  - exact (HN n e F Ch En).
  - destruct (exec_ok_proj r0 j e m vs o (set_chan rest s)) as (Q1 & Q2 & Q3 & Q4 & Q5 & Q6 & Q7 & Q8 & Q9 & Q10 & Q11 & Q12 & Q13 & Q14 & Q15 & Q16 & Q17 & Q18). pj. congruence.
  - prel d (set_dl (upd (dl s) j rest) s). pj. congruence.
  - destruct A as [F Fa Fe|i F Fa Fe Ft|n ds F|n F En|n e F Ch En Np|n e pc F Ch En Np G|o j rest F Ch En|o j rest e m F Ch En Fa X]; pj; auto.
    + exact (HN n e F Ch En).
    + exact (HN n e F Ch En).
Qed.

Lemma rel_rank s d : rank (ph s d) <= 1 -> forall k, 3 <= rank (ph (release d s) k) -> ph (release d s) k = ph s k.
Proof. intros B k K. unfold release in *. destruct (nd s d =? 1); cbn [ph set_chan set_ph set_nd] in *; [|auto]. ucase k d; [cbn in K; lia|auto]. Qed.

Lemma qinv_trans s s' : sinv s -> vinv s -> qinv s -> hazard s' = false -> trans s s' -> fe s' <> FAbort -> qinv s'.
Proof.
  intros SI [E W N] [QT QR QF] HZ TR NA. pose proof (s_core _ SI) as C.
  destruct TR as [e F Fa|e F Fa Fe|i F Fa Fe G|i e F Fa Fe G Ft|i foot F Fa Fe G Ft|n d ds F D L|n d ds F D L|n F|n e pc g F Ch En Np G|n e F Ch En Np|n e x F Ch En Np|F I
    |o r rest F I Ch|o j rest e x F I Ch En Fa|o j rest e m vs F I Ch En Fa X|o j rest e m x F I Ch En Fa X|o j F P|e F|j r P|j r P|j r d rest P D|j r P D|s' A].
  Local Ltac qr QR F := intros Fa0 j0 K0; destruct (QR Fa0 j0 K0) as [B0|(o0 & B0)]; [auto|rewrite F in B0; discriminate].
  - split; pj; [auto| |discriminate]. qr QR F.
  - split; pj; [auto| |discriminate]. qr QR F.
  - split; pj; [auto| |discriminate]. qr QR F.
  - split; pj; [auto| |discriminate]. qr QR F.
  - assert (HC := HZ). pj. apply consult_false in HC as [H1 HC2]. pj. specialize (HC2 Fa).
    assert (FT := disp_foot p r0 m0 s i _ SI E W Ft HC2). split; pj; [exact (tinv_disp s i foot _ QT SI E FT)| |discriminate].
    intros _ j K. ucase j (length (ents s)); [cbn in K; lia|]. assert (Lj : j < length (ents s)) by (apply (c_rank _ _ _ _ _ _ C); lia). rewrite sl_snoc by auto. destruct (QR Fa j K) as [B|(o & B)]; [auto|congruence].
  - split; pj; [auto| |discriminate]. qr QR F.
  - split; pj; [auto| |discriminate]. qr QR F.
  - rewrite F in C. assert (Bn : rank (ph s n) = 1). { apply (c_blocked _ _ _ _ _ _ C). rewrite (c_nd _ _ _ _ _ _ C). cbn. rewrite Nat.eqb_refl. lia. }
    prel n s. split; pj; rewrite ?RPents, ?RPrm, ?RPmops, ?RPfault; [auto| |discriminate]. intros Fa j K. rewrite (rel_rank s n ltac:(lia) j ltac:(lia)) in K. destruct (QR Fa j K) as [B|(o & B)]; [auto|congruence].
  - split; pj; [auto|qr QR F|]. intros Fa _. apply fast_done; auto; try (rewrite F; discriminate). split; auto.
  - split; pj; [auto| |discriminate]. qr QR F.
  - split; pj; [auto| |discriminate]. qr QR F.
  - split; pj; [auto| |discriminate]. qr QR F.
  - split; pj; [auto| |rewrite F; discriminate]. intros Fa j K. assert (Fa' : fault s = None) by (destruct (fault s); [discriminate|auto]). destruct (QR Fa' j K) as [B|B]; auto.
  - split; pj; [auto|congruence|congruence].
  - destruct (exec_ok_proj r0 j e m vs o (set_chan rest s)) as (Q1 & Q2 & Q3 & Q4 & Q5 & Q6 & Q7 & Q8 & Q9 & Q10 & Q11 & Q12 & Q13 & Q14 & Q15 & Q16 & Q17 & Q18). pj.
    destruct (exec_inputs p r0 m0 s o j rest e SI E W F Ch En Fa) as (V & A & Xj).
    split; rewrite ?Q1, ?Q4, ?Q5, ?Q6, ?Q7, ?Q13; [auto| |].
    + intros _ k K. ucase k j.
      * change (map (Processor.rob r0 (set_chan rest s)) (e_src e)) with (map (rob s) (e_src e)). destruct (spawns (e_ins e) (map (rob s) (e_src e))) eqn:SP; [|right; eauto].
        left. unfold sl. rewrite En. unfold slow. rewrite <- V, SP. reflexivity.
      * destruct (QR Fa k K) as [B|(o' & B)]; [auto|congruence].
    + intros _ K. destruct (spawns _ _); discriminate.
  - split; pj; [auto| |discriminate]. intros _ k K. ucase k j; [right; eauto|]. destruct (QR Fa k K) as [B|(o' & B)]; [auto|congruence].
  - split; pj; [auto| |discriminate]. intros Fa k K. destruct (QR Fa k K) as [B|(o' & B)]; [auto|]. rewrite F in B. injection B as <- <-. rewrite P in K. cbn in K. lia.
  - split; pj; [auto| |discriminate]. intros Fa. destruct (fault s); discriminate.
  - split; pj; [auto| |].
    + intros Fa k K. assert (Fa' : fault s = None) by (destruct (fault s); [discriminate|auto]). apply (QR Fa' k). ucase k j; [rewrite P; cbn; lia|auto].
    + intros Fa K k L S'. assert (Fa' : fault s = None) by (destruct (fault s); [discriminate|auto]). pose proof (QF Fa' K k L S') as Rk. ucase k j; [rewrite P in Rk; discriminate|auto].
  - split; pj; [auto| |].
    + intros Fa k K. apply (QR Fa k). ucase k j; [rewrite P; cbn; lia|auto].
    + intros Fa K k L S'. pose proof (QF Fa K k L S') as Rk. ucase k j; [rewrite P in Rk; discriminate|auto].
  - destruct (c_list _ _ _ _ _ _ C j d ltac:(rewrite D; left; auto)) as (Bd & Dd & _).
    pose proof (rel_rank (set_dl (upd (dl s) j rest) s) d) as RR. prel d (set_dl (upd (dl s) j rest) s). pj. specialize (RR ltac:(lia)).
    split; rewrite ?RPents, ?RPrm, ?RPmops, ?RPfault, ?RPfe; [auto| |].
    + intros Fa k K. rewrite (RR k) in K by lia. auto.
    + intros Fa K k L S'. pose proof (QF Fa K k L S') as Rk. rewrite RPph. destruct (nd s d =? 1); [|auto]. ucase k d; [lia|auto].
  - split; pj; [auto| |].
    + intros Fa k K. apply (QR Fa k). ucase k j; [rewrite P; cbn; lia|auto].
    + intros Fa K k L S'. pose proof (QF Fa K k L S') as Rk. ucase k j; [auto|auto].
  - apply why_abort in A. congruence.
Qed.

Lemma qinv_init : qinv (cpu_init m0 pc0).
Proof.
  split; cbn; try discriminate; try lia.
  split; cbn; auto; [intros k e K; destruct k; discriminate|]. intros k t (e & K & _). destruct k; discriminate.
Qed.
Lemma reach_direct s : (0 <= pc0)%Z -> reach s -> hazard s = false /\ (fe s <> FAbort -> vinv s /\ qinv s).
Proof.
  intros P R. induction R as [|s s' R IH S'].
  - split; [auto|]. intros _. split; [now apply vinv_init|apply qinv_init].
  - destruct IH as [H IH]. apply step_trans in S'.
    assert (Fs : fe s <> FAbort -> hazard s' = false /\ (fe s' <> FAbort -> vinv s' /\ qinv s')).
    { intros Fs. destruct (IH Fs) as [V Q]. assert (SI : sinv s) by (eapply reach_sinv; eauto). pose proof (hazard_clear s s' SI V Q H S') as H'. split; [auto|]. intros F'. split; [eapply vinv_trans; eauto|eapply qinv_trans; eauto]. }
    assert (D : fe s <> FAbort \/ fe s = FAbort) by (destruct (fe s); try (left; discriminate); auto). destruct D as [D|D]; [auto|].
    assert (Fs' : fe s' = FAbort /\ hazard s' = hazard s).
    { destruct S'; pj; try congruence; try (split; congruence).
      - prel d (set_dl (upd (dl s) j rest) s). pj. split; congruence.
      - match goal with Y : why _ _ _ _ |- _ => destruct Y; pj; congruence end. }
    destruct Fs' as [F' H']. split; [congruence|]. intros K. congruence.
Qed.
End Direct.
