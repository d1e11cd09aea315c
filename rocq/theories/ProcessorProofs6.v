(** Proofs: values and memory of the out-of-order processor. *)
From Coq Require Import ZifyBool ZifyNat.
From Verif Require Import Base Alu Memory Isa SpecMem Processor SpecCpu ProcessorProofs ProcessorProofs2 ProcessorProofs3 ProcessorProofs4 ProcessorProofs5.
Open Scope nat_scope.

Section Values.
Context (p : profile) (r0 : Z -> reg) (m0 : mem).
Local Notation T := (T p r0 m0).
Local Notation outs := (outs p).
Local Notation valT := (valT p r0 m0).
Local Notation outT := (outT p r0 m0).
Local Notation einv := (einv p r0 m0).
Local Notation rob := (rob r0).

Definition foots (es : list entry) : Prop := forall k e, nth_error es k = Some e -> footprint (e_ins e) (tvals (T es k) (e_ins e)) = Ok (e_foot e).
Record winv (s : cpu) : Prop := {
  w_foot : foots (ents s);
  w_ok : forall j e, xs s j = XOk -> nth_error (ents s) j = Some e -> exists m, outs (T (ents s) j) (e_ins e) = Some (m, dv s j);
  w_fail : forall j e, xs s j = XFail -> nth_error (ents s) j = Some e -> outs (T (ents s) j) (e_ins e) = None;
  w_mem : (forall j, xs s j <> XFail) -> forall a k, k <= length (ents s) -> (forall j, toucher (ents s) a j -> (xs s j = XOk <-> j < k)) -> peek (mm s) a = peek (snd (T (ents s) k)) a
}.

(** An instruction changes memory only where it is known to. *)
Lemma tstep_frame st i foot a : footprint i (tvals st i) = Ok foot -> ~ In a foot -> peek (snd (tstep p st i)) a = peek (snd st) a.
Proof.
  intros F N. unfold tstep, ProcessorProofs5.outs. destruct (exec_instr p i (tvals st i) (snd st)) as [m [vs| |]] eqn:E; cbn [snd]; auto.
  destruct (exec_local p i (tvals st i) foot F (snd st) (snd st) ltac:(intros x _; auto)) as (_ & _ & L). rewrite E in L. cbn [fst] in L. auto.
Qed.
Lemma T_frame es a k1 : foots es -> forall k2, k1 <= k2 <= length es -> (forall j, k1 <= j < k2 -> ~ toucher es a j) -> peek (snd (T es k2)) a = peek (snd (T es k1)) a.
Proof.
  intros F k2. induction k2 as [|k IH]; intros L N; [replace k1 with 0 by lia; auto|]. destruct (Nat.eq_dec k1 (S k)) as [->|Hk]; [auto|].
  destruct (nth_error es k) as [e|] eqn:E; [|apply nth_error_None in E; lia]. rewrite (T_S p r0 m0 es k e E). rewrite (tstep_frame _ _ (e_foot e)); [|eapply F; eauto|intros I; apply (N k); [lia|exists e; auto]].
  apply IH; [lia|]. intros j Hj. apply N. lia.
Qed.

(** If everything an instruction waited for has been executed, so have all the earlier accesses to the addresses it uses. *)
Lemma chain_closed s a : sinv s -> einv (ents s) (rm s) (mops s) -> forall k j, toucher (ents s) a k -> toucher (ents s) a j -> j < k ->
  (forall t, is_dep (ents s) k t -> xs s t = XOk) -> xs s j = XOk.
Proof.
  intros SI E k. induction k as [k IH] using lt_wf_ind. intros j K J L D. destruct (v_chain _ _ _ _ _ _ E a k j K J L) as (j' & A & B & C). pose proof (D _ C) as X.
  destruct (Nat.eq_dec j j') as [->|N]; [auto|]. apply (IH j'); auto; try lia. intros t Ht. eapply s_cl; eauto.
Qed.
Lemma all_deps s j : sinv s -> fault s = None -> (forall o k, fe s <> FBusy o k) -> 2 <= rank (ph s j) -> forall t, is_dep (ents s) j t -> xs s t = XOk.
Proof.
  intros SI N F R t D. pose proof (core_ready _ _ _ _ _ _ _ _ (s_core _ SI) R D) as Rt. destruct (no_bad s SI N F t) as [X|X]; [|auto]. apply (s_xs _ SI) in X. lia.
Qed.
Lemma rob_valT s x : winv s -> resolved s x = true -> (forall j q, x = RDst j q -> j < length (ents s)) -> rob s x = valT (ents s) x.
Proof.
  intros W R L. destruct x as [r|j q]; [auto|]. cbn in *. unfold settled in R. destruct (xs s j) eqn:X; try discriminate.
  destruct (nth_error (ents s) j) as [e|] eqn:E; [|apply nth_error_None in E; specialize (L j q eq_refl); lia].
  destruct (w_ok _ W j e X E) as (m & O). unfold ProcessorProofs5.outT. rewrite E, O. auto.
Qed.

(** The instruction that is about to be executed sees what it would see in program order. *)
Lemma exec_inputs s o j rest e : sinv s -> einv (ents s) (rm s) (mops s) -> winv s -> fe s = FPump o -> chan s = MExec j :: rest -> nth_error (ents s) j = Some e -> fault s = None ->
  map (rob s) (e_src e) = tvals (T (ents s) j) (e_ins e) /\ agree_on (e_foot e) (mm s) (snd (T (ents s) j)) /\ xs s j = XNo.
Proof.
  intros SI E W F Ch N Fa. pose proof (s_core _ SI) as C. assert (NF : forall o k, fe s <> FBusy o k) by (rewrite F; discriminate).
  assert (Rj : rank (ph s j) = 2). { rewrite F, Ch in C. now destruct (core_exec _ _ _ _ _ _ _ (PRet None) C eq_refl). }
  assert (Lj : j < length (ents s)) by (apply nth_error_Some; congruence).
  assert (D := all_deps s j SI Fa NF ltac:(lia)). assert (Xj : xs s j = XNo) by (apply (s_xs _ SI); lia).
  split; [|split; [|auto]].
  - rewrite <- (v_src _ _ _ _ _ _ E j e N). apply map_ext_in. intros x I. apply rob_valT; auto.
    + destruct x as [r|t q]; cbn; [auto|]. unfold settled. now rewrite (D t (v_old _ _ _ _ _ _ E j e t q N I)).
    + intros t q ->. pose proof (v_old _ _ _ _ _ _ E j e t q N I) as Dt. apply (c_dep _ _ _ _ _ _ C) in Dt. lia.
  - intros a I. assert (Ta : toucher (ents s) a j) by (exists e; auto). apply (w_mem _ W); [|lia|].
    + intros k K. destruct (no_bad s SI Fa NF k); congruence.
    + intros k K. split.
      * intros X. destruct (Nat.lt_trichotomy k j) as [|[->|L]]; [auto|congruence|]. assert (xs s j = XOk); [|congruence]. eapply (chain_closed s a SI E k j); eauto. intros t Ht. eapply s_cl; eauto.
      * intros L. eapply (chain_closed s a SI E j k); eauto.
Qed.

Lemma outs_eq st i m m' r vals : vals = tvals st i -> exec_instr p i vals m = (m', r) -> forall foot, footprint i (tvals st i) = Ok foot -> agree_on foot m (snd st) ->
  match r with
  | Ok vs => exists mt, outs st i = Some (mt, vs) /\ (forall x, peek m x = peek (snd st) x -> peek m' x = peek mt x) /\ (forall x, ~ In x foot -> peek m' x = peek m x)
  | _ => outs st i = None end.
Proof.
  intros -> X foot F A. destruct (exec_local p i _ foot F m (snd st) A) as (L1 & L2 & L3). unfold ProcessorProofs5.outs. rewrite X in *. destruct (exec_instr p i (tvals st i) (snd st)) as [mt rt]. cbn [fst snd] in *. subst rt.
  destruct r as [vs| |]; auto. exists mt. auto.
Qed.

(** Nothing happens to the values. *)
Lemma winv_same s s' : winv s -> ents s' = ents s -> xs s' = xs s -> dv s' = dv s -> mm s' = mm s -> winv s'.
Proof. intros W E X D M. split; rewrite ?E, ?X, ?D, ?M; apply W. Qed.
Lemma winv_skip s j s' : winv s -> xs s j = XNo -> ents s' = ents s -> xs s' = upd (xs s) j XSkip -> dv s' = dv s -> mm s' = mm s -> winv s'.
Proof.
  intros W N E X D M. split; rewrite ?E, ?X, ?D, ?M.
  - apply W.
  - intros k e K. ucase k j; [discriminate|]. now apply W.
  - intros k e K. ucase k j; [discriminate|]. now apply W.
  - intros K a k L H. apply W; auto.
    + intros t Ht. apply (K t). ucase t j; congruence.
    + intros t Ht. rewrite <- (H t Ht). ucase t j; [rewrite N; split; discriminate|reflexivity].
Qed.
Lemma winv_ok s s' o j rest e m vs : sinv s -> einv (ents s) (rm s) (mops s) -> winv s -> fe s = FPump o -> chan s = MExec j :: rest -> nth_error (ents s) j = Some e -> fault s = None ->
  exec_instr p (e_ins e) (map (rob s) (e_src e)) (mm s) = (m, Ok vs) -> ents s' = ents s -> xs s' = upd (xs s) j XOk -> dv s' = upd (dv s) j vs -> mm s' = m -> winv s'.
Proof.
  intros SI E W F Ch N Fa X Ee Ex Ed Em. destruct (exec_inputs s o j rest e SI E W F Ch N Fa) as (V & A & Xj). pose proof (w_foot _ W j e N) as Ft.
  destruct (outs_eq _ _ _ _ _ _ V X _ Ft A) as (mt & O & P1 & P2). assert (Lj : j < length (ents s)) by (apply nth_error_Some; congruence).
  split; rewrite ?Ee, ?Ex, ?Ed, ?Em.
  - apply W.
  - intros k x K Nk. ucase k j; [rewrite N in Nk; injection Nk as <-; eauto|]. now apply W.
  - intros k x K Nk. ucase k j; [discriminate|]. now apply W.
  - intros K a k L H.
    assert (NF : forall t, xs s t <> XFail). { intros t Ht. apply (K t). ucase t j; congruence. }
    destruct (in_dec Z.eq_dec a (e_foot e)) as [I|I].
    + assert (Ta : toucher (ents s) a j) by (exists e; auto). assert (Lk : j < k) by (apply (H j Ta); now rewrite upd_same).
      rewrite (T_frame (ents s) a (S j) (w_foot _ W) k).
      * rewrite (T_S p r0 m0 (ents s) j e N). unfold tstep. rewrite O. cbn [snd]. apply P1. now apply A.
      * lia.
      * intros t Ht Tt. assert (Q : upd (xs s) j XOk t = XOk) by (apply (H t Tt); lia). rewrite upd_other in Q by lia.
        assert (xs s j = XOk); [|congruence]. eapply (chain_closed s a SI E t j); eauto; [lia|]. intros y Hy. eapply s_cl; eauto.
    + rewrite P2 by auto. apply W; auto. intros t Ht. rewrite <- (H t Ht). ucase t j; [|reflexivity]. exfalso. destruct Ht as (e' & N' & I'). congruence.
Qed.
Lemma winv_fail s s' o j rest e m x : sinv s -> einv (ents s) (rm s) (mops s) -> winv s -> fe s = FPump o -> chan s = MExec j :: rest -> nth_error (ents s) j = Some e -> fault s = None ->
  exec_instr p (e_ins e) (map (rob s) (e_src e)) (mm s) = (m, Err x) -> ents s' = ents s -> xs s' = upd (xs s) j XFail -> dv s' = dv s -> winv s'.
Proof.
  intros SI E W F Ch N Fa X Ee Ex Ed. destruct (exec_inputs s o j rest e SI E W F Ch N Fa) as (V & A & Xj). pose proof (w_foot _ W j e N) as Ft.
  pose proof (outs_eq _ _ _ _ _ _ V X _ Ft A) as O. cbn in O.
  split; rewrite ?Ee, ?Ex, ?Ed.
  - apply W.
  - intros k y K Nk. ucase k j; [discriminate|]. now apply W.
  - intros k y K Nk. ucase k j; [congruence|]. now apply W.
  - intros K. exfalso. apply (K j). now rewrite upd_same.
Qed.

Lemma consult_false s b : consult s b = false -> hazard s = false /\ (fault s = None -> b = true).
Proof. unfold consult. destruct (hazard s), (fault s), b; cbn; intros; split; congruence. Qed.
Lemma disp_foot s i foot : sinv s -> einv (ents s) (rm s) (mops s) -> winv s ->
  footprint i (map (rob s) (map (rm s) (src_regs i))) = foot -> forallb (resolved s) (address_reg i (map (rm s) (src_regs i))) = true ->
  footprint i (tvals (T (ents s) (length (ents s))) i) = foot.
Proof.
  intros SI E W Ft R. rewrite <- Ft. apply footprint_first; [unfold tvals; now rewrite !map_length|].
  assert (G : address_reg i (map (rm s) (src_regs i)) = firstn 1 (map (rm s) (src_regs i)) -> firstn 1 (tvals (T (ents s) (length (ents s))) i) = firstn 1 (map (rob s) (map (rm s) (src_regs i)))).
  { intros A. rewrite A in R. unfold tvals. destruct (src_regs i) as [|r rs]; [auto|]. cbn [map firstn] in *. cbn [forallb] in R. f_equal. rewrite (v_rm _ _ _ _ _ _ E r). symmetry. apply andb_true_iff in R as [R _]. apply rob_valT; [exact W|exact R|].
    intros j q Q. eapply s_rm; eauto. }
  unfold address_reg in G. destruct (op i); auto.
Qed.
Lemma winv_disp s s' i e : sinv s -> einv (ents s) (rm s) (mops s) -> winv s -> e_ins e = i ->
  footprint i (tvals (T (ents s) (length (ents s))) i) = Ok (e_foot e) ->
  ents s' = ents s ++ [e] -> xs s' = xs s -> dv s' = dv s -> mm s' = mm s -> winv s'.
Proof.
  intros SI E W <- Ft Ee Ex Ed Em. set (n := length (ents s)) in *.
  assert (Xn : xs s n = XNo). { apply (s_xs _ SI). pose proof (c_rank _ _ _ _ _ _ (s_core _ SI) n). unfold n in *. lia. }
  assert (Lk : forall k x, nth_error (ents s) k = Some x -> k <= length (ents s)) by (intros k x K; assert (k < length (ents s)) by (apply nth_error_Some; congruence); lia).
  assert (FS : foots (ents s ++ [e])).
  { intros k x K. apply nth_snoc in K as [K|[-> ->]]; rewrite T_snoc by (eauto; lia); [now apply W|auto]. }
  split; rewrite ?Ee, ?Ex, ?Ed, ?Em.
  - exact FS.
  - intros k x K Nk. apply nth_snoc in Nk as [Nk|[-> ->]]; [|unfold n in Xn; congruence]. rewrite T_snoc by eauto. now apply W.
  - intros k x K Nk. apply nth_snoc in Nk as [Nk|[-> ->]]; [|unfold n in Xn; congruence]. rewrite T_snoc by eauto. now apply W.
  - intros K a k L H. rewrite app_length in L. cbn [length] in L. destruct (Nat.eq_dec k (S n)) as [->|Hk].
    + assert (NT : ~ toucher (ents s ++ [e]) a n). { intros Tn. assert (xs s n = XOk) by (apply (H n Tn); lia). congruence. }
      rewrite (T_frame _ a n FS (S n)) by (rewrite ?app_length; cbn [length]; try (unfold n; lia); intros j Hj; replace j with n by lia; auto).
      unfold n. rewrite T_snoc by lia. apply W; auto. intros j Hj. rewrite (H j (toucher_app _ _ _ _ Hj)). apply toucher_lt in Hj. unfold n. lia.
    + rewrite T_snoc by (unfold n in *; lia). apply W; auto; [unfold n in *; lia|]. intros j Hj. apply (H j (toucher_app _ _ _ _ Hj)).
Qed.
End Values.
