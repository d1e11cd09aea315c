(** Proofs: the steps of the out-of-order processor; scheduling invariants of every reachable state. *)
From Coq Require Import ZifyBool ZifyNat.
From Verif Require Import Base Alu Memory Isa Processor ProcessorProofs.
Open Scope nat_scope.

Section Sys.
Context (p : profile) (glim : option Z) (r0 : Z -> reg).
Local Notation rob := (rob r0).
Local Notation step := (step p glim r0).

Definition h1 (s : cpu) : cpu := set_hazard (consult s (code_clear s (pcv s))) s.
Definition h2 (i : instr) (s : cpu) : cpu := set_infl (infl s + 1) (set_hazard (consult s (forallb (resolved s) (address_reg i (map (rm s) (src_regs i))))) s).
Definition disp (i : instr) (foot : list Z) (s : cpu) : cpu :=
  let n := length (ents s) in
  let srcs := map (rm s) (src_regs i) in
  let deps := flat_map producer srcs ++ mem_deps s foot in
  set_fe (FLink n deps) (set_nd (upd (nd s) n 1) (set_ph (upd (ph s) n PBlocked) (set_mops (touch n foot (mops s))
    (set_rm (rename n 0 (dst_regs i) (rm s))
    (set_ents (ents s ++ [{| e_ins := i; e_pc := pcv s; e_src := srcs; e_deps := deps; e_foot := foot; e_gas := compute_gas i (map (rob s) srcs) |}]) s))))).

Definition over (g : Z) : bool := match glim with Some l => (l <? g)%Z | None => false end.
Definition gas_of (i : instr) (s : cpu) : Z := compute_gas i (map (rob s) (map (rm s) (src_regs i))).
Definition h3 (e : entry) (s : cpu) : cpu := set_hazard (consult s (forallb (resolved s) (condition_reg (e_ins e) (e_src e)))) s.
Definition exec_ok (j : nat) (e : entry) (m : mem) (vs : list reg) (o : option nat) (s : cpu) : cpu :=
  let vals := map (rob s) (e_src e) in
  let s := set_xs (upd (xs s) j XOk) (set_dv (upd (dv s) j vs) (set_mm m s)) in
  let s := match op (e_ins e) with ODbg => set_dbg (dbg s ++ map (fun v => (j, v)) vals) s | _ => s end in
  let s := set_ph (upd (ph s) j (PRet None)) s in
  if spawns (e_ins e) vals then set_fe (FPump o) s else set_fe (FBusy o j) s.

(** Why the main thread panics. *)
Inductive why (s : cpu) : cpu -> Prop :=
| Y_fetch : fe s = FFetch -> fault s = None -> fetch (mm s) (pcv s) = Panic -> why s (set_fe FAbort (h1 s))
| Y_addr i : fe s = FFetch -> fault s = None -> fetch (mm s) (pcv s) = Ok i -> footprint i (map (rob s) (map (rm s) (src_regs i))) = Panic ->
    why s (set_fe FAbort (set_leak (leak s + 1) (h2 i (h1 s))))
| Y_self n ds : fe s = FLink n (n :: ds) -> why s (set_fe FAbort s)
| Y_ent n : fe s = FPump (Some n) -> nth_error (ents s) n = None -> why s (set_fe FAbort s)
| Y_next n e : fe s = FPump (Some n) -> chan s = [] -> nth_error (ents s) n = Some e -> next_pc p (e_ins e) (map (rob s) (e_src e)) (e_pc e) = Panic -> why s (set_fe FAbort (h3 e s))
| Y_gas n e pc : fe s = FPump (Some n) -> chan s = [] -> nth_error (ents s) n = Some e -> next_pc p (e_ins e) (map (rob s) (e_src e)) (e_pc e) = Ok (NGoto pc) ->
    (forall g, uadd p 32 (gasv s) (e_gas e) <> Ok g) -> why s (set_fe FAbort (h3 e s))
| Y_exent o j rest : fe s = FPump o -> chan s = MExec j :: rest -> nth_error (ents s) j = None -> why s (set_fe FAbort (set_chan rest s))
| Y_exec o j rest e m : fe s = FPump o -> chan s = MExec j :: rest -> nth_error (ents s) j = Some e -> fault s = None ->
    exec_instr p (e_ins e) (map (rob s) (e_src e)) (mm s) = (m, Panic) -> why s (set_fe FAbort (set_chan rest s)).
Lemma why_abort s s' : why s s' -> fe s' = FAbort.
Proof. intros []; reflexivity. Qed.

Inductive trans (s : cpu) : cpu -> Prop :=
| T_stop e : fe s = FFetch -> fault s = Some e -> trans s (set_fe (FPump None) s)
| T_fetch e : fe s = FFetch -> fault s = None -> fetch (mm s) (pcv s) = Err e -> trans s (set_fe (FFail e) (h1 s))
| T_gas i : fe s = FFetch -> fault s = None -> fetch (mm s) (pcv s) = Ok i -> over (gas_of i s) = true -> trans s (set_fe (FFail EOutOfGas) (h1 s))
| T_addr i e : fe s = FFetch -> fault s = None -> fetch (mm s) (pcv s) = Ok i -> over (gas_of i s) = false ->
    footprint i (map (rob s) (map (rm s) (src_regs i))) = Err e -> trans s (set_fe (FFail e) (set_leak (leak s + 1) (h2 i (h1 s))))
| T_disp i foot : fe s = FFetch -> fault s = None -> fetch (mm s) (pcv s) = Ok i -> over (gas_of i s) = false ->
    footprint i (map (rob s) (map (rm s) (src_regs i))) = Ok foot -> trans s (disp i foot (h2 i (h1 s)))
| T_push n d ds : fe s = FLink n (d :: ds) -> d <> n -> locked s d = false ->
    trans s (set_fe (FLink n ds) (set_nd (upd (nd s) n (nd s n + 1)) (set_dl (upd (dl s) d (n :: dl s d)) s)))
| T_skip n d ds : fe s = FLink n (d :: ds) -> d <> n -> locked s d = true -> trans s (set_fe (FLink n ds) s)
| T_linked n : fe s = FLink n [] -> trans s (set_fe (FPump (Some n)) (release n s))
| T_goto n e pc g : fe s = FPump (Some n) -> chan s = [] -> nth_error (ents s) n = Some e -> next_pc p (e_ins e) (map (rob s) (e_src e)) (e_pc e) = Ok (NGoto pc) ->
    uadd p 32 (gasv s) (e_gas e) = Ok g -> trans s (set_fe FFetch (set_gasv g (set_pcv pc (h3 e s))))
| T_halt n e : fe s = FPump (Some n) -> chan s = [] -> nth_error (ents s) n = Some e -> next_pc p (e_ins e) (map (rob s) (e_src e)) (e_pc e) = Ok NHalt ->
    trans s (set_fe (FPump None) (h3 e s))
| T_next n e x : fe s = FPump (Some n) -> chan s = [] -> nth_error (ents s) n = Some e -> next_pc p (e_ins e) (map (rob s) (e_src e)) (e_pc e) = Err x ->
    trans s (set_fe (FFail x) (h3 e s))
| T_end : fe s = FPump None -> infl s = 0 -> trans s (set_fe FEnd s)
| T_msg o r rest : fe s = FPump o -> (o = None -> infl s <> 0) -> chan s = MRetire r :: rest ->
    trans s (set_infl (infl s - 1) (set_fault (set_first (fault s) r) (set_chan rest s)))
| T_skipx o j rest e x : fe s = FPump o -> (o = None -> infl s <> 0) -> chan s = MExec j :: rest -> nth_error (ents s) j = Some e -> fault s = Some x ->
    trans s (set_fe (FBusy o j) (set_ph (upd (ph s) j (PRet None)) (set_xs (upd (xs s) j XSkip) (set_chan rest s))))
| T_ok o j rest e m vs : fe s = FPump o -> (o = None -> infl s <> 0) -> chan s = MExec j :: rest -> nth_error (ents s) j = Some e -> fault s = None ->
    exec_instr p (e_ins e) (map (rob s) (e_src e)) (mm s) = (m, Ok vs) -> trans s (exec_ok j e m vs o (set_chan rest s))
| T_fail o j rest e m x : fe s = FPump o -> (o = None -> infl s <> 0) -> chan s = MExec j :: rest -> nth_error (ents s) j = Some e -> fault s = None ->
    exec_instr p (e_ins e) (map (rob s) (e_src e)) (mm s) = (m, Err x) ->
    trans s (set_fe (FBusy o j) (set_ph (upd (ph s) j (PRet (Some x))) (set_xs (upd (xs s) j XFail) (set_mm m (set_chan rest s)))))
| T_done o j : fe s = FBusy o j -> ph s j = PDone -> trans s (set_fe (FPump o) s)
| T_fault e : fe s = FFail e -> trans s (set_fe (FPump None) (set_fault (set_first (fault s) (Some e)) s))
| T_ret1 j r : ph s j = PRet r -> trans s (set_ph (upd (ph s) j (PLock r)) (set_fault (set_first (fault s) r) s))
| T_ret2 j r : ph s j = PLock r -> trans s (set_ph (upd (ph s) j (PDrain r)) s)
| T_pop j r d rest : ph s j = PDrain r -> dl s j = d :: rest -> trans s (release d (set_dl (upd (dl s) j rest) s))
| T_fin j r : ph s j = PDrain r -> dl s j = [] -> trans s (set_chan (chan s ++ [MRetire r]) (set_ph (upd (ph s) j PDone) s))
| T_abort s' : why s s' -> trans s s'.

Lemma dispatch_trans i s s' : fe s = FFetch -> fault s = None -> fetch (mm s) (pcv s) = Ok i -> dispatch glim r0 i (h1 s) = s' -> trans s s'.
Proof.
  intros F N E D. unfold dispatch in D. cbn -[footprint compute_gas fail_with] in D.
  change (map (Processor.rob r0 (h1 s))) with (map (rob s)) in D.
  destruct (match glim with Some l => (l <? compute_gas i (map (rob s) (map (rm s) (src_regs i))))%Z | None => false end) eqn:G.
  { subst s'. apply T_gas with i; auto. }
  destruct (footprint i (map (rob s) (map (rm s) (src_regs i)))) as [foot|e|] eqn:Ft.
  - subst s'. apply T_disp; auto.
  - subst s'. eapply T_addr; eauto.
  - subst s'. apply T_abort. eapply Y_addr; eauto.
Qed.

Lemma step_trans s s' : step s s' -> trans s s'.
Proof.
  intros [[|j] E]; cbn [stepf] in E.
  - unfold main_step in E. destruct (fe s) as [|n ds|[n|]|o j|e| |] eqn:F.
    + injection E as E. unfold fetch_step in E. destruct (fault s) as [x|] eqn:N; [subst s'; eapply T_stop; eauto|].
      cbn [mm pcv set_hazard] in E. destruct (fetch (mm s) (pcv s)) as [i|e|] eqn:Fe; cbn [fail_with] in E.
      * eapply dispatch_trans; eauto.
      * subst s'. eapply T_fetch; eauto.
      * subst s'. apply T_abort. apply Y_fetch; auto.
    + injection E as E. destruct ds as [|d ds]; cbn [link_step] in E; [subst s'; now apply T_linked|]. destruct (d =? n) eqn:D; [subst s'; apply T_abort; assert (d = n) by lia; subst; eapply Y_self; eauto|].
      destruct (locked s d) eqn:L; subst s'; [eapply T_skip|eapply T_push]; eauto; lia.
    + destruct (chan s) as [|m rest] eqn:C.
      * injection E as E. unfold next_step in E. destruct (nth_error (ents s) n) as [e|] eqn:N; [|subst s'; apply T_abort; eapply Y_ent; eauto].
        change (Processor.rob r0 (set_hazard _ s)) with (Processor.rob r0 s) in E.
        destruct (next_pc p (e_ins e) (map (rob s) (e_src e)) (e_pc e)) as [[pc|]|x|] eqn:Np; cbn [fail_with] in E.
        -- cbn [gasv set_hazard] in E. destruct (uadd p 32 (gasv s) (e_gas e)) as [g| |] eqn:G; subst s'; [eapply T_goto; eauto|apply T_abort; eapply Y_gas; eauto; congruence|apply T_abort; eapply Y_gas; eauto; congruence].
        -- subst s'. eapply T_halt; eauto.
        -- subst s'. eapply T_next; eauto.
        -- subst s'. apply T_abort. eapply Y_next; eauto.
      * injection E as E. destruct m as [j|r]; cbn [recv_step] in E; [|subst s'; apply (T_msg s (Some n) r rest); auto; discriminate]. unfold exec_step in E. cbn [fault ents mm set_chan] in E.
        destruct (nth_error (ents s) j) as [e|] eqn:N; [|destruct (fault s); subst s'; apply T_abort; apply (Y_exent s (Some n) j rest); auto].
        destruct (fault s) as [x|] eqn:Fa; [subst s'; apply (T_skipx s (Some n) j rest e x); auto; discriminate|].
        change (Processor.rob r0 (set_chan rest s)) with (Processor.rob r0 s) in E.
        destruct (exec_instr p (e_ins e) (map (rob s) (e_src e)) (mm s)) as [m [vs|x|]] eqn:X; subst s'.
        -- apply (T_ok s (Some n) j rest e m vs); auto; discriminate.
        -- apply (T_fail s (Some n) j rest e m x); auto; discriminate.
        -- apply T_abort. apply (Y_exec s (Some n) j rest e m); auto.
    + destruct (infl s =? 0) eqn:I; [injection E as <-; apply T_end; auto; lia|]. destruct (chan s) as [|m rest] eqn:C; [discriminate|].
      injection E as E. assert (I' : infl s <> 0) by lia. destruct m as [j|r]; cbn [recv_step] in E; [|subst s'; apply (T_msg s None r rest); auto]. unfold exec_step in E. cbn [fault ents mm set_chan] in E.
      destruct (nth_error (ents s) j) as [e|] eqn:N; [|destruct (fault s); subst s'; apply T_abort; apply (Y_exent s None j rest); auto].
      destruct (fault s) as [x|] eqn:Fa; [subst s'; apply (T_skipx s None j rest e x); auto|].
      change (Processor.rob r0 (set_chan rest s)) with (Processor.rob r0 s) in E.
      destruct (exec_instr p (e_ins e) (map (rob s) (e_src e)) (mm s)) as [m [vs|x|]] eqn:X; subst s'.
      * apply (T_ok s None j rest e m vs); auto.
      * apply (T_fail s None j rest e m x); auto.
      * apply T_abort. apply (Y_exec s None j rest e m); auto.
    + destruct (ph s j) eqn:P; try discriminate. injection E as <-. eapply T_done; eauto.
    + injection E as <-. now apply T_fault.
    + discriminate.
    + discriminate.
  - unfold retire_step in E. destruct (ph s j) eqn:P; try discriminate; [injection E as <-; now apply T_ret1|injection E as <-; eapply T_ret2; eauto|].
    destruct (dl s j) as [|d rest] eqn:D; injection E as <-; [eapply T_fin; eauto|eapply T_pop; eauto].
Qed.

(** Projections. *)
Lemma release_proj d s : fe (release d s) = fe s /\ pcv (release d s) = pcv s /\ gasv (release d s) = gasv s /\ ents (release d s) = ents s /\ rm (release d s) = rm s /\
  mops (release d s) = mops s /\ ph (release d s) = (if nd s d =? 1 then upd (ph s) d PQueued else ph s) /\ nd (release d s) = upd (nd s) d (nd s d - 1) /\ dl (release d s) = dl s /\
  dv (release d s) = dv s /\ chan (release d s) = (if nd s d =? 1 then chan s ++ [MExec d] else chan s) /\ infl (release d s) = infl s /\ fault (release d s) = fault s /\ mm (release d s) = mm s /\
  dbg (release d s) = dbg s /\ xs (release d s) = xs s /\ hazard (release d s) = hazard s /\ leak (release d s) = leak s.
Proof. unfold release. destruct (nd s d =? 1); cbn; repeat split; auto. Qed.
Lemma exec_ok_proj j e m vs o s : fe (exec_ok j e m vs o s) = (if spawns (e_ins e) (map (rob s) (e_src e)) then FPump o else FBusy o j) /\ pcv (exec_ok j e m vs o s) = pcv s /\ gasv (exec_ok j e m vs o s) = gasv s /\
  ents (exec_ok j e m vs o s) = ents s /\ rm (exec_ok j e m vs o s) = rm s /\ mops (exec_ok j e m vs o s) = mops s /\ ph (exec_ok j e m vs o s) = upd (ph s) j (PRet None) /\ nd (exec_ok j e m vs o s) = nd s /\
  dl (exec_ok j e m vs o s) = dl s /\ dv (exec_ok j e m vs o s) = upd (dv s) j vs /\ chan (exec_ok j e m vs o s) = chan s /\ infl (exec_ok j e m vs o s) = infl s /\ fault (exec_ok j e m vs o s) = fault s /\
  mm (exec_ok j e m vs o s) = m /\ dbg (exec_ok j e m vs o s) = dbg s ++ (match op (e_ins e) with ODbg => map (fun v => (j, v)) (map (rob s) (e_src e)) | _ => [] end) /\ xs (exec_ok j e m vs o s) = upd (xs s) j XOk /\
  hazard (exec_ok j e m vs o s) = hazard s /\ leak (exec_ok j e m vs o s) = leak s.
Proof. unfold exec_ok. destruct (spawns (e_ins e) (map (rob s) (e_src e))); destruct (op (e_ins e)); cbn; rewrite ?app_nil_r; repeat split; auto. Qed.
End Sys.
Ltac pj := cbn [fe pcv gasv ents rm mops ph nd dl dv chan infl fault mm dbg xs hazard leak set_fe set_pcv set_gasv set_ents set_rm set_mops set_ph set_nd set_dl set_dv set_chan set_infl set_fault set_mm set_dbg set_xs set_hazard set_leak h1 h2 h3 disp] in *.
Ltac prel d s := let H := fresh "RP" in pose proof (release_proj d s) as H; destruct H as (?RPfe & ?RPpc & ?RPgas & ?RPents & ?RPrm & ?RPmops & ?RPph & ?RPnd & ?RPdl & ?RPdv & ?RPchan & ?RPinfl & ?RPfault & ?RPmm & ?RPdbg & ?RPxs & ?RPhaz & ?RPleak).
