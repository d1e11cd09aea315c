(** Proofs: what the out-of-order processor computes, compared with one instruction at a time. *)
From Coq Require Import ZifyBool ZifyNat.
From Verif Require Import Base Alu Memory Isa SpecMem Processor SpecCpu ProcessorProofs ProcessorProofs2 ProcessorProofs3 ProcessorProofs4.
Open Scope nat_scope.

Lemma nth_app1 {A} (l : list A) x k y : nth_error l k = Some y -> nth_error (l ++ [x]) k = Some y.
Proof. intros H. rewrite nth_error_app1; [auto|]. apply nth_error_Some. congruence. Qed.
(** Writing the destinations and renaming them agree. *)
Lemma nth_tl (l : list reg) q : nth q (tl l) reg_default = nth (S q) l reg_default.
Proof. destruct l; destruct q; reflexivity. Qed.
Lemma write_rename n (V : rid -> reg) ds : forall q vs f g, (forall k, V (RDst n (q + k)) = nth k vs reg_default) -> (forall r, f r = V (g r)) ->
  forall r, write_regs ds vs f r = V (rename n q ds g r).
Proof.
  induction ds as [|d ds IH]; intros q vs f g Hn Hf r; cbn [write_regs rename]; [auto|]. apply IH.
  - intros k. replace (S q + k) with (q + S k) by lia. now rewrite Hn, nth_tl.
  - intros r'. destruct (r' =? d)%Z; [|auto]. specialize (Hn 0). rewrite Nat.add_0_r in Hn. rewrite Hn. now destruct vs.
Qed.

Definition toucher (es : list entry) (a : Z) (k : nat) : Prop := exists e, nth_error es k = Some e /\ In a (e_foot e).
Lemma toucher_lt es a k : toucher es a k -> k < length es.
Proof. intros (e & H & _). apply nth_error_Some. congruence. Qed.
Lemma toucher_snoc es e a k : toucher (es ++ [e]) a k -> toucher es a k \/ k = length es /\ In a (e_foot e).
Proof. intros (x & H & I). apply nth_snoc in H as [H|[-> ->]]; [left; exists x; auto|auto]. Qed.
Lemma toucher_app es e a k : toucher es a k -> toucher (es ++ [e]) a k.
Proof. intros (x & H & I). exists x. split; [now apply nth_app1|auto]. Qed.
Lemma toucher_last es e a : In a (e_foot e) -> toucher (es ++ [e]) a (length es).
Proof. intros I. exists e. split; [apply nth_last|auto]. Qed.
Lemma toucher_not_last es e a : ~ In a (e_foot e) -> ~ toucher (es ++ [e]) a (length es).
Proof. intros I (x & H & J). rewrite nth_last in H. congruence. Qed.

Section Values.
Context (p : profile) (r0 : Z -> reg) (m0 : mem).

(** The state after the first k instructions, run one at a time; an instruction that fails leaves the default in its destinations. *)
Definition tst := ((Z -> reg) * mem)%type.
Definition tvals (st : tst) (i : instr) : list reg := map (fst st) (src_regs i).
Definition outs (st : tst) (i : instr) : option (mem * list reg) :=
  match exec_instr p i (tvals st i) (snd st) with (m, Ok vs) => Some (m, vs) | _ => None end.
Definition tstep (st : tst) (i : instr) : tst :=
  match outs st i with Some (m, vs) => (write_regs (dst_regs i) vs (fst st), m) | None => (write_regs (dst_regs i) [] (fst st), snd st) end.
Definition T (es : list entry) (k : nat) : tst := fold_left tstep (map e_ins (firstn k es)) (r0, m0).
Definition outT (es : list entry) (k : nat) : list reg :=
  match nth_error es k with Some e => match outs (T es k) (e_ins e) with Some (_, vs) => vs | None => [] end | None => [] end.
Definition valT (es : list entry) (x : rid) : reg := match x with RInit r => r0 r | RDst j q => nth q (outT es j) reg_default end.

Lemma T_snoc es e k : k <= length es -> T (es ++ [e]) k = T es k.
Proof. intros H. unfold T. rewrite firstn_app. replace (k - length es) with 0 by lia. cbn [firstn]. now rewrite app_nil_r. Qed.
Lemma T_S es k e : nth_error es k = Some e -> T es (S k) = tstep (T es k) (e_ins e).
Proof.
  intros H. unfold T. assert (E : firstn (S k) es = firstn k es ++ [e]).
  { revert k H. induction es as [|x es IH]; intros [|k] H; cbn in *; try discriminate; [congruence|]. now rewrite (IH k H). }
  rewrite E, map_app, fold_left_app. reflexivity.
Qed.
Lemma T_last es e : T (es ++ [e]) (S (length es)) = tstep (T es (length es)) (e_ins e).
Proof. rewrite (T_S (es ++ [e]) (length es) e) by apply nth_last. now rewrite T_snoc. Qed.
Lemma outT_snoc es e j : j < length es -> outT (es ++ [e]) j = outT es j.
Proof. intros H. unfold outT. rewrite nth_error_app1, T_snoc by lia. reflexivity. Qed.
Lemma outT_last es e : outT (es ++ [e]) (length es) = match outs (T es (length es)) (e_ins e) with Some (_, vs) => vs | None => [] end.
Proof. unfold outT. now rewrite nth_last, T_snoc by lia. Qed.
Lemma valT_snoc es e x : (forall j q, x = RDst j q -> j < length es) -> valT (es ++ [e]) x = valT es x.
Proof. intros H. destruct x as [r|j q]; cbn; [auto|]. rewrite outT_snoc; eauto. Qed.

(** Facts about the dispatched instructions. *)
Record einv (es : list entry) (rmf : Z -> rid) (mo : Z -> option nat) : Prop := {
  v_rm : forall r, fst (T es (length es)) r = valT es (rmf r);
  v_src : forall k e, nth_error es k = Some e -> map (valT es) (e_src e) = tvals (T es k) (e_ins e);
  v_old : forall k e j q, nth_error es k = Some e -> In (RDst j q) (e_src e) -> is_dep es k j;
  v_mops : forall a, match mo a with None => forall k, ~ toucher es a k | Some j => toucher es a j /\ forall k, toucher es a k -> k <= j end;
  v_chain : forall a k j, toucher es a k -> toucher es a j -> j < k -> exists j', toucher es a j' /\ j <= j' < k /\ is_dep es k j'
}.
Lemma einv_disp s i foot : einv (ents s) (rm s) (mops s) -> sinv s ->
  let srcs := map (rm s) (src_regs i) in let e := {| e_ins := i; e_pc := pcv s; e_src := srcs; e_deps := flat_map producer srcs ++ mem_deps s foot; e_foot := foot; e_gas := compute_gas i (map (rob r0 s) srcs) |} in
  einv (ents s ++ [e]) (rename (length (ents s)) 0 (dst_regs i) (rm s)) (touch (length (ents s)) foot (mops s)).
Proof.
  intros H SI srcs e. set (es := ents s) in *. set (n := length es) in *.
  assert (VS : forall x, (forall j q, x = RDst j q -> j < n) -> valT (es ++ [e]) x = valT es x) by (intros; apply valT_snoc; auto).
  assert (LV : forall k x, nth_error es k = Some x -> forall y, In y (e_src x) -> forall j q, y = RDst j q -> j < n).
  { intros k x K y I j q ->. pose proof (v_old _ _ _ H k x j q K I) as D. pose proof (is_dep_lt _ _ _ D). apply (c_dep _ _ _ _ _ _ (s_core _ SI)) in D. unfold n, es in *. lia. }
  assert (LR : forall y, In y srcs -> forall j q, y = RDst j q -> j < n).
  { intros y I j q ->. apply in_map_iff in I as (r & E & _). eapply s_rm; eauto. }
  split.
  - rewrite app_length. cbn [length]. replace (length es + 1) with (S n) by (unfold n; lia). unfold n at 1. rewrite T_last. intros r.
    assert (R : forall vs, (forall k, nth k (outT (es ++ [e]) n) reg_default = nth k vs reg_default) ->
      write_regs (dst_regs i) vs (fst (T es n)) r = valT (es ++ [e]) (rename n 0 (dst_regs i) (rm s) r)).
    { intros vs Hv. apply write_rename; [intros k; cbn; apply Hv|]. intros r'. rewrite VS; [apply H|]. intros j q E. eapply s_rm; eauto. }
    unfold tstep. unfold n in R at 1. rewrite outT_last in R. fold n in R. fold n. change (e_ins e) with i in *. destruct (outs (T es n) i) as [[m vs]|]; cbn [fst]; now apply R.
  - intros k x K. apply nth_snoc in K as [K|[-> ->]].
    + rewrite T_snoc by (assert (k < length es) by (apply nth_error_Some; congruence); lia). rewrite <- (v_src _ _ _ H k x K). apply map_ext_in. intros y I. apply VS. eapply LV; eauto.
    + rewrite T_snoc by lia. cbn [e_src e_ins e]. unfold tvals, srcs. rewrite map_map. apply map_ext_in. intros r I. rewrite VS; [symmetry; apply H|]. apply LR. unfold srcs. now apply in_map.
  - intros k x j q K I. apply nth_snoc in K as [K|[-> ->]]; [apply is_dep_app; eapply v_old; eauto|]. apply is_dep_last. cbn [e_deps e_src e] in *. apply in_or_app. left. apply in_flat_map. exists (RDst j q). split; [auto|now left].
  - intros a. unfold touch. destruct (existsb (Z.eqb a) foot) eqn:E.
    + apply existsb_exists in E as (b & I & E). assert (b = a) by lia. subst b. split; [apply toucher_last; auto|]. intros k K. apply toucher_snoc in K as [K|[-> _]]; [apply toucher_lt in K; unfold n; lia|auto].
    + assert (NI : ~ In a foot). { intros I. assert (existsb (Z.eqb a) foot = true) by (apply existsb_exists; exists a; split; [auto|lia]). congruence. }
      pose proof (v_mops _ _ _ H a) as M. destruct (mops s a) as [j|].
      * destruct M as [M1 M2]. split; [now apply toucher_app|]. intros k K. apply toucher_snoc in K as [K|[_ K]]; [auto|contradiction].
      * intros k K. apply toucher_snoc in K as [K|[_ K]]; [eapply M; eauto|contradiction].
  - intros a k j K J L. apply toucher_snoc in J as [J|[-> J]].
    + apply toucher_snoc in K as [K|[-> K]].
      * destruct (v_chain _ _ _ H a k j K J L) as (j' & A & B & C). exists j'. split; [now apply toucher_app|]. split; [auto|now apply is_dep_app].
      * pose proof (v_mops _ _ _ H a) as M. destruct (mops s a) as [j'|] eqn:E; [|exfalso; eapply M; eauto]. destruct M as [M1 M2]. exists j'. split; [now apply toucher_app|]. split; [split; [auto|apply toucher_lt in M1; auto]|].
        apply is_dep_last. cbn [e_deps e]. apply in_or_app. right. apply mem_deps_in. exists a. auto.
    + apply toucher_snoc in K as [K|[-> K]]; [apply toucher_lt in K; lia|lia].
Qed.
End Values.
