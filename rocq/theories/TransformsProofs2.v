(** Proofs about forward_traverse_mut. *)
From Coq Require Import Permutation.
From Verif Require Import Base Alu AluProofs Graph MuxGraph SpecMux MuxGraphProofs MuxGraphProofs2 MuxEval MuxEvalProofs Transforms SpecTransforms TransformsProofs.
Open Scope nat_scope.

Section P.
Context {N E : Type}.
Implicit Types (g : sgraph N E) (ts : list (gtransform N E)) (h : history N E).

Lemma sources_fold g : forall l ready stack, fold_left (push_source (sg g)) l (ready, stack) =
  (rev (filter (fun i => match preds (sg g) i with [] => true | _ => false end) l) ++ ready, rev (filter (fun i => match preds (sg g) i with [] => true | _ => false end) l) ++ stack).
Proof.
  induction l as [|x l IH]; intros ready stack; [reflexivity|]. cbn [fold_left filter]. unfold push_source at 2. cbn [fst snd]. destruct (preds (sg g) x); rewrite IH; [|reflexivity].
  cbn [rev]. rewrite <- !app_assoc. reflexivity.
Qed.
Lemma unvisited_dec g x v : (forall m, edge g m x -> In m v) \/ exists m, edge g m x /\ ~ In m v.
Proof.
  destruct (forallb (fun m => mem m v) (preds (sg g) x)) eqn:F.
  - left. intros m Hm. rewrite forallb_forall in F. apply mem_In, F, edge_preds, Hm.
  - right. destruct (existsb (fun m => negb (mem m v)) (preds (sg g) x)) eqn:X.
    + apply existsb_exists in X as (k & Hk & X). apply negb_true_iff, mem_not in X. exists k. split; [now apply edge_preds|exact X].
    + exfalso. apply not_true_iff_false in F. apply F, forallb_forall. intros k Hk. destruct (mem k v) eqn:Y; [reflexivity|exfalso].
      apply not_true_iff_false in X. apply X, existsb_exists. exists k. split; [exact Hk|now rewrite Y].
Qed.

(** Each node was visited after its predecessors in the graph at the start. *)
Fixpoint ordered0 (g0 : sgraph N E) h : Prop :=
  match h with [] => True | (n, _, _) :: h => (forall m, edge g0 m n -> In m (visited_nodes h)) /\ ordered0 g0 h end.
(** Each call of the callback came after the calls for all predecessors in the graph it saw. *)
Fixpoint ordered h : Prop :=
  match h with [] => True | (n, g, _) :: h => has g n /\ (forall m, edge g m n -> In m (visited_nodes h)) /\ ordered h end.
Record minv (g0 : sgraph N E) h g (ready stack : list nat) : Prop := {
  mi_wf : well_formed g;
  mi_nodup : NoDup (stack ++ visited_nodes h);
  mi_ready : forall i, In i ready <-> In i (stack ++ visited_nodes h);
  mi_nodes : forall i, In i stack -> has g i;
  mi_preds : forall i m, In i stack -> edge g m i -> In m (visited_nodes h);
  mi_rest : forall i, has g i -> ~ In i ready -> exists m, edge g m i /\ ~ In m (visited_nodes h);
  mi_kept : forall i, has g0 i -> has g i \/ In i (visited_nodes h);
  mi_order : ordered h;
  mi_edges : forall a b, edge g0 a b -> edge g a b \/ In a (visited_nodes h) \/ In b (visited_nodes h);
  mi_order0 : ordered0 g0 h
}.
Lemma minv_step g0 h g ready n stack ts g' added : minv g0 h g ready (n :: stack) -> apply ts g = Ok (g', added) -> allowed (visited_nodes h) n g added g' ->
  let v := n :: visited_nodes h in
  let st := if contains (sg g') n then fold_left (push_next (sg g') v) (succs (sg g') n) (ready, stack) else (ready, stack) in
  let '(ready', stack') := fold_left (push_source (sg g')) added (fold_left (push_next (sg g') v) (succs (sg g) n) st) in
  minv g0 ((n, g, ts) :: h) g' ready' stack'.
Proof.
  intros [I1 I2 I3 I4 I5 I6 I7 I8 I9 I10] Ha [A1 A2 [A3 A4] A5 A6 A7] v. pose proof (apply_wf _ _ _ _ I1 Ha) as W'.
  set (st := if contains (sg g') n then fold_left (push_next (sg g') v) (succs (sg g') n) (ready, stack) else (ready, stack)). cbv zeta.
  set (V := visited_nodes h) in *.
  assert (Nn : ~ In n (stack ++ V)) by (inversion I2; assumption). assert (ND0 : NoDup (stack ++ V)) by (inversion I2; assumption).
  assert (Rn : In n ready) by (apply I3; now left). assert (Hn : has g n) by (apply I4; now left).
  assert (S1 : exists new1, st = (new1 ++ ready, new1 ++ stack) /\ NoDup new1 /\
    (forall i, In i new1 -> edge g' n i /\ ~ In i ready /\ forall m, edge g' m i -> In m v) /\
    (forall i, edge g' n i -> (forall m, edge g' m i -> In m v) -> In i (new1 ++ ready))).
  { unfold st. destruct (contains (sg g') n) eqn:C.
    - destruct (push_fold (sg g') v (succs (sg g') n) ready stack) as (new1 & E1 & ND1 & P1 & Q1). exists new1. split; [exact E1|]. split; [exact ND1|]. split.
      + intros i Hi. destruct (P1 i Hi) as (X & Y & Z). split; [now apply edge_succs|]. split; [exact Y|]. intros m Hm. apply Z, edge_preds, Hm.
      + intros i Hi Hp. apply Q1; [now apply edge_succs|]. intros m Hm. apply Hp, edge_preds, Hm.
    - exists []. split; [reflexivity|]. split; [constructor|]. split; [intros i []|]. intros i Hi. destruct (wf_ends _ W' n i Hi) as [X _]. unfold has in X. congruence. }
  destruct S1 as (new1 & -> & ND1 & P1 & Q1).
  destruct (push_fold (sg g') v (succs (sg g) n) (new1 ++ ready) (new1 ++ stack)) as (new2 & -> & ND2 & P2' & Q2').
  assert (P2 : forall i, In i new2 -> edge g n i /\ ~ In i (new1 ++ ready) /\ forall m, edge g' m i -> In m v).
  { intros i Hi. destruct (P2' i Hi) as (X & Y & Z). split; [now apply edge_succs|]. split; [exact Y|]. intros m Hm. apply Z, edge_preds, Hm. }
  assert (Q2 : forall i, edge g n i -> (forall m, edge g' m i -> In m v) -> In i (new2 ++ new1 ++ ready)).
  { intros i Hi Hp. apply Q2'; [now apply edge_succs|]. intros m Hm. apply Hp, edge_preds, Hm. }
  clear P2' Q2'. rewrite sources_fold.
  set (src := rev (filter (fun i => match preds (sg g') i with [] => true | _ => false end) added)).
  assert (P3 : forall i, In i src <-> In i added /\ forall m, ~ edge g' m i).
  { intros i. unfold src. rewrite <- in_rev, filter_In, <- no_preds. destruct (preds (sg g') i); split; intros [X Y]; split; auto; discriminate. }
  assert (ND3 : NoDup src) by (apply NoDup_rev, NoDup_filter, A3). clearbody src.
  assert (Fr : forall i, In i added -> ~ In i ready).
  { intros i Hi Hr. destruct (A4 i Hi) as (_ & X & Y). apply I3 in Hr. apply in_app_or in Hr as [Hr|Hr]; [apply X; now apply I4|now apply Y]. }
  assert (Vs : visited_nodes ((n, g, ts) :: h) = v) by reflexivity.
  constructor.
  - exact W'.
  - rewrite Vs, <- !app_assoc. apply NoDup_app_intro; [exact ND3| |].
    + apply NoDup_app_intro; [exact ND2| |].
      * apply NoDup_app_intro; [exact ND1| |].
        -- apply (Permutation_NoDup (Permutation_middle stack V n)). constructor; assumption.
        -- intros i Hi Hs. destruct (P1 i Hi) as (_ & X & _). apply X, I3. change ((n :: stack) ++ V) with (n :: stack ++ V).
           apply (Permutation_in i (Permutation_sym (Permutation_middle stack V n))). exact Hs.
      * intros i Hi Hs. destruct (P2 i Hi) as (_ & X & _). apply X. apply in_app_or in Hs as [Hs|Hs]; apply in_or_app; [now left|right]. apply I3. change ((n :: stack) ++ V) with (n :: stack ++ V).
        apply (Permutation_in i (Permutation_sym (Permutation_middle stack V n))). exact Hs.
    + intros i Hi Hs. apply P3 in Hi as [Hi Hp]. apply in_app_or in Hs as [Hs|Hs]; [|apply in_app_or in Hs as [Hs|Hs]].
      * destruct (P2 i Hs) as (X & _). destruct (A4 i Hi) as (_ & Y & _). apply Y. exact (proj2 (wf_ends _ I1 n i X)).
      * destruct (P1 i Hs) as (X & _). exact (Hp n X).
      * apply (Fr i Hi), I3. change ((n :: stack) ++ V) with (n :: stack ++ V). apply (Permutation_in i (Permutation_sym (Permutation_middle stack V n))). exact Hs.
  - intros i. rewrite Vs, <- !app_assoc, !in_app_iff, I3. change (In i ((n :: stack) ++ V)) with (n = i \/ In i (stack ++ V)). unfold v. cbn [In]. rewrite in_app_iff. tauto.
  - intros i. rewrite !in_app_iff. intros [H|[H|[H|H]]].
    + apply P3 in H as [H _]. exact (proj1 (A4 i H)).
    + destruct (P2 i H) as (X & Y & _). apply A1; [exact (proj2 (wf_ends _ I1 n i X))|]. intros ->. apply Y, in_or_app. now right.
    + destruct (P1 i H) as (X & _). exact (proj2 (wf_ends _ W' n i X)).
    + apply A1; [apply I4; now right|]. intros ->. apply Nn, in_or_app. now left.
  - intros i m. rewrite Vs, !in_app_iff. intros [H|[H|[H|H]]] Hm.
    + apply P3 in H as [_ H]. destruct (H m Hm).
    + now apply (P2 i H).
    + now apply (P1 i H).
    + right. destruct (A5 m i Hm) as [X|[X|(k & X & Y)]].
      * apply (I5 i m); [now right|exact X].
      * exfalso. apply (Fr i X), I3. right. apply in_or_app. now left.
      * exfalso. apply Y, (I5 i k); [now right|exact X].
  - intros i Hi Hr. rewrite Vs. rewrite !in_app_iff in Hr. destruct (unvisited_dec g' i v) as [All|Ex]; [exfalso|exact Ex].
    destruct (A2 i Hi) as [Ho|Hw].
    + destruct (I6 i Ho ltac:(tauto)) as (m & Hm & Hv). destruct (Nat.eq_dec m n) as [-> |Hmn].
      * specialize (Q2 i Hm All). rewrite !in_app_iff in Q2. tauto.
      * assert (i <> n) by (intros ->; tauto). specialize (All m (A6 m i Hm Hmn H)). destruct All as [All|All]; [congruence|contradiction].
    + destruct (A7 i Hw) as [X|[X|(m & X & Y)]].
      * apply Hr. left. apply P3. split; assumption.
      * specialize (Q1 i X All). rewrite in_app_iff in Q1. tauto.
      * apply Y, All, X.
  - intros i Hi. rewrite Vs. unfold v. cbn [In]. destruct (I7 i Hi) as [X|X]; [|tauto]. destruct (Nat.eq_dec i n) as [-> |Hin]; [tauto|left; now apply A1].
  - cbn [ordered]. split; [exact Hn|]. split; [|exact I8]. intros m Hm. apply (I5 n m); [now left|exact Hm].
  - intros a b H. rewrite Vs. unfold v. cbn [In]. destruct (Nat.eq_dec a n) as [-> |An]; [tauto|]. destruct (Nat.eq_dec b n) as [-> |Bn]; [tauto|].
    destruct (I9 a b H) as [X|[X|X]]; [|tauto..]. left. now apply A6.
  - cbn [ordered0]. split; [|exact I10]. intros m Hm. destruct (I9 m n Hm) as [X|[X|X]]; [|exact X|].
    + apply (I5 n m); [now left|exact X].
    + exfalso. apply Nn, in_or_app. now right.
Qed.

Lemma traverse_mut_history cb : forall fuel h g ready visited stack h' g', traverse_mut fuel cb h g ready visited stack = Some (Ok (h', g')) -> exists new, h' = new ++ h.
Proof.
  induction fuel as [|fuel IH]; intros h g ready visited stack h' g' H; destruct stack as [|n stack]; cbn [traverse_mut] in H; try discriminate; [injection H as <- _; now exists []..|].
  destruct (contains (sg g) n); cbn [negb] in H; [|eapply IH, H]. destruct (cb h g n) as [ts| |]; try discriminate. destruct (apply ts g) as [[g2 added]| |]; try discriminate.
  destruct (fold_left (push_source (sg g2)) added _) as [r s]. apply IH in H as [new ->]. exists (new ++ [(n, g, ts)]). now rewrite <- app_assoc.
Qed.
Lemma traverse_mut_ok g0 cb : forall fuel h g ready stack h' g', minv g0 h g ready stack ->
  traverse_mut fuel cb h g ready (visited_nodes h) stack = Some (Ok (h', g')) -> all_allowed h' -> exists ready', minv g0 h' g' ready' [].
Proof.
  induction fuel as [|fuel IH]; intros h g ready stack h' g' I H Al; destruct stack as [|n stack]; cbn [traverse_mut] in H; try discriminate; [injection H as <- <-; exists ready; exact I..|].
  pose proof (mi_nodes _ _ _ _ _ I n ltac:(now left)) as Hn. unfold has in Hn. rewrite Hn in H. cbn [negb] in H. destruct (cb h g n) as [ts| |]; try discriminate.
  destruct (apply ts g) as [[g2 added]| |] eqn:Ap; try discriminate.
  pose proof (minv_step g0 h g ready n stack ts g2 added I Ap) as St. cbv zeta in St.
  destruct (fold_left (push_source (sg g2)) added _) as [r s]. pose proof (traverse_mut_history _ _ _ _ _ _ _ _ _ H) as [new ->].
  eapply IH; [apply St|exact H|exact Al]. eapply Al; [reflexivity|exact Ap].
Qed.
Definition starts g : list nat := filter (fun n => match preds (sg g) n with [] => true | _ => false end) (node_indices (sg g)).
Lemma starts_spec g i : In i (starts g) <-> has g i /\ forall m, ~ edge g m i.
Proof. unfold starts. rewrite filter_In, node_indices_spec, <- no_preds. unfold has. destruct (preds (sg g) i); split; intros [A B]; split; auto; discriminate. Qed.
Lemma starts_nodup g : NoDup (starts g).
Proof. apply NoDup_filter. unfold node_indices. apply NoDup_filter, seq_NoDup. Qed.
Lemma minv_start g : well_formed g -> minv g [] g (starts g) (rev (starts g)).
Proof.
  intros W. constructor; cbn [visited_nodes map]; rewrite ?app_nil_r.
  - exact W.
  - apply NoDup_rev, starts_nodup.
  - intros i. now rewrite <- in_rev.
  - intros i. rewrite <- in_rev. intros H. now apply starts_spec in H.
  - intros i m Hi Hm. rewrite <- in_rev in Hi. apply starts_spec in Hi as [_ Hi]. destruct (Hi m Hm).
  - intros i Hi Hs. destruct (unvisited_dec g i []) as [A|A]; [|exact A]. exfalso. apply Hs, starts_spec. split; [exact Hi|]. intros m Hm. destruct (A m Hm).
  - auto.
  - exact Logic.I.
  - auto.
  - exact Logic.I.
Qed.
Lemma ordered0_split g0 : forall later h n g ts earlier, ordered0 g0 h -> h = later ++ (n, g, ts) :: earlier -> forall m, edge g0 m n -> In m (visited_nodes earlier).
Proof.
  induction later as [|[[x y] z] later IH]; intros h n g ts earlier O ->; cbn [app ordered0] in O; [tauto|]. eapply IH; [exact (proj2 O)|reflexivity].
Qed.
Lemma ordered_split : forall later h n g ts earlier, ordered h -> h = later ++ (n, g, ts) :: earlier -> has g n /\ forall m, edge g m n -> In m (visited_nodes earlier).
Proof.
  induction later as [|[[x y] z] later IH]; intros h n g ts earlier O ->; cbn [app ordered] in O; [tauto|]. eapply IH; [exact (proj2 (proj2 O))|reflexivity].
Qed.
Lemma forward_traverse_mut_ok fuel cb g h' g' : well_formed g -> forward_traverse_mut fuel cb g = Some (Ok (h', g')) -> all_allowed h' -> acyclic_graph g' ->
  NoDup (visited_nodes h') /\ (forall x, has g x \/ has g' x -> In x (visited_nodes h')) /\ ordered h' /\ ordered0 g h' /\ well_formed g'.
Proof.
  intros W H Al [rank Hr]. destruct (traverse_mut_ok g cb fuel [] g (starts g) (rev (starts g)) h' g' (minv_start g W) H Al) as [ready' [I1 I2 I3 I4 I5 I6 I7 I8 I9 I10]].
  cbn [app] in *. split; [exact I2|]. split; [|split; [|split]; assumption].
  assert (F : forall x, has g' x -> In x (visited_nodes h')).
  { refine (well_founded_ind (well_founded_ltof nat rank) _ _). intros x IH Hx. unfold ltof in IH. destruct (in_dec Nat.eq_dec x (visited_nodes h')) as [X|X]; [exact X|exfalso].
    destruct (I6 x Hx) as (m & Hm & Hv); [now rewrite I3|]. apply Hv, IH; [now apply Hr|]. exact (proj1 (wf_ends _ I1 m x Hm)). }
  intros x [Hx|Hx]; [destruct (I7 x Hx); auto|auto].
Qed.

(** ** Termination when no nodes are added *)
Lemma noadd_one g ids t g' i : adds t = false -> apply_one g ids t = Ok (g', i) -> i = None /\ length (gnodes (sg g')) = length (gnodes (sg g)).
Proof.
  destruct t as [a b l|w|n|a b]; cbn [apply_one adds]; intros Hf H; try discriminate.
  - destruct (materialize ids a) as [x| |], (materialize ids b) as [y| |]; cbn [bind] in H; try discriminate. unfold sg_add_edge, add_edge in H. destruct (_ && _); cbn [bind] in H; try discriminate.
    injection H as <- <-. auto.
  - destruct (materialize ids n) as [x| |]; cbn [bind] in H; try discriminate. injection H as <- <-. split; [reflexivity|]. unfold sg_remove_node. destruct (contains (sg g) x); [|reflexivity].
    cbn [sg]. unfold remove_node; cbn [gnodes]. rewrite map_length, combine_length, seq_length. lia.
  - destruct (materialize ids a) as [x| |], (materialize ids b) as [y| |]; cbn [bind] in H; try discriminate. unfold sg_remove_edge in H. destruct (cut_edge _ _ _); cbn [bind] in H; try discriminate.
    injection H as <- <-. auto.
Qed.
Lemma noadd_loop : forall ts g ids g' ids' added, (forall t, In t ts -> adds t = false) -> apply_loop ts g ids [] = Ok (g', ids', added) -> added = [] /\ length (gnodes (sg g')) = length (gnodes (sg g)).
Proof.
  induction ts as [|t ts IH]; intros g ids g' ids' added Hf H; cbn [apply_loop] in H; [injection H as <- _ <-; auto|].
  destruct (apply_one g ids t) as [[g2 i]| |] eqn:A; cbn [bind] in H; try discriminate. destruct (noadd_one _ _ _ _ _ (Hf t ltac:(now left)) A) as [-> L].
  destruct (IH _ _ _ _ _ (fun u Hu => Hf u (or_intror Hu)) H) as [Ha L']. split; [exact Ha|congruence].
Qed.
Lemma noadd ts g g' added : (forall t, In t ts -> adds t = false) -> apply ts g = Ok (g', added) -> added = [] /\ length (gnodes (sg g')) = length (gnodes (sg g)).
Proof. intros Hf H. unfold apply in H. destruct (apply_loop ts g [] []) as [[[g2 ids] ad]| |] eqn:A; cbn [bind] in H; try discriminate. injection H as <- <-. eapply noadd_loop; eassumption. Qed.

Lemma has_lt g i : has g i -> i < length (gnodes (sg g)).
Proof. intros H. apply has_node in H as [w H]. eapply node_lt, H. Qed.
Lemma traverse_mut_terminates cb L : (forall h g n ts, cb h g n = Ok ts -> forall t, In t ts -> adds t = false) ->
  forall fuel h g ready visited stack, well_formed g -> length (gnodes (sg g)) = L -> NoDup ready -> (forall i, In i ready -> i < L) -> length stack + (L - length ready) <= fuel ->
  traverse_mut fuel cb h g ready visited stack <> None.
Proof.
  intros Hcb. induction fuel as [|fuel IH]; intros h g ready visited stack W HL ND Hb Hf; destruct stack as [|n stack]; cbn [traverse_mut]; try discriminate; cbn [length] in Hf; [lia|].
  destruct (contains (sg g) n); cbn [negb]; [|apply IH; auto; lia]. destruct (cb h g n) as [ts| |] eqn:C; try discriminate. destruct (apply ts g) as [[g2 added]| |] eqn:Ap; try discriminate.
  destruct (noadd ts g g2 added (Hcb _ _ _ _ C) Ap) as [-> L2]. cbn [fold_left]. pose proof (apply_wf _ _ _ _ W Ap) as W2.
  assert (Push : forall gx l r s, (forall i, In i l -> i < L) -> NoDup r -> (forall i, In i r -> i < L) -> exists r' s', fold_left (push_next (N:=N) (E:=E) gx (n :: visited)) l (r, s) = (r', s') /\ NoDup r' /\ (forall i, In i r' -> i < L) /\
    length s' + (L - length r') <= length s + (L - length r)).
  { intros gx l r s Hl NDr Hr. destruct (push_fold gx (n :: visited) l r s) as (new & -> & NDn & P & _). exists (new ++ r), (new ++ s). split; [reflexivity|].
    assert (ND' : NoDup (new ++ r)) by (apply NoDup_app_intro; [exact NDn|exact NDr|]; intros i Hi; now apply (P i Hi)).
    assert (Hb' : forall i, In i (new ++ r) -> i < L) by (intros i Hi; apply in_app_or in Hi as [Hi|Hi]; [apply Hl, (P i Hi)|now apply Hr]).
    split; [exact ND'|]. split; [exact Hb'|]. rewrite !app_length. assert (length (new ++ r) <= L).
    { rewrite <- (seq_length L 0). apply NoDup_incl_length; [exact ND'|]. intros i Hi. apply in_seq. specialize (Hb' i Hi). lia. }
    rewrite app_length in H. lia. }
  assert (Sg : forall i, In i (succs (sg g) n) -> i < L). { intros i Hi. rewrite <- HL. apply has_lt. apply edge_succs in Hi. exact (proj2 (wf_ends _ W n i Hi)). }
  assert (Sg2 : forall i, In i (succs (sg g2) n) -> i < L). { intros i Hi. rewrite <- HL, <- L2. apply has_lt. apply edge_succs in Hi. exact (proj2 (wf_ends _ W2 n i Hi)). }
  assert (X : exists r1 s1, (if contains (sg g2) n then fold_left (push_next (sg g2) (n :: visited)) (succs (sg g2) n) (ready, stack) else (ready, stack)) = (r1, s1) /\ NoDup r1 /\ (forall i, In i r1 -> i < L) /\
    length s1 + (L - length r1) <= length stack + (L - length ready)).
  { destruct (contains (sg g2) n); [apply Push; assumption|]. exists ready, stack. split; [reflexivity|]. split; [exact ND|]. split; [exact Hb|]. lia. }
  destruct X as (r1 & s1 & -> & ND1 & Hb1 & M1). destruct (Push (sg g2) (succs (sg g) n) r1 s1 Sg ND1 Hb1) as (r2 & s2 & -> & ND2 & Hb2 & M2).
  apply IH; auto; try congruence. lia.
Qed.
Lemma forward_traverse_mut_terminates cb g : (forall h g n ts, cb h g n = Ok ts -> forall t, In t ts -> adds t = false) -> well_formed g ->
  forward_traverse_mut (length (gnodes (sg g))) cb g <> None.
Proof.
  intros Hcb W. unfold forward_traverse_mut. apply traverse_mut_terminates with (length (gnodes (sg g))); auto.
  - apply (starts_nodup g).
  - intros i Hi. apply (starts_spec g) in Hi as [Hi _]. now apply has_lt.
  - rewrite rev_length. set (l := filter _ _). assert (length l <= length (gnodes (sg g))); [|lia]. rewrite <- (seq_length (length (gnodes (sg g))) 0). apply NoDup_incl_length; [apply (starts_nodup g)|].
    intros i Hi. apply in_seq. apply (starts_spec g) in Hi as [Hi _]. apply has_lt in Hi. lia.
Qed.

(** ** Callbacks that never fail *)
Lemma traverse_mut_total cb : (forall h g n, well_formed g -> has g n -> exists ts g' added, cb h g n = Ok ts /\ apply ts g = Ok (g', added)) ->
  forall fuel h g ready visited stack r, well_formed g -> traverse_mut fuel cb h g ready visited stack = Some r -> exists h' g', r = Ok (h', g').
Proof.
  intros Hcb. induction fuel as [|fuel IH]; intros h g ready visited stack r W H; destruct stack as [|n stack]; cbn [traverse_mut] in H; try discriminate; [injection H as <-; eauto..|].
  destruct (contains (sg g) n) eqn:C; cbn [negb] in H; [|eapply IH; eassumption]. destruct (Hcb h g n W C) as (ts & g' & added & E1 & E2). rewrite E1, E2 in H.
  destruct (fold_left (push_source (sg g')) added _) as [r' s']. eapply IH; [|exact H]. eapply apply_wf; eassumption.
Qed.
(** Something true of every call. *)
Lemma traverse_mut_calls cb (P : nat -> sgraph N E -> list (gtransform N E) -> Prop) : (forall h g n ts, has g n -> cb h g n = Ok ts -> P n g ts) ->
  forall fuel h g ready visited stack h' g', traverse_mut fuel cb h g ready visited stack = Some (Ok (h', g')) -> Forall (fun v => P (fst (fst v)) (snd (fst v)) (snd v)) h ->
  Forall (fun v => P (fst (fst v)) (snd (fst v)) (snd v)) h'.
Proof.
  intros Hcb. induction fuel as [|fuel IH]; intros h g ready visited stack h' g' H F; destruct stack as [|n stack]; cbn [traverse_mut] in H; try discriminate; [injection H as <- _; exact F..|].
  destruct (contains (sg g) n) eqn:C; cbn [negb] in H; [|eapply IH; eassumption]. destruct (cb h g n) as [ts| |] eqn:CB; try discriminate. destruct (apply ts g) as [[g2 added]| |]; try discriminate.
  destruct (fold_left (push_source (sg g2)) added _) as [r s]. eapply IH; [exact H|]. constructor; [|exact F]. cbn [fst snd]. now apply (Hcb h).
Qed.

(** ** Deleting the current node *)
Lemma allowed_nothing done n g : allowed (N:=N) (E:=E) done n g [] g.
Proof. constructor; [now auto|now auto|split; [constructor|intros x []]|now auto|now auto|intros x []]. Qed.
Lemma allowed_delete done n g : well_formed g -> has g n -> allowed done n g [] (sg_remove_node g n).
Proof.
  intros W Hn. destruct (remove_node_ok g n W Hn) as (_ & Nd & Ge). constructor.
  - intros x Hx Hxn. apply has_node in Hx as [w Hw]. apply has_node. exists w. rewrite Nd. apply Nat.eqb_neq in Hxn. now rewrite Hxn.
  - intros x Hx. left. apply has_node in Hx as [w Hw]. rewrite Nd in Hw. destruct (x =? n); [discriminate|]. apply has_node. eauto.
  - split; [constructor|intros x []].
  - intros a b [l H]. left. exists l. rewrite Ge in H. now apply filter_In in H.
  - intros a b [l H] An Bn. exists l. rewrite Ge. apply filter_In. split; [exact H|]. cbn [fst snd]. apply Nat.eqb_neq in An, Bn. now rewrite An, Bn.
  - intros x [].
Qed.

(** ** Inserting nodes, deleting none *)
Definition removes_node (t : gtransform N E) : bool := match t with GRemoveNode _ => true | _ => false end.
Definition grown g g' (added : list nat) : Prop := sfree g' = [] /\ added = seq (length (gnodes (sg g))) (length added) /\ length (gnodes (sg g')) = length (gnodes (sg g)) + length added /\
  (forall x, has g' x <-> has g x \/ In x added).
Lemma grown_one g ids t g' i : sfree g = [] -> removes_node t = false -> apply_one g ids t = Ok (g', i) -> grown g g' (match i with Some n => [n] | None => [] end).
Proof.
  intros F R H. destruct t as [a b l|w|n|a b]; cbn [apply_one removes_node] in *; try discriminate.
  - destruct (materialize ids a) as [x| |], (materialize ids b) as [y| |]; cbn [bind] in H; try discriminate. unfold sg_add_edge, add_edge in H. destruct (_ && _); cbn [bind] in H; try discriminate.
    injection H as <- <-. unfold grown; cbn [sfree sg gnodes length]. split; [exact F|]. split; [reflexivity|]. split; [lia|]. intros z. unfold has, contains, node; cbn [sg gnodes In]. tauto.
  - unfold sg_add_node, add_node in H. rewrite F in H. injection H as <- <-. unfold grown; cbn [sfree sg gnodes length]. split; [reflexivity|]. split; [reflexivity|]. split; [rewrite app_length; reflexivity|].
    intros z. rewrite !has_node. unfold node; cbn [sg gnodes In]. destruct (Nat.lt_ge_cases z (length (gnodes (sg g)))) as [L|L].
    + rewrite nth_error_app1 by exact L. split; [tauto|]. intros [X|[X|[]]]; [exact X|lia].
    + rewrite nth_error_app2 by exact L. destruct (z - length (gnodes (sg g))) as [|k] eqn:Z; cbn [nth_error].
      * split; [intros _; right; left; lia|]. intros _. eauto.
      * split; [intros [v X]; destruct k; discriminate|]. intros [[v X]|[X|[]]]; [|lia]. destruct (nth_error (gnodes (sg g)) z) eqn:Q; [|discriminate]. assert (nth_error (gnodes (sg g)) z <> None) as Q' by congruence. apply nth_error_Some in Q'. lia.
  - destruct (materialize ids a) as [x| |], (materialize ids b) as [y| |]; cbn [bind] in H; try discriminate. unfold sg_remove_edge in H. destruct (cut_edge _ _ _); cbn [bind] in H; try discriminate.
    injection H as <- <-. unfold grown; cbn [sfree sg gnodes length]. split; [exact F|]. split; [reflexivity|]. split; [lia|]. intros z. unfold has, contains, node; cbn [sg gnodes In]. tauto.
Qed.
Lemma grown_loop : forall ts g0 g ids added g' ids' added', (forall t, In t ts -> removes_node t = false) -> grown g0 g added -> apply_loop ts g ids added = Ok (g', ids', added') -> grown g0 g' added'.
Proof.
  induction ts as [|t ts IH]; intros g0 g ids added g' ids' added' R G H; cbn [apply_loop] in H; [injection H as <- _ <-; exact G|].
  destruct (apply_one g ids t) as [[g2 i]| |] eqn:A; cbn [bind] in H; try discriminate. eapply IH; [intros u Hu; apply R; now right| |exact H].
  destruct G as (G1 & G2 & G3 & G4). destruct (grown_one g ids t g2 i G1 (R t ltac:(now left)) A) as (K1 & K2 & K3 & K4). destruct i as [n|]; cbn [length] in *.
  - split; [exact K1|]. rewrite app_length. cbn [length]. split; [|split; [lia|]].
    + rewrite seq_app, <- G2. cbn [seq] in K2 |- *. injection K2 as K2. rewrite K2, G3. reflexivity.
    + intros x. rewrite K4, G4, in_app_iff. tauto.
  - split; [exact K1|]. split; [exact G2|]. split; [lia|]. intros x. rewrite K4, G4. cbn [In]. tauto.
Qed.
Lemma grown_apply ts g g' added : sfree g = [] -> (forall t, In t ts -> removes_node t = false) -> apply ts g = Ok (g', added) -> grown g g' added.
Proof.
  intros F R H. unfold apply in H. destruct (apply_loop ts g [] []) as [[[g2 ids] ad]| |] eqn:A; cbn [bind] in H; try discriminate. injection H as <- <-.
  eapply grown_loop; [exact R| |exact A]. split; [exact F|]. split; [reflexivity|]. split; [cbn [length]; lia|]. intros x. cbn [In]. tauto.
Qed.
Fixpoint numbered h : Prop := match h with [] => True | (n, g, ts) :: h => sfree g = [] /\ (forall i, In i (visited_nodes h) -> i < length (gnodes (sg g))) /\ numbered h end.
Lemma traverse_mut_numbered cb : forall fuel h g ready visited stack h' g', traverse_mut fuel cb h g ready visited stack = Some (Ok (h', g')) ->
  (forall n g ts t, In (n, g, ts) h' -> In t ts -> removes_node t = false) -> sfree g = [] -> (forall i, In i (visited_nodes h) -> i < length (gnodes (sg g))) -> numbered h -> numbered h'.
Proof.
  induction fuel as [|fuel IH]; intros h g ready visited stack h' g' H R F B Nu; destruct stack as [|n stack]; cbn [traverse_mut] in H; try discriminate; [injection H as <- _; exact Nu..|].
  destruct (contains (sg g) n) eqn:C; cbn [negb] in H; [|eapply IH; eassumption]. destruct (cb h g n) as [ts| |] eqn:CB; try discriminate. destruct (apply ts g) as [[g2 added]| |] eqn:Ap; try discriminate.
  destruct (fold_left (push_source (sg g2)) added _) as [r s]. destruct (traverse_mut_history _ _ _ _ _ _ _ _ _ H) as [new Eh].
  destruct (grown_apply ts g g2 added F) as (G1 & G2 & G3 & G4); [|exact Ap|].
  { intros t Ht. eapply (R n g ts); [|exact Ht]. rewrite Eh. apply in_or_app. right. now left. }
  eapply IH; [exact H|exact R|exact G1| |].
  - intros i Hi. cbn [visited_nodes map fst In] in Hi. destruct Hi as [<- |Hi]; [apply has_lt in C; lia|]. specialize (B i Hi). lia.
  - cbn [numbered]. auto.
Qed.
Lemma numbered_split : forall later h n g ts earlier, numbered h -> h = later ++ (n, g, ts) :: earlier -> sfree g = [] /\ forall i, In i (visited_nodes earlier) -> i < length (gnodes (sg g)).
Proof.
  induction later as [|[[x y] z] later IH]; intros h n g ts earlier O ->; cbn [app numbered] in O; [tauto|]. eapply IH; [exact (proj2 (proj2 O))|reflexivity].
Qed.
Lemma allowed_insert done n g ts g' added : sfree g = [] -> (forall i, In i done -> i < length (gnodes (sg g))) -> (forall t, In t ts -> removes_node t = false) -> apply ts g = Ok (g', added) ->
  (forall a b, edge g' a b -> edge g a b \/ In b added \/ exists m, edge g m b /\ ~ In m done) ->
  (forall a b, edge g a b -> a <> n -> b <> n -> edge g' a b) ->
  (forall x, In x added -> (forall m, ~ edge g' m x) \/ edge g' n x \/ exists m, edge g' m x /\ ~ In m (n :: done)) -> allowed done n g added g'.
Proof.
  intros F B R Ap H1 H2 H3. destruct (grown_apply ts g g' added F R Ap) as (G1 & G2 & G3 & G4). constructor; auto.
  - intros x Hx _. apply G4. now left.
  - intros x Hx. now apply G4.
  - split; [rewrite G2; apply seq_NoDup|]. intros x Hx. split; [apply G4; now right|]. rewrite G2 in Hx. apply in_seq in Hx. split; [intros Hh; apply has_lt in Hh; lia|intros Hd; specialize (B x Hd); lia].
Qed.
End P.
