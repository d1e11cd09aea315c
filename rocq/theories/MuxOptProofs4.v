(** Proofs: the optimised circuit computes the diagrams, output by output. *)
From Coq Require Import Permutation ZifyBool ZifyNat.
From Verif Require Import Base Alu AluProofs Graph MuxGraph SpecMux SpecMuxOpt MuxGraphProofs MuxGraphProofs2 MuxGraphProofs3 MuxGraphProofs4 MuxEval MuxEvalProofs MuxOptProofs MuxOptProofs2 MuxOptProofs3.
Open Scope nat_scope.

(** ** Output numbers in node order *)
Lemma outputs_onums (g : mgraph) : map snd (outputs_of g) = onums (gnodes g).
Proof.
  rewrite outputs_sorted. unfold node_indices.
  assert (G : forall l pre, gnodes g = pre ++ l -> map snd (flat_map (fun n => match node g n with Some (MOut i) => [(n, i)] | _ => [] end) (filter (contains g) (seq (length pre) (length l)))) = onums l).
  { induction l as [|o l IH]; intros pre E; [reflexivity|]. cbn [length seq filter]. assert (Nn : node g (length pre) = o) by (unfold node; rewrite E, nth_error_app2, Nat.sub_diag by lia; cbn; destruct o; reflexivity).
    specialize (IH (pre ++ [o])). rewrite app_length in IH. cbn [length] in IH. rewrite Nat.add_1_r in IH. rewrite <- app_assoc in IH. specialize (IH E). unfold onums in *. cbn [flat_map].
    unfold contains at 1. rewrite Nn. destruct o as [w|]; [|exact IH]. cbn [flat_map]. rewrite Nn, map_app, IH. destruct w; reflexivity. }
  exact (G (gnodes g) [] eq_refl).
Qed.
Lemma inputs_count (g : mgraph) : length (inputs_of g) = length (filter (fun n => is_var (node g n)) (node_indices g)).
Proof.
  unfold inputs_of. rewrite map_length. rewrite <- (Permutation_length (proj1 (sort_by_spec _))). induction (node_indices g) as [|n l IH]; [reflexivity|]. cbn [flat_map filter]. rewrite app_length, IH. unfold is_var at 2. destruct (node g n) as [[]|]; reflexivity.
Qed.

Lemma run_circuit (g : mgraph) ins f k : mux_wf g -> (forall n, n < length (gnodes g) -> contains g n = true) -> onums (gnodes g) = seq 0 k ->
  length (inputs_of g) = length ins -> (forall n x, node g n = Some (MVar x) -> x < length ins) ->
  (forall n j, node g n = Some (MOut j) -> j < k -> value g ins n (f j)) -> test_mux_circuit g ins = Ok (map f (seq 0 k)).
Proof.
  intros W Hf On Hc Hv Ho. destruct (eval_all g ins W Hv Hf) as (data & E & K). unfold test_mux_circuit. rewrite <- inputs_count, Hc, Nat.eqb_refl, E. cbn [bind].
  rewrite <- On, <- outputs_onums, map_map. apply mapM_ok. intros (n, j) Hp. cbn [fst snd].
  assert (Hj : j < k). { apply (in_map snd) in Hp. rewrite outputs_onums, On in Hp. apply in_seq in Hp. cbn in Hp. lia. }
  rewrite outputs_sorted in Hp. apply in_flat_map in Hp as (m & Hm & Hp). destruct (node g m) as [[| | | |i]|] eqn:Nm; [destruct Hp..| |destruct Hp]. destruct Hp as [Hp|[]]. injection Hp as -> ->.
  destruct (K n) as (v & Nb & V); [apply contains_node; eauto|]. unfold get. rewrite Nb. f_equal. eapply value_fun; [exact (wf_once g W)|exact V|]. now apply Ho.
Qed.

Lemma cse_loop_length : forall fuel g ready visited stack g', cse_loop fuel g ready visited stack = Ok g' -> length (gnodes g') = length (gnodes g).
Proof.
  induction fuel as [|fuel IH]; intros g ready visited stack g' H; destruct stack as [|n stack]; cbn [cse_loop] in H; try discriminate; [injection H as <-; reflexivity..|].
  destruct (negb (contains g n)); [eapply IH, H|]. destruct (cse_visit g n) as [ts| |]; [|discriminate|discriminate]. cbn [bind] in H.
  destruct (apply_transforms ts g) as [g1| |] eqn:Ea; [|discriminate|discriminate]. cbn [bind] in H. destruct (fold_left _ _ _) as [r s] in H. rewrite (IH _ _ _ _ _ H). eapply apply_length, Ea.
Qed.
Lemma cse_onums g g' : cse g = Ok g' -> onums (gnodes g') = onums (gnodes g).
Proof.
  intros H. pose proof (cse_correct g g' H) as (C1 & C2 & _). assert (L : length (gnodes g') = length (gnodes g)) by (eapply cse_loop_length, H). clear H.
  assert (P : forall n, onum (nth n (gnodes g') None) = onum (nth n (gnodes g) None)).
  { assert (Nn : forall h : mgraph, forall n, nth n (gnodes h) None = node h n). { intros h n. unfold node. destruct (nth_error (gnodes h) n) as [o|] eqn:E; [rewrite (nth_error_nth _ _ None E); destruct o; reflexivity|]. apply nth_overflow. now apply nth_error_None. }
    intros n. rewrite !Nn. destruct (node g' n) as [w|] eqn:E; [now rewrite (C2 n w E)|]. destruct (node g n) as [w|] eqn:E2; [|reflexivity]. destruct w; try reflexivity. exfalso. rewrite (C1 n _ E2) in E by discriminate. discriminate. }
  revert L P. generalize (gnodes g') (gnodes g). clear. induction l as [|a l IH]; intros [|b l'] L P; try discriminate; [reflexivity|]. unfold onums in *. cbn [flat_map]. pose proof (P 0) as P0. cbn in P0. rewrite P0. f_equal. apply IH; [cbn in L; lia|]. intros n. exact (P (S n)).
Qed.
Lemma compact_onums g : onums (gnodes (compact g)) = onums (gnodes g).
Proof.
  cbn [compact gnodes]. generalize (gnodes g). induction l as [|o l IH]; [reflexivity|]. unfold onums in *. cbn [flat_map]. destruct o as [w|]; [|exact IH]. cbn [app map flat_map]. now rewrite IH.
Qed.

Lemma optimized_ok nv ds : ds <> [] -> Forall (bdd_wf nv) ds -> Forall bdd_ordered ds ->
  exists g inputs g' inputs', from_bdds ds = Ok (g, inputs) /\ optimize g = Ok (g', inputs') /\ mux_wf g' /\ no_duplicates g' /\
    (forall n, n < length (gnodes g') -> contains g' n = true) /\ onums (gnodes g') = seq 0 (length ds) /\
    length inputs' = nv /\ (forall n x, node g' n = Some (MVar x) <-> nth_error inputs' x = Some n) /\
    (forall j d, nth_error ds j = Some d -> exists n, node g' n = Some (MOut j) /\
       (forall ins, length ins = nv -> value g' ins n (bdd_value d ins)) /\ forall n', node g' n' = Some (MOut j) -> n' = n) /\
    (forall n j, node g' n = Some (MOut j) -> j < length ds) /\
    (forall ins, length ins = nv -> test_mux_circuit g ins = Ok (map (fun d => bdd_value d ins) ds) /\ test_mux_circuit g' ins = Ok (map (fun d => bdd_value d ins) ds)).
Proof.
  intros Hne W O. destruct (from_bdds_levels nv ds Hne W O) as (g & L & lvl & E & LI & Hl & Hc & Hv & Hb & On).
  destruct (from_bdds_ok nv ds Hne W) as (g0 & inputs & E0 & WF & Li & Hin & Hout & Hj). assert (g0 = g /\ inputs = seq L nv) as [-> ->] by (split; congruence). clear E0.
  destruct (cse_total nv lvl g L LI Hl Hc Hv Hb) as (g1 & Ec & LI1 & U1). pose proof (cse_correct g g1 Ec) as (C1 & C2 & C3 & C4).
  pose proof (lvinv_wf nv lvl g1 LI1) as WF1. set (g' := compact g1).
  assert (Vars : forall x, x < nv <-> exists n, node g n = Some (MVar x)).
  { intros x. split; [intros Hx; exists (L + x); now apply Hv|]. intros [n Hn]. apply Hin in Hn. rewrite <- (seq_length nv L). apply nth_error_Some. congruence. }
  assert (VarU : forall n n' x, node g n = Some (MVar x) -> node g n' = Some (MVar x) -> n = n') by (intros n n' x Hn Hn'; apply Hin in Hn, Hn'; congruence).
  destruct (inputs_of_spec g' nv) as [In1 In2].
  { intros x. rewrite Vars. split; intros [n Hn].
    - exists (compact_index g1 n). apply compact_node, C1; auto. discriminate.
    - apply compact_surj in Hn. destruct Hn as (m & Hm & _). eauto. }
  { intros n n' x Ha Hb'. apply compact_surj in Ha, Hb'. destruct Ha as (m & Ha & <-), Hb' as (m' & Hb' & <-). f_equal. eapply VarU; eauto. }
  assert (Out' : forall j d, nth_error ds j = Some d -> exists n, node g' n = Some (MOut j) /\
       (forall ins, length ins = nv -> value g' ins n (bdd_value d ins)) /\ forall n', node g' n' = Some (MOut j) -> n' = n).
  { intros j d Hd. destruct (Hout j d Hd) as (n & N1 & N2 & N3). assert (N4 : node g1 n = Some (MOut j)) by (apply C1; [exact N1|discriminate]). assert (Cn : contains g1 n = true) by (apply contains_node; eauto).
    exists (compact_index g1 n). split; [now apply compact_node|]. split.
    - intros ins Hi. apply (compact_value g1); [exact (li_ends _ _ _ LI1)|exact Cn|]. apply C4; [exact Cn|]. now apply N2.
    - intros n' Hn'. apply compact_surj in Hn' as (m & Hm & <-). f_equal. apply N3. now apply C2. }
  assert (Hj' : forall n j, node g' n = Some (MOut j) -> j < length ds) by (intros n j H; apply compact_surj in H as (m & Hm & _); eapply Hj, C2, Hm).
  assert (On' : onums (gnodes g') = seq 0 (length ds)) by (unfold g'; rewrite compact_onums, (cse_onums _ _ Ec); exact On).
  assert (Full' : forall n, n < length (gnodes g') -> contains g' n = true) by (intros n Hn; now apply compact_all).
  assert (Wf' : mux_wf g') by now apply compact_wf.
  assert (Mp : forall ins, map (fun d => bdd_value d ins) ds = map (fun j => bdd_value (nth j ds []) ins) (seq 0 (length ds))).
  { intros ins. clear. induction ds as [|d ds IH]; [reflexivity|]. cbn [length seq map nth]. f_equal. rewrite IH, <- seq_shift, map_map. reflexivity. }
  exists g, (seq L nv), g', (inputs_of g'). split; [exact E|]. split; [unfold optimize; rewrite Ec; reflexivity|]. split; [exact Wf'|].
  split; [eapply compact_uniq; [exact (li_ends _ _ _ LI1)|exact U1]|]. split; [exact Full'|]. split; [exact On'|]. split; [exact In1|]. split; [intros n x; symmetry; apply In2|]. split; [exact Out'|]. split; [exact Hj'|].
  intros ins Hi. rewrite Mp. split.
  - destruct (inputs_of_spec g nv Vars VarU) as [Ig _]. apply run_circuit; auto.
    + intros n Hn. apply Hc. lia.
    + congruence.
    + intros n x Hn. apply Hin in Hn. rewrite Hi, <- (seq_length nv L). apply nth_error_Some. congruence.
    + intros n j Hn Hjj. destruct (Hout j (nth j ds [])) as (m & M1 & M2 & M3); [now apply nth_error_nth'|]. rewrite (M3 n Hn). now apply M2.
  - apply run_circuit; auto.
    + congruence.
    + intros n x Hn. apply In2 in Hn. rewrite Hi, <- In1. apply nth_error_Some. congruence.
    + intros n j Hn Hjj. destruct (Out' j (nth j ds [])) as (m & M1 & M2 & M3); [now apply nth_error_nth'|]. rewrite (M3 n Hn). now apply M2.
Qed.
