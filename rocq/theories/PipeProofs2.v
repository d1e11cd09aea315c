(** Proofs: a static noise analysis of the FHE circuit made from a mux graph: the outputs carry at most the mux depth times the noise of one
    CMUX whose selector was circuit-bootstrapped. *)
From Coq Require Import Permutation.
From Verif Require Import Base Graph MuxGraph SpecMux MuxGraphProofs MuxGraphProofs2 FheGraph SpecFhe FheProofs FheProofs2 FheProofs3 FheProofs4 FheProofs5
  SpecGlwe SpecBoot SpecTrace SpecSwitch SpecCbs Eval SpecEval SpecPipe.
Ltac Zify.zify_post_hook ::= idtac.
Open Scope Z_scope.

Lemma gadget_nonneg N count w log M E : 0 <= M -> 0 <= E -> 0 <= gadget_bound N count w log M E.
Proof. intros HM HE. unfold gadget_bound. repeat (apply Z.add_nonneg_nonneg || apply Z.mul_nonneg_nonneg || apply Z.pow_nonneg || lia). Qed.
Lemma cmux_nonneg N k count w log E D : 0 <= E -> 0 <= D -> 0 <= cmux_noise N k count w log E D.
Proof.
  intros HE HD. unfold cmux_noise. pose proof (gadget_nonneg N count w log (Z.of_nat N) E ltac:(lia) HE). pose proof (gadget_nonneg N count w log 1 E ltac:(lia) HE).
  repeat (apply Z.add_nonneg_nonneg || apply Z.mul_nonneg_nonneg || lia).
Qed.
Lemma fft_ks_nonneg N k count w log E D : 0 <= E -> 0 <= D -> 0 <= fft_ks_noise N k count w log E D.
Proof.
  intros HE HD. unfold fft_ks_noise. pose proof (gadget_nonneg N count w log (Z.of_nat N) E ltac:(lia) HE).
  repeat (apply Z.add_nonneg_nonneg || apply Z.mul_nonneg_nonneg || lia).
Qed.
Lemma cbs_glev_nonneg N k n cp ct w lp lt Eb Ea D : (1 <= N)%nat -> 0 <= Eb -> 0 <= Ea -> 0 <= D -> 0 <= cbs_glev_noise N k n cp ct w lp lt Eb Ea D.
Proof.
  intros HN HE HA HD. unfold cbs_glev_noise. pose proof (cmux_nonneg N k cp w lp Eb D HE HD) as H1. pose proof (fft_ks_nonneg N k ct w lt Ea D HA HD) as H2.
  assert (H3 : 0 <= 2 ^ (Z.of_nat (Nat.log2 N) - 1)) by (apply Z.pow_nonneg; lia). clear - HN H1 H2 H3.
  generalize dependent (cmux_noise N k cp w lp Eb D). generalize dependent (fft_ks_noise N k ct w lt Ea D). generalize dependent (2 ^ (Z.of_nat (Nat.log2 N) - 1)). intros a Ha b Hb c Hc.
  assert (0 <= Z.of_nat n * c) by (apply Z.mul_nonneg_nonneg; lia). assert (0 <= (Z.of_nat N - 1) * b) by (apply Z.mul_nonneg_nonneg; lia).
  assert (0 <= Z.of_nat k * Z.of_nat N) by (apply Z.mul_nonneg_nonneg; lia). assert (0 <= a * (1 + Z.of_nat k * Z.of_nat N)) by (apply Z.mul_nonneg_nonneg; lia). lia.
Qed.
Lemma ss_nonneg N k cs w ls E Es : 0 <= E -> 0 <= Es -> 0 <= ss_noise N k cs w ls E Es.
Proof.
  intros HE HS. unfold ss_noise. pose proof (gadget_nonneg N cs w ls (Z.of_nat N * Z.of_nat N) Es ltac:(lia) HS) as H1. 
  repeat (apply Z.add_nonneg_nonneg || apply Z.mul_nonneg_nonneg || apply Z.pow_nonneg || lia).
Qed.
Lemma boot_noise_nonneg P B : (1 <= p_N P)%nat -> bounds_ok B -> 0 <= boot_noise P B.
Proof.
  intros HN (H1 & H2 & H3 & _ & H5 & _). unfold boot_noise, cbs_noise.
  pose proof (ss_nonneg (p_N P) (p_k P) (r_count (p_ss P)) 64 (r_log (p_ss P)) _ (b_ss B) (cbs_glev_nonneg (p_N P) (p_k P) (p_n P) (r_count (p_pbs P)) (r_count (p_tr P)) 64 (r_log (p_pbs P)) (r_log (p_tr P)) (b_bs B) (b_auto B) (b_fp B) HN H1 H2 H5) H3) as H.
  apply Z.add_nonneg_nonneg; [exact H|]. apply Z.mul_nonneg_nonneg; lia.
Qed.
Lemma sel_noise_nonneg P B E : bounds_ok B -> 0 <= E -> 0 <= sel_noise P B E.
Proof. intros (_ & _ & _ & _ & _ & H6) HE. now apply cmux_nonneg. Qed.

Lemma noise_at_in l (x : Z) ins : NoDup (map fst ins) -> In (l, x) ins -> noise_at l ins = x.
Proof.
  unfold noise_at. induction ins as [|[l' y] ins IH]; intros ND H; [destruct H|]. cbn [map fst] in ND. inversion ND as [|? ? N1 N2]; subst. cbn [find fst].
  destruct H as [H|H].
  - injection H as -> ->. destruct (fedge_eqb l l) eqn:Q; [reflexivity|destruct l; discriminate].
  - destruct (fedge_eqb l' l) eqn:Q; [|auto]. exfalso. apply N1. replace l' with l by (destruct l, l'; discriminate || reflexivity). apply in_map_iff. exists (l, x). auto.
Qed.

Section Noise.
Context (P : params) (B : bounds) (cell : cty -> nat -> Z) (E0 : Z).
Context (HB : bounds_ok B) (HN : (1 <= p_N P)%nat) (Hmargin : boot_margin P (E0 + switch_noise P B)).
Local Notation nok := (noise_ok P B cell).
Local Notation sel := (sel_noise P B (boot_noise P B)).
Lemma sel_nonneg : 0 <= sel.
Proof. apply sel_noise_nonneg; auto. now apply boot_noise_nonneg. Qed.

Definition upd (E : nat -> Z) (n : nat) (v : Z) : nat -> Z := fun m => if (m =? n)%nat then v else E m.

(** Growing a graph keeps the analysis of its old nodes. *)
Lemma noise_grow g g' E E' : edges_ok g -> grows g g' -> nok g E -> (forall n, contains g n = true -> E' n = E n) ->
  (forall n op, node g' n = Some op -> contains g n = false -> let ins := map (fun e => (snd e, E' (fst (fst e)))) (in_edges g' n) in op_cond P op ins /\ op_noise P B cell op ins <= E' n) ->
  nok g' E'.
Proof.
  intros EN G H K N n op Hn. destruct (contains g n) eqn:C; [|now apply N].
  destruct (proj2 G n C) as (_ & Nn & In' & _). rewrite Nn in Hn. rewrite In'. destruct (H n op Hn) as [A1 A2]. rewrite (K n C).
  replace (map (fun e => (snd e, E' (fst (fst e)))) (in_edges g n)) with (map (fun e => (snd e, E (fst (fst e)))) (in_edges g n)); [auto|].
  apply map_ext_in. intros [[s t] l] Hi. cbn [fst snd]. rewrite K; [reflexivity|]. apply in_edges_spec in Hi as [Hi _]. exact (proj1 (EN _ _ _ Hi)).
Qed.
(** One more operation with at most one input. *)
Lemma noise_one g op es E v : edges_ok g -> nok g E -> (es = [] \/ exists cur, es = [(cur, size g, EUnary)] /\ contains g cur = true) ->
  (let ins := map (fun e : nat * nat * fedge => (snd e, E (fst (fst e)))) es in op_cond P op ins /\ op_noise P B cell op ins <= v) ->
  nok (extend g [op] es) (upd E (size g) v).
Proof.
  intros EN H He Hv.
  assert (G : grows g (extend g [op] es)).
  { destruct He as [-> |(cur & -> & C)]; [apply extend_grows; auto; intros s t l []|]. exact (proj1 (proj2 (unary_step g cur op EN C))). }
  assert (Old : forall n, contains g n = true -> upd E (size g) v n = E n).
  { intros n C. unfold upd. apply contains_lt in C. destruct (Nat.eqb_spec n (size g)); [lia|reflexivity]. }
  apply (noise_grow g _ E); auto. intros n op' Hn C.
  destruct (Nat.lt_trichotomy n (size g)) as [L|[->|L]].
  - exfalso. rewrite extend_node_old in Hn by auto. unfold contains in C. now rewrite Hn in C.
  - rewrite <- (Nat.add_0_r (size g)) in Hn at 1. rewrite extend_node_new in Hn. cbn in Hn. injection Hn as <-.
    rewrite extend_in_new by auto. unfold upd at 2. rewrite Nat.eqb_refl.
    replace (filter (fun e : nat * nat * fedge => (snd (fst e) =? size g)%nat) es) with es.
    2:{ destruct He as [-> |(cur & -> & _)]; [reflexivity|]. cbn [filter fst snd]. now rewrite Nat.eqb_refl. }
    replace (map (fun e : nat * nat * fedge => (snd e, upd E (size g) v (fst (fst e)))) es) with (map (fun e : nat * nat * fedge => (snd e, E (fst (fst e)))) es); [exact Hv|].
    destruct He as [-> |(cur & -> & Cc)]; [reflexivity|]. cbn [map fst snd]. now rewrite (Old cur Cc).
  - exfalso. apply node_lt in Hn. cbn [extend gnodes] in Hn. rewrite app_length, map_length in Hn. cbn [length] in Hn. unfold size in L. lia.
Qed.
Lemma upd_same E n v : upd E n v n = v. Proof. unfold upd. now rewrite Nat.eqb_refl. Qed.

Lemma connect_glwe_noise g acc r E : cell TGlwe1 r <= E0 -> edges_ok g -> nok g E -> exists g' c E', connect_glwe (g, acc) r = Ok (g', acc ++ [c]) /\ grows g g' /\ node g' c = Some FCbs /\
  nok g' E' /\ E' c = boot_noise P B /\ forall n, contains g n = true -> E' n = E n.
Proof.
  intros Hcell EN H. unfold connect_glwe. rewrite add_node_extend.
  assert (G0 : grows g (extend g [FInput TGlwe1 r] [])) by (apply extend_grows; auto; intros s t l []).
  assert (N0 : nok (extend g [FInput TGlwe1 r] []) (upd E (size g) E0)).
  { apply noise_one; auto. split; [exact I|]. exact Hcell. }
  pose proof (size_contains0 g [FInput TGlwe1 r] [] ltac:(cbn; lia)) as C0.
  set (g0 := extend g [FInput TGlwe1 r] []) in *. set (e0 := upd E (size g) E0) in *.
  rewrite (add_node_extend g0). destruct (unary_step g0 (size g) (FSampleExtract 0) (proj1 G0) C0) as (-> & G1 & C1 & _). cbn [bind].
  assert (N1 : nok (extend g0 [FSampleExtract 0] [(size g, size g0, EUnary)]) (upd e0 (size g0) E0)).
  { apply noise_one; eauto; [exact (proj1 G0)|]. split; [exact I|]. cbn. unfold e0. rewrite upd_same. lia. }
  set (g1 := extend g0 [FSampleExtract 0] [(size g, size g0, EUnary)]) in *. set (e1 := upd e0 (size g0) E0) in *.
  rewrite (add_node_extend g1). destruct (unary_step g1 (size g0) FKeyswitch (proj1 G1) C1) as (-> & G2 & C2 & _). cbn [bind].
  assert (N2 : nok (extend g1 [FKeyswitch] [(size g0, size g1, EUnary)]) (upd e1 (size g1) (E0 + switch_noise P B))).
  { apply noise_one; eauto; [exact (proj1 G1)|]. split; [exact I|]. cbn [map fst snd op_noise noise0]. unfold e1. rewrite upd_same. lia. }
  set (g2 := extend g1 [FKeyswitch] [(size g0, size g1, EUnary)]) in *. set (e2 := upd e1 (size g1) (E0 + switch_noise P B)) in *.
  rewrite (add_node_extend g2). destruct (unary_step g2 (size g1) FCbs (proj1 G2) C2) as (-> & G3 & C3 & _). cbn [bind].
  assert (N3 : nok (extend g2 [FCbs] [(size g1, size g2, EUnary)]) (upd e2 (size g2) (boot_noise P B))).
  { apply noise_one; eauto; [exact (proj1 G2)|]. cbn [map fst snd op_noise noise0 op_cond]. unfold e2. rewrite upd_same. split; [exact Hmargin|lia]. }
  set (g3 := extend g2 [FCbs] [(size g1, size g2, EUnary)]) in *.
  exists g3, (size g2), (upd e2 (size g2) (boot_noise P B)). split; [reflexivity|]. split; [eapply grows_trans; [|exact G3]; eapply grows_trans; [|exact G2]; eapply grows_trans; eauto|].
  split; [unfold g3; rewrite <- (Nat.add_0_r (size g2)) at 2; now rewrite extend_node_new|]. split; [exact N3|]. split; [apply upd_same|].
  intros n C. apply contains_lt in C. assert (S0 : size g0 = (size g + 1)%nat) by (unfold g0; now rewrite extend_size).
  assert (S1 : size g1 = (size g0 + 1)%nat) by (unfold g1; now rewrite extend_size). assert (S2 : size g2 = (size g1 + 1)%nat) by (unfold g2; now rewrite extend_size).
  unfold e2, e1, e0, upd. repeat (match goal with |- context [(n =? ?k)%nat] => destruct (Nat.eqb_spec n k); [lia|] end). reflexivity.
Qed.
Lemma connect_all_noise : forall refs g acc E, (forall r, In r refs -> cell TGlwe1 r <= E0) -> edges_ok g -> nok g E -> exists g' hs E', foldM connect_glwe refs (g, acc) = Ok (g', acc ++ hs) /\ grows g g' /\ length hs = length refs /\
  (forall x, In x hs -> node g' x = Some FCbs /\ E' x = boot_noise P B) /\ nok g' E' /\ forall n, contains g n = true -> E' n = E n.
Proof.
  induction refs as [|r refs IH]; intros g acc E Hc EN H.
  - exists g, [], E. cbn [foldM]. rewrite app_nil_r. split; [auto|]. split; [now apply grows_refl|]. split; [auto|]. split; [intros x []|]. auto.
  - cbn [foldM]. destruct (connect_glwe_noise g acc r E (Hc r (or_introl eq_refl)) EN H) as (g1 & c & E1 & -> & G1 & N1 & H1 & V1 & K1). cbn [bind].
    destruct (IH g1 (acc ++ [c]) E1 (fun x Hx => Hc x (or_intror Hx)) (proj1 G1) H1) as (g2 & hs & E2 & Eq & G2 & L2 & N2 & H2 & K2). exists g2, (c :: hs), E2. unfold fgraph in *. rewrite Eq, <- app_assoc. split; [reflexivity|].
    split; [eapply grows_trans; eauto|]. split; [cbn; lia|]. assert (C : contains g1 c = true) by (unfold contains; now rewrite N1). split; [|split; [exact H2|]].
    + intros x [<-|Hx]; [|auto]. destruct (proj2 G2 c C) as (_ & -> & _). split; [exact N1|]. now rewrite K2.
    + intros n Cn. rewrite K2 by (now apply (proj2 G1)). auto.
Qed.
Lemma emit_noise M : forall ps g acc E, edges_ok g -> nok g E -> (forall m r, In (m, r) ps -> contains g m = true /\ E m <= M) ->
  exists g' os E', foldM emit_output ps (g, acc) = Ok (g', acc ++ os) /\ nok g' E' /\ length os = length ps /\ (forall n, contains g n = true -> E' n = E n) /\ grows g g' /\ Forall (fun o => E' o <= M) os.
Proof.
  induction ps as [|[m r] ps IH]; intros g acc E EN H Hp.
  - exists g, [], E. cbn [foldM]. rewrite app_nil_r. split; [reflexivity|]. split; [exact H|]. split; [reflexivity|]. split; [reflexivity|]. split; [now apply grows_refl|constructor].
  - cbn [foldM emit_output fst snd]. rewrite add_node_extend. destruct (Hp m r (or_introl eq_refl)) as [C Hm].
    destruct (unary_step g m (FOutput TGlwe1 r) EN C) as (-> & G1 & C1 & _). cbn [bind].
    assert (N1 : nok (extend g [FOutput TGlwe1 r] [(m, size g, EUnary)]) (upd E (size g) M)).
    { apply noise_one; eauto. split; [exact I|]. exact Hm. }
    set (g1 := extend g [FOutput TGlwe1 r] [(m, size g, EUnary)]) in *.
    assert (K1 : forall n, contains g n = true -> upd E (size g) M n = E n).
    { intros n Cn. apply contains_lt in Cn. unfold upd. destruct (Nat.eqb_spec n (size g)); [lia|reflexivity]. }
    destruct (IH g1 (acc ++ [size g]) (upd E (size g) M) (proj1 G1) N1) as (g2 & os & E2 & Eq & H2 & L2 & K2 & G2 & F2).
    { intros m' r' Hi. destruct (Hp m' r' (or_intror Hi)) as [C' M']. split; [now apply (proj2 G1)|]. now rewrite K1. }
    exists g2, (size g :: os), E2. unfold fgraph in *. rewrite Eq, <- app_assoc. split; [reflexivity|]. split; [exact H2|]. split; [cbn; lia|]. split; [|split].
    + intros n Cn. rewrite K2 by (now apply (proj2 G1)). auto.
    + eapply grows_trans; eauto.
    + constructor; [|exact F2]. rewrite K2 by exact C1. rewrite upd_same. lia.
Qed.

Lemma insert_noise h mc inputs hosts k D E : edges_ok h -> mux_wf mc -> diagram_shaped mc inputs k -> length hosts = length inputs -> depth_at_most mc D ->
  (forall x, In x hosts -> node h x = Some FCbs /\ E x = boot_noise P B) -> nok h E ->
  exists h' outs E', insert_mux h mc inputs hosts MGlwe = Ok (h', outs) /\ grows h h' /\ nok h' E' /\ length outs = k /\
    Forall (fun m => contains h' m = true /\ E' m <= Z.of_nat D * sel) outs /\ (forall n, contains h n = true -> E' n = E n).
Proof.
  intros EN W DS LH (rank & R1 & R2) HG HE. assert (HG' : forall x, In x hosts -> exists op, node h x = Some op /\ ggsw_source op = true) by (intros x Hx; exists FCbs; split; [apply HG; auto|reflexivity]).
  unfold insert_mux. rewrite LH, Nat.eqb_refl. cbn [negb]. rewrite copy_spec.
  rewrite (connect_inputs_ok h mc inputs hosts MGlwe k W DS LH HG').
  2:{ intros q s H. apply In_nth_error in H. destruct H as [x H]. exists x. clear - H. revert inputs x H. induction hosts as [|a hosts IH]; intros inputs x H; [destruct x; discriminate|].
      destruct inputs as [|b inputs]; [destruct x; discriminate|]. destruct x as [|x]; [injection H as <- <-; auto|]. cbn. now apply IH. }
  cbn [bind]. rewrite (out_count h mc inputs hosts k DS LH HG').
  destruct (connect_outputs_ok h mc inputs hosts k W DS LH HG' (node_indices mc) (repeat 0%nat k) (node_indices_NoDup _ _ _) (repeat_length _ _)) as (outs & -> & L & A & _).
  cbn [bind]. rewrite (connect_rest_ok h mc inputs hosts MGlwe k W DS).
  2:{ intros n Hn. now apply node_indices_spec. }
  cbn [bind]. rewrite app_nil_r.
  replace (map snd (combine hosts inputs)) with inputs.
  2:{ clear - LH. revert inputs LH. induction hosts as [|a hosts IH]; intros [|b inputs] LH; try discriminate; [reflexivity|]. cbn. f_equal. apply IH. now injection LH. }
  rewrite <- rev_app_distr, <- map_app, <- filter_app, <- flat_map_app.
  pose proof (h3_grows h mc inputs hosts MGlwe k EN W DS LH HG') as G. pose proof (h3_in h mc inputs hosts MGlwe k EN W DS LH HG') as HI.
  set (h3 := extend h _ _) in *.
  set (cpl := filter (copied mc) (node_indices mc)) in *. set (ren := rev (combine cpl (seq (size h) (length cpl))) ++ []) in *.
  set (E' := fun m => if (m <? size h)%nat then E m else match nth_error cpl (m - size h) with Some n => match node mc n with Some MMux => Z.of_nat (rank n) * sel | _ => 0 end | None => 0 end).
  assert (Old : forall n, contains h n = true -> E' n = E n). { intros n C. apply contains_lt in C. unfold E'. now replace (n <? size h)%nat with true by lia. }
  assert (New : forall n, copied mc n = true -> E' (fren ren n) = match node mc n with Some MMux => Z.of_nat (rank n) * sel | _ => 0 end).
  { intros n C. destruct (ren_some h mc n C) as (j & Hj & _ & Hf & _). fold cpl in Hj. change (fren ren n = size h + j)%nat in Hf. unfold E'. rewrite Hf. replace (size h + j <? size h)%nat with false by lia.
    replace (size h + j - size h)%nat with j by lia. now rewrite Hj. }
  pose proof sel_nonneg as Sn.
  exists h3, outs, E'. split; [reflexivity|]. split; [exact G|]. split; [|split; [exact L|split; [|exact Old]]].
  - apply (noise_grow h h3 E); auto. intros m op Hm C.
    assert (Hlt : (size h <= m)%nat). { destruct (Nat.lt_ge_cases m (size h)) as [Q|Q]; [|exact Q]. exfalso. unfold h3 in Hm. rewrite extend_node_old in Hm by auto. unfold contains in C. now rewrite Hm in C. }
    unfold h3 in Hm. replace m with (size h + (m - size h))%nat in Hm by lia. rewrite extend_node_new in Hm. rewrite nth_error_map in Hm. fold cpl in Hm.
    destruct (nth_error cpl (m - size h)) as [n|] eqn:Hn; [|discriminate]. cbn [option_map] in Hm. injection Hm as <-.
    assert (Cn : copied mc n = true) by (apply (cpl_In mc), (nth_error_In _ _ Hn)).
    assert (Fm : m = fren ren n).
    { destruct (ren_some h mc n Cn) as (j & Hj & _ & Hf & _). fold cpl in Hj. change (fren ren n = size h + j)%nat in Hf. rewrite Hf. enough (m - size h = j)%nat by lia.
      apply (proj1 (NoDup_nth_error cpl)); [unfold cpl; apply NoDup_filter, node_indices_NoDup|apply nth_error_Some; congruence|congruence]. }
    subst m. rewrite (New n Cn). specialize (HI n Cn). 
    unfold opz, op_of. unfold copied in Cn. destruct (node mc n) as [[]|] eqn:Nn; try discriminate; cbn [mode_mux mode_ty]; try (split; [exact I|cbn; lia]).
    split; [exact I|]. cbn [op_noise].
    destruct (proj2 (wf_mux mc W n Nn Select) ltac:(discriminate)) as [s Hs]. destruct (proj2 (wf_mux mc W n Nn Low) ltac:(discriminate)) as [lo Hlo]. destruct (proj2 (wf_mux mc W n Nn High) ltac:(discriminate)) as [hi Hhi].
    pose proof (mux_in_edges mc W n s lo hi Nn Hs Hlo Hhi) as Pm.
    apply (Permutation_map (phi h mc hosts)) in Pm. pose proof (Permutation_trans HI Pm) as Pi. clear HI Pm.
    apply (Permutation_map (fun e : nat * nat * fedge => (snd e, E' (fst (fst e))))) in Pi.
    set (ins := map _ (in_edges h3 _)) in *. unfold phi in Pi. cbn [map fst snd mlab] in Pi.
    assert (ND : NoDup (map fst ins)). { eapply Permutation_NoDup; [apply Permutation_sym, (Permutation_map fst), Pi|]. cbn. repeat constructor; cbn; intuition discriminate. }
    assert (InP : forall l x, In (l, x) [(ESel, E' (src_of h mc hosts s)); (ELow, E' (src_of h mc hosts lo)); (EHigh, E' (src_of h mc hosts hi))] -> noise_at l ins = x).
    { intros l x Hx. apply noise_at_in; [exact ND|]. eapply Permutation_in; [apply Permutation_sym, Pi|exact Hx]. }
    rewrite (InP ESel _ ltac:(left; reflexivity)), (InP ELow _ ltac:(right; left; reflexivity)), (InP EHigh _ ltac:(right; right; left; reflexivity)).
    assert (Es : E' (src_of h mc hosts s) = boot_noise P B).
    { pose proof (ds_edges _ _ _ DS _ _ _ Hs) as De. unfold src_of. destruct (node mc s) as [[]|] eqn:Ns; try (exfalso; now apply De); try contradiction.
      apply (ds_inputs _ _ _ DS) in Ns. assert (Hi : In (nth i hosts 0%nat) hosts) by (apply nth_In; rewrite LH; apply nth_error_Some; congruence).
      destruct (HG _ Hi) as [N1 N2]. rewrite Old; [exact N2|]. unfold contains. now rewrite N1. }
    assert (Ed : forall t l, (l = Low \/ l = High) -> In (t, n, l) (gedges mc) -> E' (src_of h mc hosts t) <= (Z.of_nat (rank n) - 1) * sel).
    { intros t l Hl Ht. pose proof (ds_edges _ _ _ DS _ _ _ Ht) as De. pose proof (proj1 (R1 n Nn)) as Rn. unfold src_of. destruct (node mc t) as [[]|] eqn:Nt; try (destruct Hl; congruence); try contradiction.
      - change (rev _ ++ []) with ren. rewrite (New t) by (unfold copied; now rewrite Nt). rewrite Nt. apply Z.mul_nonneg_nonneg; lia.
      - change (rev _ ++ []) with ren. rewrite (New t) by (unfold copied; now rewrite Nt). rewrite Nt. apply Z.mul_nonneg_nonneg; lia.
      - change (rev _ ++ []) with ren. rewrite (New t) by (unfold copied; now rewrite Nt). rewrite Nt. apply Z.mul_le_mono_nonneg_r; [lia|]. pose proof (R2 t n l Ht Hl Nt Nn). lia.
      - exfalso. destruct (wf_ends mc W _ _ _ Ht) as [Ct _]. unfold contains in Ct. now rewrite Nt in Ct. }
    pose proof (Ed lo Low (or_introl eq_refl) Hlo). pose proof (Ed hi High (or_intror eq_refl) Hhi). rewrite Es.
    apply Z.le_trans with ((Z.of_nat (rank n) - 1) * sel + sel); [|rewrite <- Z.mul_succ_l; lia]. apply Z.add_le_mono_r. now apply Z.max_lub.
  - apply Forall_forall. intros m Hm. apply In_nth_error in Hm. destruct Hm as [o Ho]. assert (Hk : (o < k)%nat) by (rewrite <- L; apply nth_error_Some; congruence).
    apply (ds_outs _ _ _ DS) in Hk. destruct Hk as [n Hn]. rewrite (A n o) in Ho; [|apply node_indices_spec; unfold contains; now rewrite Hn|exact Hn].
    injection Ho as <-. destruct (out_pred mc inputs k W DS n o Hn) as (e & es' & Ee & _ & _ & _ & Cp). unfold out_target. rewrite Ee. split; [now apply new_contains|].
    change (rev _ ++ []) with ren. rewrite (New _ Cp). unfold copied in Cp. destruct (node mc (fst (fst e))) as [[]|] eqn:Nq; try discriminate; try (apply Z.mul_nonneg_nonneg; lia).
    apply Z.mul_le_mono_nonneg_r; [lia|]. pose proof (R1 _ Nq). lia.
Qed.

Lemma circuit_noise g0 mc inputs refs base k D E : (forall r, In r refs -> cell TGlwe1 r <= E0) -> edges_ok g0 -> nok g0 E -> mux_wf mc -> diagram_shaped mc inputs k -> length refs = length inputs -> depth_at_most mc D ->
  exists g outs E', insert_and_connect g0 mc inputs refs base = Ok (g, outs) /\ length outs = k /\ nok g E' /\ Forall (fun o => E' o <= Z.of_nat D * sel) outs.
Proof.
  intros Hc EN HE W DS LR HD. unfold insert_and_connect.
  destruct (connect_all_noise refs g0 [] E Hc EN HE) as (g1 & hs & E1 & Eq1 & G1 & L1 & N1 & H1 & _). unfold fgraph in *. rewrite Eq1. cbn [bind app].
  destruct (insert_noise g1 mc inputs hs k D E1 (proj1 G1) W DS ltac:(congruence) HD N1 H1) as (g2 & outs & E2 & -> & G2 & H2 & L2 & F2 & _). cbn [bind].
  destruct (emit_noise (Z.of_nat D * sel) (combine outs (seq base (length outs))) g2 [] E2 (proj1 G2) H2) as (g3 & os & E3 & Eq & H3 & L3 & _ & _ & F3).
  { intros m r Hi. apply in_combine_l in Hi. exact (proj1 (Forall_forall _ _) F2 m Hi). }
  cbn [app] in Eq. exists g3, os, E3. split; [exact Eq|]. split; [rewrite L3, combine_length, seq_length; lia|]. auto.
Qed.
End Noise.
