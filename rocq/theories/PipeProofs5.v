(** Proofs: circuits made bit by bit (exclusive or, complement, selection): values and noise. *)
From Coq Require Import ZArith List Lia Bool.
From Verif Require Import Base Graph MuxGraph FheGraph SpecFhe FheProofs FheProofs2 FheProofs5 PolyRing Eval SpecGlwe SpecBoot SpecCbs SpecEval EvalProofs PipeProofs2 Pipe2.
Import ListNotations.
Ltac Zify.zify_post_hook ::= idtac.
Open Scope Z_scope.

Lemma Forall2_rev' {A B} (R : A -> B -> Prop) l l' : Forall2 R l l' -> Forall2 R (rev l) (rev l').
Proof. induction 1; cbn [rev]; [constructor|]. apply Forall2_app; auto. Qed.
Lemma pxor_const N a b : (1 <= N)%nat -> pxor (FheGraph.pconst N a) (FheGraph.pconst N b) = FheGraph.pconst N (xorb a b).
Proof.
  intros HN. destruct N as [|N]; [lia|]. cbn [FheGraph.pconst pxor]. f_equal. clear HN. induction N as [|N IH]; [reflexivity|]. cbn [repeat pxor]. now rewrite IH.
Qed.

Lemma add_edges_new ins : forall g n, contains g n = true -> (forall s l, In (s, l) ins -> contains g s = true) ->
  foldM (fun g (e : nat * fedge) => add_edge g (fst e) n (snd e)) ins g = Ok (extend g [] (rev (map (fun e => (fst e, n, snd e)) ins))).
Proof.
  induction ins as [|[s l] ins IH]; intros g n Cn Cs.
  - cbn. destruct g. unfold extend. cbn. now rewrite app_nil_r.
  - cbn [foldM fst snd]. unfold add_edge at 1. rewrite (Cs s l (or_introl eq_refl)), Cn. cbn [andb bind].
    rewrite IH.
    + f_equal. unfold extend. cbn [gnodes gedges rev map fst snd]. now rewrite <- app_assoc.
    + exact Cn.
    + intros s' l' H. apply (Cs s' l'). now right.
Qed.

Section G.
Context (P : params) (B : bounds) (cell : cty -> nat -> Z) (cells : cty -> nat -> ct).
Local Notation N := (p_N P).
Context (HN : (1 <= N)%nat).
Local Notation nok := (noise_ok P B cell).
Local Notation carries g n c := (carries N cells g n c).

Lemma op_step g E op ins v : edges_ok g -> nok g E -> (forall s l, In (s, l) ins -> contains g s = true) ->
  (let ns := rev (map (fun e : nat * fedge => (snd e, E (fst e))) ins) in op_cond P op ns /\ op_noise P B cell op ns <= v) ->
  exists g', add_op g op ins = Ok (g', size g) /\ grows g g' /\ contains g' (size g) = true /\ nok g' (upd E (size g) v) /\
    (forall n, contains g n = true -> upd E (size g) v n = E n) /\
    forall cs o, Forall2 (fun e c => carries g (fst e) c) ins cs -> exec_op N cells op (rev (combine (map snd ins) (map Some cs))) = Ok o -> fvalue N cells g' (size g) o.
Proof.
  intros EN H C Hv. set (es := rev (map (fun e : nat * fedge => (fst e, size g, snd e)) ins)). set (g' := extend g [op] es).
  assert (Ce : forall s t l, In (s, t, l) es -> contains g s = true /\ t = size g).
  { intros s t l Hi. apply in_rev in Hi. apply in_map_iff in Hi as ([s' l'] & Q & Hi). injection Q as <- <- <-. split; [now apply (C s' l')|reflexivity]. }
  assert (Cn : contains g' (size g) = true) by (apply size_contains0; cbn; lia).
  assert (G : grows g g').
  { apply extend_grows; auto; intros s t l Hi; destruct (Ce s t l Hi) as [C1 ->]; [lia|]. split; [now apply extend_contains|exact Cn]. }
  assert (In' : in_edges g' (size g) = es).
  { unfold g'. rewrite extend_in_new by (auto; lia). assert (Q : forall l : list (nat * nat * fedge), (forall s t x, In (s, t, x) l -> t = size g) -> filter (fun e => (snd (fst e) =? size g)%nat) l = l).
    { induction l as [|[[s t] x] l IH]; intros Hl; [reflexivity|]. cbn [filter fst snd]. rewrite (Hl s t x (or_introl eq_refl)), Nat.eqb_refl. f_equal. apply IH. intros s' t' x' Hi. apply (Hl s' t' x'). now right. }
    apply Q. intros s t x Hi. now apply (Ce s t x). }
  assert (Nn : node g' (size g) = Some op) by (pose proof (extend_node_new g [op] es 0) as Q; rewrite Nat.add_0_r in Q; exact Q).
  assert (Old : forall n, contains g n = true -> upd E (size g) v n = E n).
  { intros n Cc. unfold upd. apply contains_lt in Cc. destruct (Nat.eqb_spec n (size g)); [lia|reflexivity]. }
  exists g'. split; [|split; [exact G|split; [exact Cn|split; [|split; [exact Old|]]]]].
  - unfold add_op. rewrite add_node_extend. rewrite add_edges_new.
    + cbn [bind]. f_equal. f_equal. rewrite extend_extend. cbn [app]. rewrite app_nil_r. reflexivity.
    + apply size_contains0. cbn. lia.
    + intros s l Hi. apply extend_contains. now apply (C s l).
  - apply (noise_grow P B cell g _ E); auto. intros n op' Hn Cc.
    destruct (Nat.lt_trichotomy n (size g)) as [L|[->|L]].
    + exfalso. unfold g' in Hn. rewrite extend_node_old in Hn by auto. unfold contains in Cc. now rewrite Hn in Cc.
    + rewrite Nn in Hn. injection Hn as <-. rewrite In'. rewrite upd_same.
      replace (map (fun e : nat * nat * fedge => (snd e, upd E (size g) v (fst (fst e)))) es) with (rev (map (fun e : nat * fedge => (snd e, E (fst e))) ins)); [exact Hv|].
      unfold es. rewrite map_rev, map_map. f_equal. apply map_ext_in. intros [s l] Hi. cbn [fst snd]. now rewrite (Old s) by (now apply (C s l)).
    + exfalso. apply MuxGraphProofs.node_lt in Hn. unfold g' in Hn. cbn [extend gnodes] in Hn. rewrite app_length, map_length in Hn. cbn [length] in Hn. unfold size in L. lia.
  - intros cs o F Ex. apply (fv_node N cells g' (size g) op (rev (combine (map snd ins) (map Some cs)))); auto. rewrite In'. unfold es.
    assert (K : Forall2 (fun (e : nat * nat * fedge) (i : fedge * option ct) => fst i = snd e /\ exists w, fvalue N cells g' (fst (fst e)) (snd i, w)) (map (fun e : nat * fedge => (fst e, size g, snd e)) ins) (combine (map snd ins) (map Some cs))).
    { clearbody g'. clear - F G. induction F as [|[s l] c ins cs Hc _ IH]; cbn [map combine fst snd]; constructor; auto. cbn [fst snd]. split; [reflexivity|]. exists None. eapply grows_carries; eauto. }
    apply Forall2_rev' in K. revert K. generalize (rev (map (fun e : nat * fedge => (fst e, size g, snd e)) ins)) (rev (combine (map snd ins) (map Some cs))).
    intros l l' K. induction K as [|[[s t] x] [y c] l l' (Q & w & V) _ IH]; [constructor|]. cbn [fst snd] in *. subst y. econstructor; eauto.
Qed.

(** A circuit built bit by bit. [K] are facts about the nodes made before the bits. *)
Lemma fold_bits {T} (step : fgraph * list nat -> T -> res (fgraph * list nat)) (val : T -> bool) (dst : T -> nat) (M : Z) (K : fgraph -> (nat -> Z) -> Prop) :
  (forall g g' E E', K g E -> grows g g' -> (forall n, contains g n = true -> E' n = E n) -> K g' E') ->
  forall ps, (forall p g E acc, In p ps -> edges_ok g -> nok g E -> K g E -> exists g' o E', step (g, acc) p = Ok (g', acc ++ [o]) /\ grows g g' /\ nok g' E' /\
    (forall n, contains g n = true -> E' n = E n) /\ contains g' o = true /\ E' o <= M /\ fvalue N cells g' o (None, Some (TGlwe1, dst p, CGlwe1 (FheGraph.pconst N (val p))))) ->
  forall g acc E, edges_ok g -> nok g E -> K g E -> exists g' os E', foldM step ps (g, acc) = Ok (g', acc ++ os) /\ grows g g' /\ nok g' E' /\ length os = length ps /\
    (forall n, contains g n = true -> E' n = E n) /\
    forall j o p, nth_error os j = Some o -> nth_error ps j = Some p -> E' o <= M /\ fvalue N cells g' o (None, Some (TGlwe1, dst p, CGlwe1 (FheGraph.pconst N (val p)))).
Proof.
  intros HK. induction ps as [|p ps IH]; intros Hp g acc E EN H HKg.
  - exists g, [], E. cbn [foldM]. rewrite app_nil_r. split; [reflexivity|]. split; [now apply grows_refl|]. split; [exact H|]. split; [reflexivity|]. split; [auto|]. intros [|j]; discriminate.
  - cbn [foldM]. destruct (Hp p g E acc (or_introl eq_refl) EN H HKg) as (g1 & o & E1 & -> & G1 & H1 & O1 & C1 & M1 & V1). cbn [bind].
    destruct (IH (fun q g E acc Hq => Hp q g E acc (or_intror Hq)) g1 (acc ++ [o]) E1 (proj1 G1) H1 (HK _ _ _ _ HKg G1 O1)) as (g2 & os & E2 & Eq & G2 & H2 & L2 & O2 & V2).
    exists g2, (o :: os), E2. unfold fgraph in *. rewrite Eq, <- app_assoc. split; [reflexivity|]. split; [eapply grows_trans; eauto|]. split; [exact H2|]. split; [cbn; lia|]. split.
    + intros n Cn. rewrite O2 by (now apply (proj2 G1)). auto.
    + intros [|j] o' p' Ho Hp'; [|now apply V2 with j]. injection Ho as <-. injection Hp' as <-. split; [now rewrite O2|]. now apply (proj2 G2 o C1).
Qed.

Context (bits : list bool) (noise : list Z).
Context (Hcells : forall r, cells TGlwe1 r = CGlwe1 (FheGraph.pconst N (nth r bits false))) (Hcell : forall r, cell TGlwe1 r = nth r noise 0).

Lemma input_step g E a : edges_ok g -> nok g E -> exists g', add_op g (FInput TGlwe1 a) [] = Ok (g', size g) /\ grows g g' /\ contains g' (size g) = true /\
  nok g' (upd E (size g) (nth a noise 0)) /\ (forall n, contains g n = true -> upd E (size g) (nth a noise 0) n = E n) /\ carries g' (size g) (CGlwe1 (FheGraph.pconst N (nth a bits false))).
Proof.
  intros EN H. destruct (op_step g E (FInput TGlwe1 a) [] (nth a noise 0) EN H ltac:(intros s l []) ltac:(split; [exact I|cbn; rewrite Hcell; lia])) as (g' & Q & G & C & H' & O & V).
  exists g'. repeat (split; [assumption|]). apply (V [] _ ltac:(constructor)). cbn. now rewrite Hcells.
Qed.
Lemma output_step g E x r b M : edges_ok g -> nok g E -> contains g x = true -> E x <= M -> carries g x (CGlwe1 (FheGraph.pconst N b)) ->
  exists g', add_op g (FOutput TGlwe1 r) [(x, EUnary)] = Ok (g', size g) /\ grows g g' /\ contains g' (size g) = true /\
  nok g' (upd E (size g) M) /\ (forall n, contains g n = true -> upd E (size g) M n = E n) /\ fvalue N cells g' (size g) (None, Some (TGlwe1, r, CGlwe1 (FheGraph.pconst N b))).
Proof.
  intros EN H Cx HM Hx. destruct (op_step g E (FOutput TGlwe1 r) [(x, EUnary)] M EN H) as (g' & Q & G & C & H' & O & V).
  - intros s l [Hi|[]]. injection Hi as <- <-. exact Cx.
  - split; [exact I|exact HM].
  - exists g'. repeat (split; [assumption|]). apply (V [CGlwe1 (FheGraph.pconst N b)]); [repeat constructor; exact Hx|]. reflexivity.
Qed.

Lemma not_bit_ok M p g E acc : nth (fst p) noise 0 <= M -> edges_ok g -> nok g E -> exists g' o E', not_bit (g, acc) p = Ok (g', acc ++ [o]) /\ grows g g' /\ nok g' E' /\
    (forall n, contains g n = true -> E' n = E n) /\ contains g' o = true /\ E' o <= M /\ fvalue N cells g' o (None, Some (TGlwe1, snd p, CGlwe1 (FheGraph.pconst N (negb (nth (fst p) bits false))))).
Proof.
  intros HM EN H. unfold not_bit. cbn [fst snd]. destruct (input_step g E (fst p) EN H) as (g1 & -> & G1 & C1 & H1 & O1 & V1). cbn [bind].
  set (E1 := upd E (size g) _) in *. assert (S1 : E1 (size g) = nth (fst p) noise 0) by apply upd_same.
  destruct (op_step g1 E1 FNot [(size g, EUnary)] M (proj1 G1) H1) as (g2 & -> & G2 & C2 & H2 & O2 & V2).
  { intros s l [Hi|[]]. injection Hi as <- <-. exact C1. }
  { split; [exact I|]. cbn. lia. }
  cbn [bind]. set (E2 := upd E1 (size g1) M) in *.
  destruct (output_step g2 E2 (size g1) (snd p) (negb (nth (fst p) bits false)) M (proj1 G2) H2 C2) as (g3 & -> & G3 & C3 & H3 & O3 & V3).
  { unfold E2. rewrite upd_same. lia. }
  { apply (V2 [CGlwe1 (FheGraph.pconst N (nth (fst p) bits false))]); [repeat constructor; exact V1|]. cbn. rewrite pxor_const by exact HN. now rewrite xorb_true_r. }
  cbn [bind]. exists g3, (size g2), (upd E2 (size g2) M). split; [reflexivity|]. split; [eapply grows_trans; [|exact G3]; eapply grows_trans; eassumption|]. split; [exact H3|]. split; [|split; [exact C3|split; [rewrite upd_same; lia|exact V3]]].
  intros n Cn. pose proof (proj1 (proj2 G1 n Cn)) as Cn1. pose proof (proj1 (proj2 G2 n Cn1)) as Cn2. rewrite O3, O2, O1 by assumption. reflexivity.
Qed.
Lemma two_inputs g E a b : edges_ok g -> nok g E -> exists g1 g2 E2, add_op g (FInput TGlwe1 a) [] = Ok (g1, size g) /\ add_op g1 (FInput TGlwe1 b) [] = Ok (g2, size g1) /\ grows g g2 /\
  contains g2 (size g) = true /\ contains g2 (size g1) = true /\ nok g2 E2 /\ (forall n, contains g n = true -> E2 n = E n) /\ E2 (size g) = nth a noise 0 /\ E2 (size g1) = nth b noise 0 /\
  carries g2 (size g) (CGlwe1 (FheGraph.pconst N (nth a bits false))) /\ carries g2 (size g1) (CGlwe1 (FheGraph.pconst N (nth b bits false))).
Proof.
  intros EN H. destruct (input_step g E a EN H) as (g1 & Q1 & G1 & C1 & H1 & O1 & V1). destruct (input_step g1 _ b (proj1 G1) H1) as (g2 & Q2 & G2 & C2 & H2 & O2 & V2).
  exists g1, g2. eexists. split; [exact Q1|]. split; [exact Q2|]. split; [eapply grows_trans; eassumption|]. split; [now apply (proj2 G2)|]. split; [exact C2|]. split; [exact H2|].
  split; [intros n Cn; rewrite O2 by (now apply (proj2 G1)); auto|]. split; [rewrite O2 by exact C1; apply upd_same|]. split; [apply upd_same|]. split; [eapply grows_carries; eassumption|exact V2].
Qed.
Lemma xor_bit_ok M p g E acc : nth (fst (fst p)) noise 0 + nth (snd (fst p)) noise 0 <= M -> edges_ok g -> nok g E -> exists g' o E', xor_bit (g, acc) p = Ok (g', acc ++ [o]) /\ grows g g' /\ nok g' E' /\
    (forall n, contains g n = true -> E' n = E n) /\ contains g' o = true /\ E' o <= M /\
    fvalue N cells g' o (None, Some (TGlwe1, snd p, CGlwe1 (FheGraph.pconst N (xorb (nth (fst (fst p)) bits false) (nth (snd (fst p)) bits false))))).
Proof.
  intros HM EN H. unfold xor_bit. cbn [fst snd]. destruct (two_inputs g E (fst (fst p)) (snd (fst p)) EN H) as (g0 & g1 & E1 & -> & Q & G1 & Ca & Cb & H1 & O1 & Sa & Sb & Va & Vb). cbn [bind]. rewrite Q. cbn [bind].
  destruct (op_step g1 E1 FGlweAdd [(size g, ELeft); (size g0, ERight)] M (proj1 G1) H1) as (g2 & -> & G2 & C2 & H2 & O2 & V2).
  { intros s l [Hi|[Hi|[]]]; injection Hi as <- <-; assumption. }
  { split; [exact I|]. cbn. lia. }
  cbn [bind]. set (E2 := upd E1 (size g1) M) in *.
  destruct (output_step g2 E2 (size g1) (snd p) (xorb (nth (fst (fst p)) bits false) (nth (snd (fst p)) bits false)) M (proj1 G2) H2 C2) as (g3 & -> & G3 & C3 & H3 & O3 & V3).
  { unfold E2. rewrite upd_same. lia. }
  { apply (V2 [CGlwe1 (FheGraph.pconst N (nth (fst (fst p)) bits false)); CGlwe1 (FheGraph.pconst N (nth (snd (fst p)) bits false))]); [repeat constructor; assumption|].
    cbn. rewrite pxor_const by exact HN. now rewrite xorb_comm. }
  cbn [bind]. exists g3, (size g2), (upd E2 (size g2) M). split; [reflexivity|]. split; [eapply grows_trans; [|exact G3]; eapply grows_trans; eassumption|]. split; [exact H3|]. split; [|split; [exact C3|split; [rewrite upd_same; lia|exact V3]]].
  intros n Cn. pose proof (proj1 (proj2 G1 n Cn)) as Cn1. pose proof (proj1 (proj2 G2 n Cn1)) as Cn2. rewrite O3, O2, O1 by assumption. reflexivity.
Qed.
Lemma cmux_bit_ok M s sb p g E acc : Z.max (nth (fst (fst p)) noise 0) (nth (snd (fst p)) noise 0) + sel_noise P B (boot_noise P B) <= M -> edges_ok g -> nok g E ->
  contains g s = true -> E s = boot_noise P B -> carries g s (CGgsw1 sb) -> exists g' o E', cmux_bit s (g, acc) p = Ok (g', acc ++ [o]) /\ grows g g' /\ nok g' E' /\
    (forall n, contains g n = true -> E' n = E n) /\ contains g' o = true /\ E' o <= M /\
    fvalue N cells g' o (None, Some (TGlwe1, snd p, CGlwe1 (FheGraph.pconst N (if sb then nth (fst (fst p)) bits false else nth (snd (fst p)) bits false)))).
Proof.
  intros HM EN H Cs Es Vs. unfold cmux_bit. cbn [fst snd]. destruct (two_inputs g E (fst (fst p)) (snd (fst p)) EN H) as (g0 & g1 & E1 & -> & Q & G1 & Ca & Cb & H1 & O1 & Sa & Sb & Va & Vb). cbn [bind]. rewrite Q. cbn [bind].
  destruct (op_step g1 E1 FCMux [(s, ESel); (size g, EHigh); (size g0, ELow)] M (proj1 G1) H1) as (g2 & -> & G2 & C2 & H2 & O2 & V2).
  { intros t l [Hi|[Hi|[Hi|[]]]]; injection Hi as <- <-; try assumption. now apply (proj2 G1). }
  { split; [exact I|]. cbn [map rev app fst snd op_noise]. unfold noise_at. cbn [find fedge_eqb fst snd]. rewrite (O1 s Cs), Es, Sa, Sb. lia. }
  cbn [bind]. set (E2 := upd E1 (size g1) M) in *.
  destruct (output_step g2 E2 (size g1) (snd p) (if sb then nth (fst (fst p)) bits false else nth (snd (fst p)) bits false) M (proj1 G2) H2 C2) as (g3 & -> & G3 & C3 & H3 & O3 & V3).
  { unfold E2. rewrite upd_same. lia. }
  { apply (V2 [CGgsw1 sb; CGlwe1 (FheGraph.pconst N (nth (fst (fst p)) bits false)); CGlwe1 (FheGraph.pconst N (nth (snd (fst p)) bits false))]); [constructor; [eapply grows_carries; eassumption|repeat constructor; assumption]|].
    destruct sb; reflexivity. }
  cbn [bind]. exists g3, (size g2), (upd E2 (size g2) M). split; [reflexivity|]. split; [eapply grows_trans; [|exact G3]; eapply grows_trans; eassumption|]. split; [exact H3|]. split; [|split; [exact C3|split; [rewrite upd_same; lia|exact V3]]].
  intros n Cn. pose proof (proj1 (proj2 G1 n Cn)) as Cn1. pose proof (proj1 (proj2 G2 n Cn1)) as Cn2. rewrite O3, O2, O1 by assumption. reflexivity.
Qed.
End G.
