(** Public functional key switching: lemmas. *)
From Verif Require Import Base Alu AluProofs MuxGraph MuxGraphProofs PolyRing Tfhe TfheGlwe TfheBoot TfheTrace TfheSwitch TfheCbs TfhePfks SpecTfhe SpecGlwe SpecBoot SpecTrace SpecSwitch SpecCbs SpecPfks FluentIntProofs TfheProofs TfheProofs2 TfheProofs3 TfheGlweProofs TfheGlweProofs2 TfheGlweProofs3 TfheGlweProofs4 TfheBootProofs TfheBootProofs2 TfhePfksProofs TfhePfksProofs2.
Ltac Zify.zify_post_hook ::= idtac.
Open Scope Z_scope.

Section P.
Context (N : nat) (w : Z).
Local Notation "f == g" := (peq N (2 ^ w) f g) (at level 70).
Local Notation pn := (pnear N w).
Local Existing Instances peq_equiv padd_mor popp_mor psub_mor pscale_mor pmul_mor.
Add Ring poly_ring_pf3 : (poly_ring N (2 ^ w)) (setoid (peq_equiv N (2 ^ w)) (poly_ring_ext N (2 ^ w))).

Definition col (inputs : list lwe) (i : nat) : list Z := map (fun c => nth i (lwe_a c) 0) inputs.
Lemma col_len inputs i : length (col inputs i) = length inputs. Proof. apply map_length. Qed.
Lemma col_torus n inputs i : 0 <= w -> Forall (lwe_wf w n) inputs -> toruses w (col inputs i).
Proof.
  intros Hw H. unfold col. apply Forall_forall. intros y Hy. apply in_map_iff in Hy as (c & <- & Hc). destruct (proj1 (Forall_forall _ _) H c Hc) as (_ & T & _).
  destruct (nth_in_or_default i (lwe_a c) 0) as [Hi| ->]; [apply (proj1 (Forall_forall _ _) T _ Hi)|]. split; [lia|]. now apply pow_pos'.
Qed.
Lemma bs_torus n inputs : Forall (lwe_wf w n) inputs -> toruses w (map lwe_b inputs).
Proof. intros H. apply Forall_forall. intros y Hy. apply in_map_iff in Hy as (c & <- & Hc). apply (proj1 (Forall_forall _ _) H c Hc). Qed.

(** The successive contents of the scratch polynomial. *)
Fixpoint pseq (f : user_map) (inputs : list lwe) (poly : list Z) (i n : nat) : list (list Z) :=
  match n with O => [] | S n => let poly' := f poly (col inputs i) in poly' :: pseq f inputs poly' (S i) n end.
Fixpoint pcomb (ss : list Z) (ps : list (list Z)) : poly :=
  match ss, ps with s :: ss, p :: ps => padd (pscale s (coef p)) (pcomb ss ps) | _, _ => p0 end.

Lemma pufks_loop_ok pr log count n k f inputs : is_pow2 N = true -> word w -> 1 <= log -> (1 <= count)%nat -> log * Z.of_nat count < w -> Forall (lwe_wf w n) inputs ->
  (forall old x, poly_wf w N old -> length x = length inputs -> toruses w x -> poly_wf w N (f old x)) ->
  forall key poly acc i, Forall (fun g => length g = count /\ Forall (glwe_shape N k) g) key -> poly_wf w N poly -> glwe_wf w N k acc ->
  exists acc', pufks_loop pr w log count N k f inputs poly acc i key = Ok (acc', last (pseq f inputs poly i (length key)) poly) /\ glwe_wf w N k acc' /\
    poly_wf w N (last (pseq f inputs poly i (length key)) poly) /\
    forall s sk E, 0 <= E -> binary s -> pufksk_enc N k count w log E s sk key ->
      pn (Z.of_nat (length key) * gadget_bound N count w log 1 E) (glwe_phase N sk acc') (padd (glwe_phase N sk acc) (pcomb s (pseq f inputs poly i (length key)))).
Proof.
  intros HP Hw Hl Hc Hs Wi Hf. pose proof (word_pos w Hw). induction key as [|g key IH]; intros poly acc i Fk Wp Wa; cbn [pufks_loop length pseq].
  - exists acc. split; [reflexivity|]. split; [assumption|]. split; [assumption|]. intros s sk E HE Hb H1. inversion H1; subst. cbn [pcomb]. change (Z.of_nat 0 * _) with 0. apply pnear_refl. ring.
  - apply Forall_cons_iff in Fk as [[Lg Fg] Fk]. fold (col inputs i). set (poly' := f poly (col inputs i)). cbv zeta.
    assert (Wp' : poly_wf w N poly'). { apply Hf; [assumption|apply col_len|eapply col_torus; [lia|exact Wi]]. }
    destruct (glev_mad_ok N w pr log count k acc poly' g HP Hw Hl Hc Hs Wp' Lg Fg (proj1 Wa)) as (a1 & E1 & S1 & T1 & P1). rewrite E1. cbn [bind].
    destruct (IH poly' a1 (S i) Fk Wp' (T1 Wa)) as (a2 & E2 & W2 & Wl & P2). 
    assert (El : last (poly' :: pseq f inputs poly' (S i) (length key)) poly = last (pseq f inputs poly' (S i) (length key)) poly').
    { cbn [last]. destruct (pseq f inputs poly' (S i) (length key)) as [|y l]; [reflexivity|]. clear. revert y. induction l as [|z l IH]; intros y; [reflexivity|]. cbn [last] in *. apply IH. }
    rewrite El. exists a2. split; [assumption|]. split; [assumption|]. split; [assumption|].
    intros s sk E HE Hb H1. inversion H1 as [|x g' s' key' Hx Hk]; subst s. subst g' key'. apply Forall_cons_iff in Hb as [Hb1 Hb]. destruct Hx as [_ Hx]. cbn [pcomb].
    replace (Z.of_nat (S (length key)) * gadget_bound N count w log 1 E) with (Z.of_nat (length key) * gadget_bound N count w log 1 E + (gadget_bound N count w log 1 E + 0)) by (rewrite Nat2Z.inj_succ; ring).
    eapply pnear_trans; [apply (P2 s' sk E HE Hb Hk)|].
    destruct (Nat.eq_0_gt_0_cases N) as [HN0|HN0].
    { exists p0. split; [intros; lia|]. intros q Hq. lia. }
    assert (Q := P1 sk (pconst x) 1 E HE). 
    eapply pnear_peq; [reflexivity| |apply pnear_add; [apply Q|apply pnear_refl; reflexivity]].
    + assert (pmul N (coef poly') (pconst x) == pscale x (coef poly')) as ->. { transitivity (pmul N (pconst x) (coef poly')); [ring|apply pconst_mul]. } ring.
    + pose proof (l1bnd_const N x HN0) as HB. unfold l1bnd in *. destruct Hb1 as [-> | ->]; cbn [Z.abs] in HB; lia.
    + exact Hx.
Qed.

Lemma pufksk_valid_iff n k count key : pufksk_valid n N k count key = true <-> length key = n /\ Forall (fun g => length g = count /\ Forall (glwe_shape N k) g) key.
Proof.
  unfold pufksk_valid. rewrite andb_true_iff, Nat.eqb_eq. apply and_iff_compat_l. rewrite forallb_forall, Forall_forall.
  split; intros H g Hg; specialize (H g Hg); now apply glev_valid_iff.
Qed.

Lemma pufks_ok pr log count n k f out inputs key scp d D : glwe_dim_valid N k = true -> word w -> 1 <= log -> (1 <= count)%nat -> log * Z.of_nat count < w ->
  Forall (lwe_wf w n) inputs -> (length inputs <= N)%nat ->
  (forall old x, poly_wf w N old -> length x = length inputs -> toruses w x -> poly_wf w N (f old x)) ->
  pufksk_valid n N k count key = true -> glwe_shape N k out -> poly_wf w N scp -> 0 <= D -> fft_err N k D d ->
  exists r, pufks pr w log count n N k f out inputs key scp d = Ok r /\ glwe_wf w N k r /\
    forall s sk E, 0 <= E -> binary s -> polys_shape N k sk -> binary_polys sk -> pufksk_enc N k count w log E s sk key ->
      let ps := pseq f inputs scp 0 n in
      pn (pufks_noise n N k count w log E D) (glwe_phase N sk r) (psub (coef (f (last ps scp) (map lwe_b inputs))) (pcomb s ps)).
Proof.
  intros Hdim Hw Hl Hc Hs Wi Li Hf Hv So Wp HD Hd. destruct (dim_valid N k Hdim) as (HP & HN0 & Hk). pose proof (word_pos w Hw).
  unfold pufks. rewrite Hv, (proj2 (glwe_valid_iff N k out) So).
  rewrite (proj2 (forallb_forall (lwe_valid n) inputs)). 2:{ intros c Hc'. unfold lwe_valid. apply Nat.eqb_eq. apply (proj1 (Forall_forall _ _) Wi c Hc'). }
  destruct (Nat.leb_spec (length inputs) N); [|lia]. cbn [andb]. apply pufksk_valid_iff in Hv as [Lk Fk].
  destruct (pufks_loop_ok pr log count n k f inputs HP Hw Hl Hc Hs Wi Hf key scp (glwe_new N k) 0 Fk Wp ltac:(apply glwe_new_wf; lia)) as (acc & E1 & W1 & Wl & P1).
  rewrite E1. cbn [bind]. rewrite Lk in *.
  destruct (glwe_perturb_ok N w k acc d Hw W1 (proj1 Hd)) as (W2 & P2).
  destruct (glwe_negate_ok N w k (glwe_perturb w acc d) Hw (proj1 W2)) as (W3 & P3).
  set (o := glwe_negate w (glwe_perturb w acc d)) in *.
  assert (Wf : poly_wf w N (f (last (pseq f inputs scp 0 n) scp) (map lwe_b inputs))). { apply Hf; [assumption|apply map_length|now apply bs_torus with (n := n)]. }
  set (fb := f (last (pseq f inputs scp 0 n) scp) (map lwe_b inputs)) in *. cbv zeta.
  eexists. split; [reflexivity|]. destruct W3 as ((S3 & L3) & T3 & T3b).
  split. { split; [split; [exact S3|cbn [gb]; unfold poly_add_assign; now rewrite zip_assign_len]|]. split; [exact T3|]. cbn [gb]. apply toruses_zip; [intros; apply uwrap_torus; lia|assumption]. }
  intros s sk E HE Hb Hsk Hbin Henc. specialize (P1 s sk E HE Hb Henc).
  set (r := {| ga := ga o; gb := poly_add_assign w (gb o) fb |}).
  assert (Pr : glwe_phase N sk r == padd (glwe_phase N sk o) (coef fb)).
  { unfold glwe_phase, r. cbn [ga gb]. rewrite coef_add by (assumption || apply Wf). ring. }
  pose proof (fft_err_phase N w k D d sk HD Hd Hsk Hbin) as Pd.
  eapply pnear_peq; [symmetry; rewrite Pr, P3, P2; reflexivity| |].
  2:{ unfold pufks_noise. rewrite <- (Z.add_0_r (_ + D * _)). apply pnear_add; [apply pnear_opp, pnear_add; [exact P1|exact Pd]|apply (pnear_refl N w (coef fb)); reflexivity]. }
  rewrite glwe_phase_new. ring.
Qed.

Lemma skipn_cons : forall i (l : list Z), (i < length l)%nat -> skipn i l = nth i l 0 :: skipn (S i) l.
Proof. induction i as [|i IH]; intros [|y l] Hil; cbn [length] in Hil; try lia; [reflexivity|]. cbn [skipn nth]. apply IH. lia. Qed.

(** A map that does not look at the old contents. *)
Lemma pseq_map f F inputs : (forall old x, poly_wf w N old -> length x = length inputs -> toruses w x -> poly_wf w N (f old x)) ->
  (forall old x, poly_wf w N old -> length x = length inputs -> toruses w x -> f old x = F x) ->
  forall n' n poly i, 0 <= w -> Forall (lwe_wf w n') inputs -> poly_wf w N poly -> pseq f inputs poly i n = map (fun j => F (col inputs j)) (seq i n).
Proof.
  intros Hf HF n'. induction n as [|n IH]; intros poly i Hw Wi Wp; cbn [pseq seq map]; [reflexivity|]. cbv zeta.
  assert (Tc := col_torus n' inputs i Hw Wi). assert (Lc : length (col inputs i) = length inputs) by apply col_len.
  assert (Wn : poly_wf w N (f poly (col inputs i))) by (apply Hf; assumption). rewrite (IH _ (S i) Hw Wi Wn). f_equal. apply HF; assumption.
Qed.

Lemma pcomb_F F inputs p n : word w -> morphism N w p F -> length inputs = p -> Forall (lwe_wf w n) inputs ->
  forall ss i q, (q < N)%nat -> (i + length ss = n)%nat -> congr w (pcomb ss (map (fun j => F (col inputs j)) (seq i (length ss))) q)
    (zsum p (fun z => dotz (skipn i (lwe_a (nth z inputs (lwe_new n)))) ss * coef (F (one_hot p z 1)) q)).
Proof.
  intros Hw HF Li Wi. pose proof (word_pos w Hw). induction ss as [|s ss IH]; intros i q Hq Hi; cbn [length seq map pcomb] in *.
  - unfold p0. apply zeq_refl'. symmetry. apply zsum_0. intros z _. destruct (skipn i _); cbn [dotz]; ring.
  - assert (Tc := col_torus n inputs i ltac:(lia) Wi).
    unfold padd. transitivity (s * zsum p (fun z => nth z (col inputs i) 0 * coef (F (one_hot p z 1)) q) + zsum p (fun z => dotz (skipn (S i) (lwe_a (nth z inputs (lwe_new n)))) ss * coef (F (one_hot p z 1)) q)).
    + apply zeq_add; [|apply (IH (S i) q Hq); lia]. unfold pscale at 1. apply zeq_mul; [reflexivity|].
      exact (F_sum N w p F HF Hw (col inputs i) ltac:(rewrite col_len; assumption) Tc q Hq).
    + rewrite <- zsum_mull, <- zsum_add. apply zsum_zeq. intros z Hz. apply zeq_refl'.
      assert (Wc : lwe_wf w n (nth z inputs (lwe_new n))). { apply (proj1 (Forall_forall _ _) Wi). apply nth_In. lia. }
      assert (En : nth z (col inputs i) 0 = nth i (lwe_a (nth z inputs (lwe_new n))) 0).
      { unfold col. rewrite (nth_indep _ 0 (nth i (lwe_a (lwe_new n)) 0)) by (rewrite map_length; lia). now rewrite (map_nth (fun c => nth i (lwe_a c) 0)). }
      rewrite En. generalize (proj1 Wc). set (l := lwe_a (nth z inputs (lwe_new n))). intros Ll.
      assert (Es : skipn i l = nth i l 0 :: skipn (S i) l).
      { apply skipn_cons. lia. }
      rewrite Es. cbn [dotz]. ring.
Qed.

Lemma F_combination F inputs p n s : word w -> morphism N w p F -> length inputs = p -> Forall (lwe_wf w n) inputs -> length s = n ->
  psub (coef (F (map lwe_b inputs))) (pcomb s (map (fun j => F (col inputs j)) (seq 0 n))) == coef (F (phases w s inputs)).
Proof.
  intros Hw HF Li Wi Ls. pose proof (word_pos w Hw). intros q Hq. unfold psub.
  assert (Tp : toruses w (phases w s inputs)). { unfold phases. apply toruses_map. intros. apply Z.mod_pos_bound, pow_pos'. lia. }
  assert (Lp : length (phases w s inputs) = p) by (unfold phases; now rewrite map_length).
  transitivity (zsum p (fun z => pscale (nth z (map lwe_b inputs) 0) (coef (F (one_hot p z 1))) q) - zsum p (fun z => dotz (lwe_a (nth z inputs (lwe_new n))) s * coef (F (one_hot p z 1)) q)).
  - apply zeq_sub; [exact (F_sum N w p F HF Hw (map lwe_b inputs) ltac:(rewrite map_length; assumption) (bs_torus n inputs Wi) q Hq)|].
    pose proof (pcomb_F F inputs p n Hw HF Li Wi s 0 q Hq ltac:(lia)) as Q. rewrite Ls in Q. cbn [skipn] in Q. exact Q.
  - rewrite <- zsum_sub. symmetry. transitivity (zsum p (fun z => pscale (nth z (phases w s inputs) 0) (coef (F (one_hot p z 1))) q)); [exact (F_sum N w p F HF Hw (phases w s inputs) Lp Tp q Hq)|].
    apply zsum_zeq. intros z Hz. unfold pscale.
    assert (E1 : nth z (phases w s inputs) 0 = lwe_phase s (nth z inputs (lwe_new n)) mod 2 ^ w).
    { unfold phases. rewrite (nth_indep _ 0 (lwe_phase s (lwe_new n) mod 2 ^ w)) by (rewrite map_length; lia). now rewrite (map_nth (fun c => lwe_phase s c mod 2 ^ w)). }
    assert (E2 : nth z (map lwe_b inputs) 0 = lwe_b (nth z inputs (lwe_new n))).
    { rewrite (nth_indep _ 0 (lwe_b (lwe_new n))) by (rewrite map_length; lia). now rewrite (map_nth lwe_b). }
    rewrite E1, E2. transitivity (lwe_phase s (nth z inputs (lwe_new n)) * coef (F (one_hot p z 1)) q); [apply zeq_mul; [apply zeq_mod|reflexivity]|]. unfold lwe_phase. apply zeq_refl'. ring.
Qed.

(** The packing map: input i goes to coefficient i, the other coefficients are not written. *)
Lemma pack_nth (old x : list Z) q : (length x <= length old)%nat -> nth q (zip_assign (fun _ t => t) old x) 0 = if (q <? length x)%nat then nth q x 0 else nth q old 0.
Proof.
  revert old q. induction x as [|y x IH]; intros [|o old] q H; cbn [length] in H; try lia; cbn [zip_assign].
  - destruct q; reflexivity.
  - destruct q; reflexivity.
  - destruct q; cbn [nth]; [reflexivity|]. rewrite IH by lia. change (S q <? length (y :: x))%nat with (q <? length x)%nat. reflexivity.
Qed.
Lemma pack_wf old x : poly_wf w N old -> toruses w x -> poly_wf w N (zip_assign (fun _ t => t) old x).
Proof.
  intros [L T] Tx. split; [now rewrite zip_assign_len|]. clear L. revert x Tx. induction T as [|o old Ho T IH]; intros [|y x] Tx; cbn [zip_assign]; try (constructor; assumption); try constructor.
  - apply Forall_cons_iff in Tx. tauto. - apply IH. apply Forall_cons_iff in Tx. tauto.
Qed.
Lemma pseq_pack inputs : forall n poly i q d, length poly = N -> (length inputs <= N)%nat -> (length inputs <= q)%nat ->
  (forall l, In l (pseq (zip_assign (fun _ t => t)) inputs poly i n) -> nth q l 0 = nth q poly 0) /\
  (d = poly -> nth q (last (pseq (zip_assign (fun _ t => t)) inputs poly i n) d) 0 = nth q poly 0).
Proof.
  induction n as [|n IH]; intros poly i q d Lp Li Hq; cbn [pseq].
  - split; [intros l []|]. intros ->. reflexivity.
  - cbv zeta. set (poly' := zip_assign (fun _ t => t) poly (col inputs i)).
    assert (E : nth q poly' 0 = nth q poly 0). { unfold poly'. rewrite pack_nth by (rewrite col_len; lia). rewrite col_len. destruct (Nat.ltb_spec q (length inputs)); [lia|reflexivity]. }
    assert (L' : length poly' = N) by (unfold poly'; now rewrite zip_assign_len).
    destruct (IH poly' (S i) q poly' L' Li Hq) as [H1 H2]. split.
    + intros l [<-|Hl]; [assumption|]. rewrite (H1 l Hl). assumption.
    + intros _. rewrite <- E, <- (H2 eq_refl). f_equal. cbn [last]. destruct (pseq _ inputs poly' (S i) n) as [|y l]; [reflexivity|]. clear. revert y. induction l as [|z l IH]; intros y; [reflexivity|]. cbn [last] in *. apply IH.
Qed.
Lemma pseq_len f inputs n : forall poly i, length (pseq f inputs poly i n) = n.
Proof. induction n as [|n IH]; intros; cbn [pseq length]; [reflexivity|]. cbv zeta. now rewrite IH. Qed.
Lemma pcomb_const q v ps : forall ss, length ss = length ps -> (forall l, In l ps -> nth q l 0 = v) -> pcomb ss ps q = zsuml ss * v.
Proof.
  induction ps as [|p ps IH]; intros [|s ss] L H; cbn [length] in L; try lia; cbn [pcomb]; [unfold p0, zsuml; cbn; ring|].
  unfold padd, pscale. rewrite IH by (try lia; intros; apply H; now right). unfold coef. rewrite (H p) by now left. unfold zsuml. cbn [fold_right]. ring.
Qed.
Lemma pseq_pack_low inputs n' : 0 <= w -> Forall (lwe_wf w n') inputs -> (length inputs <= N)%nat -> forall n poly i q ss, length poly = N -> (q < length inputs)%nat -> length ss = n -> (i + n = n')%nat ->
  pcomb ss (pseq (zip_assign (fun _ t => t)) inputs poly i n) q = dotz (skipn i (lwe_a (nth q inputs (lwe_new n')))) ss.
Proof.
  intros Hw Wi Li. induction n as [|n IH]; intros poly i q [|s ss] Lp Hq Ls Hi; cbn [length] in Ls; try lia; cbn [pseq pcomb].
  - destruct (skipn i _); reflexivity.
  - cbv zeta. cbn [pcomb]. unfold padd, pscale, coef. rewrite pack_nth by (rewrite col_len; lia). rewrite col_len. destruct (Nat.ltb_spec q (length inputs)); [|lia].
    rewrite IH by (try lia; now rewrite zip_assign_len).
    assert (En : nth q (col inputs i) 0 = nth i (lwe_a (nth q inputs (lwe_new n'))) 0).
    { unfold col. rewrite (nth_indep _ 0 (nth i (lwe_a (lwe_new n')) 0)) by (rewrite map_length; lia). now rewrite (map_nth (fun c => nth i (lwe_a c) 0)). }
    rewrite En. assert (Wc : lwe_wf w n' (nth q inputs (lwe_new n'))). { apply (proj1 (Forall_forall _ _) Wi). apply nth_In. lia. }
    generalize (proj1 Wc). set (l := lwe_a (nth q inputs (lwe_new n'))). intros Ll.
    assert (Es : skipn i l = nth i l 0 :: skipn (S i) l).
    { apply skipn_cons. lia. }
    rewrite Es. cbn [dotz]. ring.
Qed.

(** Key generation. *)
Lemma upd_pconst pt x : length pt = N -> (1 <= N)%nat -> coef (upd pt 0 (fun _ => x)) == padd (coef pt) (pconst (x - nth 0 pt 0)).
Proof. intros L HN i Hi. unfold coef, padd, pconst. rewrite upd_nth by lia. destruct (Nat.eqb_spec i 0) as [->|]; apply zeq_refl'; ring. Qed.
Lemma pufks_glev_loop_ok pr log k sk s E : word w -> is_pow2 N = true -> 1 <= log -> polys_shape N k sk -> 0 <= E -> (1 <= N)%nat ->
  forall glev rnd j pt, log * (Z.of_nat (j + length glev)) <= w -> Forall (glwe_fresh N k) glev -> length glev = length rnd -> Forall (glwe_rnd_ok N k w E) rnd ->
  length pt = N -> (forall i, (1 <= i < N)%nat -> nth i pt 0 = 0) ->
  exists g' pt', pufks_glev_loop pr w log N sk s pt j glev rnd = Ok (g', pt') /\ length g' = length glev /\ Forall (glwe_wf w N k) g' /\
    length pt' = N /\ (forall i, (1 <= i < N)%nat -> nth i pt' 0 = 0) /\
    forall i c, nth_error g' i = Some c -> pn E (glwe_phase N sk c) (pscale (2 ^ (w - log * (Z.of_nat (j + i) + 1))) (pconst s)).
Proof.
  intros Hw Hp Hl Hs HE HN. pose proof (word_pos w Hw). induction glev as [|c glev IH]; intros [|[masks e] rnd] j pt Hj Hfr Hlen Hr Lp Zp; cbn [length] in *; try lia; cbn [pufks_glev_loop].
  - exists [], pt. split; [reflexivity|]. split; [reflexivity|]. split; [constructor|]. split; [assumption|]. split; [assumption|]. intros i c Hc. destruct i; discriminate.
  - apply Forall_cons_iff in Hfr as [Hf1 Hfr]. apply Forall_cons_iff in Hr as [Hr1 Hr].
    rewrite (scale_factor_ok w) by (assumption || nia). cbn [bind]. cbv zeta.
    set (x := (s * 2 ^ (w - log * (Z.of_nat j + 1))) mod 2 ^ w). set (pt1 := upd pt 0 (fun _ => x)).
    assert (L1 : length pt1 = N) by (unfold pt1; now rewrite upd_len).
    assert (Z1 : forall i, (1 <= i < N)%nat -> nth i pt1 0 = 0). { intros i Hi. unfold pt1. rewrite upd_nth by lia. destruct (Nat.eqb_spec i 0); [lia|]. now apply Zp. }
    assert (C1 : coef pt1 == pscale (2 ^ (w - log * (Z.of_nat j + 1))) (pconst s)).
    { intros i Hi. unfold coef, pscale, pconst. destruct (Nat.eqb_spec i 0) as [->|].
      - unfold pt1. rewrite upd_nth by lia. cbn [Nat.eqb]. unfold x. transitivity (s * 2 ^ (w - log * (Z.of_nat j + 1))); [apply zeq_mod|apply zeq_refl'; ring].
      - rewrite Z1 by lia. apply zeq_refl'. ring. }
    destruct (glwe_encrypt_fresh N w k c pt1 sk (masks, e) E Hw Hp Hf1 L1 Hs HE Hr1) as (c' & E2 & W2 & P2). cbn [fst snd] in E2. rewrite E2. cbn [bind].
    destruct (IH rnd (S j) pt1 ltac:(replace (S j + length glev)%nat with (j + S (length glev))%nat by lia; assumption) Hfr ltac:(lia) Hr L1 Z1) as (g' & pt' & E3 & L3 & F3 & Lp' & Zp' & P3). rewrite E3. cbn [bind].
    exists (c' :: g'), pt'. split; [reflexivity|]. split; [cbn [length]; lia|]. split; [constructor; assumption|]. split; [assumption|]. split; [assumption|].
    intros [|i] c0 Hc; cbn [nth_error] in Hc.
    + inversion Hc; subst c0. rewrite Nat.add_0_r. eapply pnear_peq; [reflexivity|exact C1|exact P2].
    + replace (j + S i)%nat with (S j + i)%nat by lia. now apply P3.
Qed.
Lemma pufks_key_loop_ok pr log count k sk E : word w -> is_pow2 N = true -> 1 <= log -> log * Z.of_nat count <= w -> polys_shape N k sk -> 0 <= E -> (1 <= N)%nat ->
  forall ss glevs rnd pt, length glevs = length ss -> length rnd = length ss ->
    Forall (fun g => length g = count /\ Forall (glwe_fresh N k) g) glevs -> Forall (fun r => length r = count /\ Forall (glwe_rnd_ok N k w E) r) rnd ->
    length pt = N -> (forall i, (1 <= i < N)%nat -> nth i pt 0 = 0) ->
  exists gs, pufks_key_loop pr w log N sk ss pt glevs rnd = Ok gs /\ pufksk_enc N k count w log E ss sk gs.
Proof.
  intros Hw Hp Hl Hlc Hs HE HN. induction ss as [|s ss IH]; intros [|g glevs] [|r rnd] pt Lg Lr Fg Fr Lp Zp; cbn [length] in *; try lia; cbn [pufks_key_loop].
  - exists []. split; [reflexivity|constructor].
  - apply Forall_cons_iff in Fg as [[Lg1 Fg1] Fg]. apply Forall_cons_iff in Fr as [[Lr1 Fr1] Fr].
    destruct (pufks_glev_loop_ok pr log k sk s E Hw Hp Hl Hs HE HN g r 0 pt) as (g1 & pt1 & E1 & L1 & W1 & Lp1 & Zp1 & P1); try assumption.
    { cbn [plus]. now rewrite Lg1. } { congruence. }
    rewrite E1. cbn [bind]. destruct (IH glevs rnd pt1 ltac:(lia) ltac:(lia) Fg Fr Lp1 Zp1) as (gs & E2 & P2). rewrite E2. cbn [bind].
    exists (g1 :: gs). split; [reflexivity|]. constructor; [|assumption]. split; [congruence|]. intros j c Hj.
    split; [apply (proj1 (Forall_forall _ _) W1 c (nth_error_In _ _ Hj))|]. exact (P1 j c Hj).
Qed.
End P.
