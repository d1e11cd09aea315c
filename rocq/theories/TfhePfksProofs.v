(** Functional key switching: lemmas. *)
From Verif Require Import Base Alu AluProofs MuxGraph MuxGraphProofs PolyRing Tfhe TfheGlwe TfheBoot TfheTrace TfheSwitch TfheCbs TfhePfks SpecTfhe SpecGlwe SpecBoot SpecTrace SpecSwitch SpecCbs SpecPfks FluentIntProofs TfheProofs TfheProofs2 TfheProofs3 TfheGlweProofs TfheGlweProofs2 TfheGlweProofs3 TfheGlweProofs4 TfheBootProofs.
Ltac Zify.zify_post_hook ::= idtac.
Open Scope Z_scope.

Section P.
Context (N : nat) (w : Z).
Local Notation "f == g" := (peq N (2 ^ w) f g) (at level 70).
Local Notation pn := (pnear N w).
Local Existing Instances peq_equiv padd_mor popp_mor psub_mor pscale_mor pmul_mor.
Add Ring poly_ring_pf : (poly_ring N (2 ^ w)) (setoid (peq_equiv N (2 ^ w)) (poly_ring_ext N (2 ^ w))).

Lemma near_fun (E : Z) (f g : nat -> Z) n : (forall k, (k < n)%nat -> near w E (f k) (g k)) ->
  exists e : nat -> Z, (forall k, (k < n)%nat -> Z.abs (e k) <= E) /\ (forall k, (k < n)%nat -> congr w (f k) (g k + e k)).
Proof.
  induction n as [|n IH]; intros H.
  - exists (fun _ => 0). split; intros; lia.
  - destruct IH as (e & He & Hc). { intros. apply H. lia. } destruct (H n ltac:(lia)) as (en & Hen & Hcn).
    exists (fun k => if (k =? n)%nat then en else e k). split; intros k Hk; destruct (Nat.eqb_spec k n) as [->|]; auto; [apply He|apply Hc]; lia.
Qed.
Lemma pnear_of_coef E f g : (forall k, (k < N)%nat -> near w E (f k) (g k)) -> pn E f g.
Proof. intros H. apply near_fun in H as (e & He & Hc). exists e. split; [assumption|]. intros k Hk. apply Hc. assumption. Qed.

(** ** Scalar gadget product *)

Lemma scalar_mads_ok h pr k : word w -> smad_exact h pr w N -> forall bs ds c, Forall (glwe_shape N k) bs -> glwe_shape N k c -> length bs = length ds ->
  exists c', scalar_mads h pr w c bs ds = Ok c' /\ glwe_shape N k c' /\ (glwe_wf w N k c -> glwe_wf w N k c') /\
  forall sk i, (i < N)%nat -> congr w (glwe_phase N sk c' i) (glwe_phase N sk c i + dotz ds (map (fun b => glwe_phase N sk b i) bs)).
Proof.
  intros Hw Hx. induction bs as [|b bs IH]; intros [|d ds] c Hb Hc Hl; cbn [length] in Hl; try lia; cbn [scalar_mads].
  - exists c. split; [reflexivity|]. split; [assumption|]. split; [auto|]. intros. cbn [map dotz]. apply zeq_refl'. ring.
  - apply Forall_cons_iff in Hb as [Hb1 Hb]. destruct (glwe_scalar_mad_ok N w h pr k c b d Hw Hx Hc Hb1) as (c1 & E1 & S1 & T1 & P1). rewrite E1. cbn [bind].
    destruct (IH ds c1 Hb S1 ltac:(lia)) as (c2 & E2 & S2 & T2 & P2). exists c2. split; [assumption|]. split; [assumption|]. split; [auto|].
    intros sk i Hi. transitivity (glwe_phase N sk c1 i + dotz ds (map (fun b => glwe_phase N sk b i) bs)); [now apply P2|].
    cbn [map dotz]. transitivity (glwe_phase N sk c i + d * glwe_phase N sk b i + dotz ds (map (fun b => glwe_phase N sk b i) bs)); [|apply zeq_refl'; ring].
    apply zeq_add; [exact (P1 sk i Hi)|reflexivity].
Qed.

(** The value the digits of [x] stand for. *)
Definition dval (log : Z) (count : nat) (x : Z) : Z :=
  radix_value log (sdigs log count (rnd w log count x)) * 2 ^ (w - log * Z.of_nat count).

Lemma gadget_rev log E (vals : list Z) m : word w -> 1 <= log -> log * Z.of_nat (length vals) < w ->
  (forall j v, nth_error vals j = Some v -> near w E v (m * 2 ^ (w - log * (Z.of_nat j + 1)))) ->
  Forall2 (near w E) (rev vals) (map (fun i => m * 2 ^ (w - log * Z.of_nat (length vals)) * 2 ^ (log * Z.of_nat i)) (seq 0 (length vals))).
Proof.
  intros Hw Hl Hs H. apply (Forall2_nth N); [now rewrite rev_length, map_length, seq_length|]. intros i x y Hx Hy.
  apply nth_error_rev in Hx as [Hi Hx]. specialize (H _ _ Hx).
  rewrite nth_error_map in Hy. assert (E2 : nth_error (seq 0 (length vals)) i = Some i).
  { rewrite (nth_error_nth' _ O) by (now rewrite seq_length). now rewrite seq_nth. }
  rewrite E2 in Hy. cbn [option_map] in Hy. inversion Hy; subst y. rewrite <- Z.mul_assoc, <- Z.pow_add_r by nia.
  replace (w - log * Z.of_nat (length vals) + log * Z.of_nat i) with (w - log * (Z.of_nat (length vals - 1 - i) + 1)) by nia. assumption.
Qed.

Lemma scalar_glev_mad_ok h pr log count k c x glev : word w -> smad_exact h pr w N -> 1 <= log -> (1 <= count)%nat -> log * Z.of_nat count < w -> torus w x ->
  length glev = count -> Forall (glwe_shape N k) glev -> glwe_shape N k c ->
  exists c', scalar_glev_mad h pr w log count c x glev = Ok c' /\ glwe_shape N k c' /\ (glwe_wf w N k c -> glwe_wf w N k c') /\
    forall sk m E, 0 <= E -> glev_enc N k w log E sk m glev ->
      pn (Z.of_nat count * (2 ^ (log - 1) * E)) (glwe_phase N sk c') (padd (glwe_phase N sk c) (pscale (dval log count x) m)).
Proof.
  intros Hw Hsm Hl Hc Hs Hx Lg Fg Sc. pose proof (word_pos w Hw). unfold scalar_glev_mad, scalar_digits.
  rewrite radix_round_ok by assumption. cbn [bind]. assert (Hrt : torus w (rnd w log count x)) by (now apply rnd_torus).
  rewrite scalar_digits_from_ok by (assumption || nia). cbn [bind].
  set (ds := sdigs log count (rnd w log count x)). assert (Ld : length ds = count) by apply sdigs_len.
  destruct (scalar_mads_ok h pr k Hw Hsm (rev glev) (map (uwrap w) ds) c) as (c1 & E1 & S1 & T1 & P1); [now apply Forall_rev|assumption|rewrite rev_length, map_length; congruence|].
  exists c1. split; [exact E1|]. split; [exact S1|]. split; [exact T1|].
  intros sk m E HE Henc. apply pnear_of_coef. intros i Hi. eapply near_congr; [symmetry; apply (P1 sk i Hi)|reflexivity|].
  unfold padd. replace (Z.of_nat count * (2 ^ (log - 1) * E)) with (0 + Z.of_nat count * (2 ^ (log - 1) * E)) by lia. apply near_add; [apply near_refl|].
  set (vals := map (fun b => glwe_phase N sk b i) glev). assert (Lv : length vals = count) by (unfold vals; now rewrite map_length).
  rewrite map_rev. fold vals.
  assert (G := gadget_rev log E vals (m i) Hw Hl). rewrite Lv in G. specialize (G Hs).
  assert (G' : Forall2 (near w E) (rev vals) (map (fun t => m i * 2 ^ (w - log * Z.of_nat count) * 2 ^ (log * Z.of_nat t)) (seq 0 count))).
  { apply G. intros j v Hv. unfold vals in Hv. rewrite nth_error_map in Hv. destruct (nth_error glev j) as [b|] eqn:Eb; [|discriminate]. cbn [option_map] in Hv. inversion Hv; subst v.
    destruct (Henc j b Eb) as [_ Hn]. apply (pnear_coef N w _ _ _ i Hi) in Hn. unfold pscale in Hn. now rewrite (Z.mul_comm (m i)). }
  eapply near_congr; [apply dotz_congr_l with (a := ds)| |].
  { clear. induction ds as [|d ds IH]; cbn [map]; constructor; [symmetry; apply uwrap_congr|assumption]. }
  2:{ replace (Z.of_nat count) with (Z.of_nat (length (rev vals))) at 1 by (rewrite rev_length; lia). apply dotz_near; [lia| |rewrite rev_length; congruence|exact G'].
      apply (Forall_impl (P := fun d => - 2 ^ (log - 1) <= d < 2 ^ (log - 1))); [intros; lia|]. now apply sdigs_range. }
  destruct (radix_value_dotz log ds (m i * 2 ^ (w - log * Z.of_nat count))) as [E2|?]; [|lia]. rewrite Ld in E2. rewrite E2.
  apply zeq_refl'. unfold pscale, dval. fold ds. ring.
Qed.

(** ** Morphisms *)

Lemma one_hot_len p z x : length (one_hot p z x) = p.
Proof. unfold one_hot. rewrite upd_len. apply repeat_length. Qed.
Lemma one_hot_nth p z x i : (z < p)%nat -> nth i (one_hot p z x) 0 = if (i =? z)%nat then x else 0.
Proof. intros H. unfold one_hot. rewrite upd_nth by (now rewrite repeat_length). rewrite nth_repeat. reflexivity. Qed.
Lemma one_hot_unit p z x : (z < p)%nat -> unit_at p z x (one_hot p z x).
Proof. intros H. split; [apply one_hot_len|]. intros i. now apply one_hot_nth. Qed.
Lemma one_hot_torus p z x : 0 <= w -> torus w x -> toruses w (one_hot p z x).
Proof. intros Hw Hx. unfold one_hot. apply toruses_upd; [now apply toruses_repeat|auto]. Qed.
Lemma unit_eq p z x l l' : unit_at p z x l -> unit_at p z x l' -> l = l'.
Proof. intros [L H] [L' H']. apply list_eq_nth; [congruence|]. intros. now rewrite H, H'. Qed.

Section F.
Context (p : nat) (F : list Z -> list Z) (HF : morphism N w p F) (Hw : word w).

Lemma F_zero : coef (F (repeat 0 p)) == p0.
Proof.
  pose proof (word_pos w Hw). destruct HF as [_ Ha]. assert (Hz : coef (F (repeat 0 p)) == padd (coef (F (repeat 0 p))) (coef (F (repeat 0 p)))).
  { apply Ha; try apply repeat_length; try (apply toruses_repeat; lia). intros i Hi. rewrite nth_repeat. reflexivity. }
  transitivity (psub (padd (coef (F (repeat 0 p))) (coef (F (repeat 0 p)))) (coef (F (repeat 0 p)))); [ring|]. rewrite <- Hz. ring.
Qed.

Lemma F_one_hot z x : (z < p)%nat -> torus w x -> coef (F (one_hot p z x)) == pscale x (coef (F (one_hot p z 1))).
Proof.
  intros Hz. pose proof (word_pos w Hw). assert (H1 : torus w 1). { split; [lia|]. apply Z.pow_gt_1; lia. }
  assert (G : forall n : nat, torus w (Z.of_nat n) -> coef (F (one_hot p z (Z.of_nat n))) == pscale (Z.of_nat n) (coef (F (one_hot p z 1)))).
  { induction n as [|n IH]; intros Hn.
    - change (Z.of_nat 0) with 0. assert (E : one_hot p z 0 = repeat 0 p).
      { apply list_eq_nth; [now rewrite one_hot_len, repeat_length|]. intros i _. rewrite one_hot_nth, nth_repeat by assumption. now destruct (i =? z)%nat. }
      rewrite E, F_zero. intros i Hi. unfold pscale, p0. apply zeq_refl'. ring.
    - assert (Hn' : torus w (Z.of_nat n)) by (unfold torus in *; lia).
      transitivity (padd (coef (F (one_hot p z (Z.of_nat n)))) (coef (F (one_hot p z 1)))).
      + apply (proj2 HF); try apply one_hot_len; try (apply one_hot_torus; (lia || assumption)).
        intros i Hi. rewrite !one_hot_nth by assumption. destruct (i =? z)%nat; apply zeq_refl'; lia.
      + rewrite (IH Hn'). intros i Hi. unfold pscale, padd. apply zeq_refl'. rewrite Nat2Z.inj_succ. ring. }
  intros Hx. rewrite <- (Z2Nat.id x) by (unfold torus in Hx; lia). apply G. rewrite Z2Nat.id by (unfold torus in Hx; lia). assumption.
Qed.

Lemma F_sum x : length x = p -> toruses w x -> coef (F x) == psum p (fun z => pscale (nth z x 0) (coef (F (one_hot p z 1)))).
Proof.
  intros Lx Tx. pose proof (word_pos w Hw).
  assert (G : forall m, (m <= p)%nat -> coef (F (firstn m x ++ repeat 0 (p - m))) == psum m (fun z => pscale (nth z x 0) (coef (F (one_hot p z 1))))).
  { induction m as [|m IH]; intros Hm.
    - cbn [firstn app]. rewrite Nat.sub_0_r, F_zero. reflexivity.
    - assert (Hx : torus w (nth m x 0)). { apply (proj1 (Forall_forall _ _) Tx). apply nth_In. lia. }
      transitivity (padd (coef (F (firstn m x ++ repeat 0 (p - m)))) (coef (F (one_hot p m (nth m x 0))))).
      + apply (proj2 HF); rewrite ?app_length, ?firstn_length, ?repeat_length, ?one_hot_len; try lia.
        1,3: apply Forall_app; split; [now apply toruses_firstn|apply toruses_repeat; lia].
        { apply one_hot_torus; (lia || assumption). }
        intros i Hi. rewrite one_hot_nth by lia. apply zeq_refl'.
        assert (Q : forall t, (t <= p)%nat -> nth i (firstn t x ++ repeat 0 (p - t)) 0 = if (i <? t)%nat then nth i x 0 else 0).
        { intros t Ht. destruct (Nat.ltb_spec i t).
          - rewrite app_nth1 by (rewrite firstn_length; lia). rewrite <- (firstn_skipn t x) at 2. rewrite app_nth1 by (rewrite firstn_length; lia). reflexivity.
          - rewrite app_nth2 by (rewrite firstn_length; lia). apply nth_repeat. }
        rewrite !Q by lia. destruct (Nat.eqb_spec i m) as [e|], (Nat.ltb_spec i (S m)), (Nat.ltb_spec i m); try lia; subst; lia.
      + rewrite (IH ltac:(lia)), (F_one_hot m _ ltac:(lia) Hx). intros i Hi. unfold psum, padd. cbn [zsum]. reflexivity. }
  specialize (G p (Nat.le_refl _)). rewrite Nat.sub_diag in G. cbn [repeat] in G. rewrite app_nil_r, <- Lx, firstn_all, Lx in G. exact G.
Qed.
End F.

(** ** The switch *)

Lemma dotz_sym a b : dotz a b = dotz b a.
Proof. revert b. induction a as [|x a IH]; intros [|y b]; cbn [dotz]; try reflexivity. rewrite IH. ring. Qed.

Definition ab_of (c : lwe) : list Z := lwe_a c ++ [lwe_b c].
Definition tval (log : Z) (count : nat) (ss : list Z) (c : lwe) : Z := dotz ss (map (dval log count) (ab_of c)).

Lemma tval_near log count n s c : word w -> 1 <= log -> (1 <= count)%nat -> log * Z.of_nat count < w -> binary s -> length s = n -> length (lwe_a c) = n ->
  near w ((Z.of_nat n + 1) * 2 ^ (w - log * Z.of_nat count - 1)) (tval log count (s ++ [-1]) c) (- lwe_phase s c).
Proof.
  intros Hw Hl Hc Hs Hb Ls Lc. unfold tval.
  assert (E : - lwe_phase s c = dotz (s ++ [-1]) (ab_of c)).
  { unfold ab_of. rewrite dotz_app by congruence. cbn [dotz]. unfold lwe_phase. rewrite (dotz_sym s). ring. }
  rewrite E. assert (La : length (ab_of c) = (n + 1)%nat) by (unfold ab_of; rewrite app_length; cbn [length]; lia).
  replace ((Z.of_nat n + 1) * 2 ^ (w - log * Z.of_nat count - 1)) with (Z.of_nat (length (map (dval log count) (ab_of c))) * (1 * 2 ^ (w - log * Z.of_nat count - 1))) by (rewrite map_length, La, Nat2Z.inj_add; change (Z.of_nat 1) with 1; ring).
  apply dotz_near.
  - pose proof (pow_pos' (w - log * Z.of_nat count - 1) ltac:(lia)). lia.
  - apply Forall_app. split; [|constructor; [cbn; lia|constructor]]. eapply Forall_impl; [|exact Hb]. cbv beta. intros a [-> | ->]; cbn; lia.
  - rewrite map_length, La, app_length. cbn [length]. lia.
  - generalize (ab_of c). intros l. induction l as [|x l IH]; cbn [map]; constructor; auto. now apply digits_value.
Qed.

Definition gerr (log : Z) (count : nat) (E : Z) : Z := Z.of_nat count * (2 ^ (log - 1) * E).

Lemma pfks_input_loop_ok h pr log count k : word w -> smad_exact h pr w N -> 1 <= log -> (1 <= count)%nat -> log * Z.of_nat count < w ->
  forall ab rows rest out, toruses w ab -> length rows = length ab -> Forall (fun g => length g = count /\ Forall (glwe_shape N k) g) rows -> glwe_shape N k out ->
  exists out', pfks_input_loop h pr w log count out ab (rows ++ rest) = Ok (out', rest) /\ glwe_shape N k out' /\ (glwe_wf w N k out -> glwe_wf w N k out') /\
    forall sk ss C E, 0 <= E -> Forall2 (fun s g => glev_enc N k w log E sk (pscale s C) g) ss rows ->
      pn (Z.of_nat (length ab) * gerr log count E) (glwe_phase N sk out') (padd (glwe_phase N sk out) (pscale (dotz ss (map (dval log count) ab)) C)).
Proof.
  intros Hw Hsm Hl Hc Hs. induction ab as [|x ab IH]; intros [|g rows] rest out Ta Lr Fr So; cbn [length] in Lr; try lia; cbn [pfks_input_loop app].
  - exists out. split; [reflexivity|]. split; [assumption|]. split; [auto|]. intros sk ss C E HE H. inversion H; subst. cbn [map dotz length].
    change (Z.of_nat 0 * _) with 0. apply pnear_refl. intros i Hi. unfold padd, pscale. apply zeq_refl'. ring.
  - apply Forall_cons_iff in Ta as [Tx Ta]. apply Forall_cons_iff in Fr as [[Lg Fg] Fr].
    destruct (scalar_glev_mad_ok h pr log count k out x g) as (c1 & E1 & S1 & T1 & P1); try assumption. rewrite E1. cbn [bind].
    destruct (IH rows rest c1 Ta ltac:(lia) Fr S1) as (c2 & E2 & S2 & T2 & P2). exists c2. split; [assumption|]. split; [assumption|]. split; [auto|].
    intros sk ss C E HE H. inversion H as [|s g' ss' rows' Hsg H']; subst ss. subst g' rows'.
    replace (Z.of_nat (length (x :: ab)) * gerr log count E) with (Z.of_nat (length ab) * gerr log count E + (gerr log count E + 0)) by (cbn [length]; rewrite Nat2Z.inj_succ; ring).
    eapply pnear_trans; [apply (P2 sk ss' C E HE H')|].
    eapply pnear_peq; [reflexivity| |apply pnear_add; [apply (P1 sk (pscale s C) E HE Hsg)|apply pnear_refl; reflexivity]].
    intros i Hi. unfold padd, pscale. cbn [map dotz]. apply zeq_refl'. ring.
Qed.

Lemma nth_error_firstn' {A} (l : list A) m i : (i < m)%nat -> nth_error (firstn m l) i = nth_error l i.
Proof. revert l i. induction m as [|m IH]; intros [|x l] [|i] H; try lia; cbn [firstn nth_error]; try reflexivity. apply IH. lia. Qed.
Lemma nth_error_skipn' {A} (l : list A) m i : nth_error (skipn m l) i = nth_error l (m + i).
Proof. revert l. induction m as [|m IH]; intros [|x l]; cbn [skipn plus nth_error]; try reflexivity; [now destruct i|]. apply IH. Qed.

Lemma pfks_inputs_loop_ok h pr log count n k : word w -> smad_exact h pr w N -> 1 <= log -> (1 <= count)%nat -> log * Z.of_nat count < w ->
  forall inputs key out, Forall (lwe_wf w n) inputs -> length key = (length inputs * (n + 1))%nat -> Forall (fun g => length g = count /\ Forall (glwe_shape N k) g) key -> glwe_shape N k out ->
  exists out', pfks_inputs_loop h pr w log count n out inputs key = Ok out' /\ glwe_shape N k out' /\
    forall sk ss (C : nat -> poly) E, 0 <= E -> length ss = (n + 1)%nat ->
      (forall z i s g, (z < length inputs)%nat -> nth_error ss i = Some s -> nth_error key (z * (n + 1) + i) = Some g -> glev_enc N k w log E sk (pscale s (C z)) g) ->
      pn (Z.of_nat (length inputs) * ((Z.of_nat n + 1) * gerr log count E)) (glwe_phase N sk out')
        (padd (glwe_phase N sk out) (psum (length inputs) (fun z => pscale (tval log count ss (nth z inputs (lwe_new n))) (C z)))).
Proof.
  intros Hw Hsm Hl Hc Hs. induction inputs as [|c inputs IH]; intros key out Wi Lk Fk So; cbn [pfks_inputs_loop length] in *.
  - exists out. split; [reflexivity|]. split; [assumption|]. intros. change (Z.of_nat 0 * _) with 0. apply pnear_refl. intros i Hi. unfold padd, psum. cbn [zsum]. apply zeq_refl'. ring.
  - apply Forall_cons_iff in Wi as [(La & Ta & Tb) Wi]. assert (Lab : length (lwe_a c ++ [lwe_b c]) = (n + 1)%nat) by (rewrite app_length; cbn [length]; lia).
    cbv zeta. rewrite Lab, Nat.ltb_irrefl. rewrite (firstn_all2 (lwe_a c ++ [lwe_b c])) by lia.
    assert (Fk' := Fk). rewrite <- (firstn_skipn (n + 1) key) in Fk'. apply Forall_app in Fk' as [Fk1 Fk2].
    destruct (pfks_input_loop_ok h pr log count k Hw Hsm Hl Hc Hs (lwe_a c ++ [lwe_b c]) (firstn (n + 1) key) (skipn (n + 1) key) out) as (o1 & E1 & S1 & _ & P1); try assumption.
    { apply Forall_app. split; [assumption|]. constructor; [assumption|constructor]. } { rewrite firstn_length. lia. }
    rewrite firstn_skipn in E1. rewrite E1. cbn [bind].
    destruct (IH (skipn (n + 1) key) o1 Wi ltac:(rewrite skipn_length; lia) Fk2 S1) as (o2 & E2 & S2 & P2). exists o2. split; [assumption|]. split; [assumption|].
    intros sk ss C E HE Lss Henc.
    assert (P1' := P1 sk ss (C O) E HE). rewrite Lab in P1'.
    assert (P2' := P2 sk ss (fun z => C (S z)) E HE Lss).
    replace (Z.of_nat (S (length inputs)) * ((Z.of_nat n + 1) * gerr log count E)) with
      (Z.of_nat (length inputs) * ((Z.of_nat n + 1) * gerr log count E) + (Z.of_nat (n + 1) * gerr log count E + 0)) by (rewrite Nat2Z.inj_succ, Nat2Z.inj_add; change (Z.of_nat 1) with 1; ring).
    eapply pnear_trans; [apply P2'|].
    + intros z i s g Hz Hi Hg. apply (Henc (S z) i s g ltac:(lia) Hi). rewrite nth_error_skipn' in Hg. rewrite <- Hg. f_equal. lia.
    + eapply pnear_peq; [reflexivity| |apply pnear_add; [apply P1'|apply pnear_refl; reflexivity]].
      * intros i Hi. unfold padd, psum. rewrite zsum_S_l. cbn [nth]. unfold tval at 2, ab_of, pscale. apply zeq_refl'. ring.
      * apply (Forall2_nth N); [rewrite firstn_length; lia|]. intros i s g Hi Hg. assert ((i < n + 1)%nat) by (rewrite <- Lss; apply nth_error_Some; congruence).
        rewrite nth_error_firstn' in Hg by assumption. apply (Henc O i s g ltac:(lia) Hi). exact Hg.
Qed.

(** ** Key generation *)

Lemma scale_factor_ok pr log x j : word w -> 1 <= log -> log * (Z.of_nat j + 1) <= w ->
  scale_by_decomposition_factor pr w log x j = Ok ((x * 2 ^ (w - log * (Z.of_nat j + 1))) mod 2 ^ w) .
Proof.
  intros Hw Hl Hj. pose proof (word_pos w Hw). unfold scale_by_decomposition_factor. rewrite usub_ok by lia. cbn [bind].
  rewrite ushl_ok by nia. cbn [bind]. rewrite Z.mul_1_l. f_equal. unfold tmul. apply uwrap_eq. apply zeq_mul; [reflexivity|]. apply uwrap_congr.
Qed.

Lemma pfks_glev_loop_ok pr log k p z f sk s E : word w -> is_pow2 N = true -> 1 <= log -> polys_shape N k sk -> 0 <= E ->
  (forall x, length x = p -> toruses w x -> length (f (zpoly N) x) = N) -> (z < p)%nat ->
  forall glev rnd j, log * (Z.of_nat (j + length glev)) <= w -> Forall (glwe_fresh N k) glev -> length glev = length rnd -> Forall (glwe_rnd_ok N k w E) rnd ->
  exists g', pfks_glev_loop pr w log N p z f sk s j glev rnd = Ok g' /\ length g' = length glev /\ Forall (glwe_wf w N k) g' /\
    forall i c, nth_error g' i = Some c -> pn E (glwe_phase N sk c) (coef (f (zpoly N) (one_hot p z ((s * 2 ^ (w - log * (Z.of_nat (j + i) + 1))) mod 2 ^ w)))).
Proof.
  intros Hw Hp Hl Hs HE Hf Hz. pose proof (word_pos w Hw). induction glev as [|c glev IH]; intros [|[masks e] rnd] j Hj Hfr Hlen Hr; cbn [length] in *; try lia; cbn [pfks_glev_loop].
  - exists []. split; [reflexivity|]. split; [reflexivity|]. split; [constructor|]. intros i c Hc. destruct i; discriminate.
  - apply Forall_cons_iff in Hfr as [Hf1 Hfr]. apply Forall_cons_iff in Hr as [Hr1 Hr].
    rewrite scale_factor_ok by (assumption || nia). cbn [bind].
    set (m := f (zpoly N) _). assert (L1 : length m = N). { apply Hf; [apply one_hot_len|]. apply one_hot_torus; [lia|]. apply Z.mod_pos_bound. apply pow_pos'. lia. }
    destruct (glwe_encrypt_fresh N w k c m sk (masks, e) E Hw Hp Hf1 L1 Hs HE Hr1) as (c' & E2 & W2 & P2). cbn [fst snd] in E2. rewrite E2. cbn [bind].
    destruct (IH rnd (S j) ltac:(replace (S j + length glev)%nat with (j + S (length glev))%nat by lia; assumption) Hfr ltac:(lia) Hr) as (g' & E3 & L3 & F3 & P3). rewrite E3. cbn [bind].
    exists (c' :: g'). split; [reflexivity|]. split; [cbn [length]; lia|]. split; [constructor; assumption|].
    intros [|i] c0 Hc; cbn [nth_error] in Hc.
    + inversion Hc; subst c0. rewrite Nat.add_0_r. exact P2.
    + replace (j + S i)%nat with (S j + i)%nat by lia. now apply P3.
Qed.

Lemma pfks_row_loop_ok pr log count k p z f sk E : word w -> is_pow2 N = true -> 1 <= log -> log * Z.of_nat count <= w -> polys_shape N k sk -> 0 <= E ->
  (forall x, length x = p -> toruses w x -> length (f (zpoly N) x) = N) -> (z < p)%nat ->
  forall ss glevs rnd, length glevs = length ss -> length rnd = length ss ->
    Forall (fun g => length g = count /\ Forall (glwe_fresh N k) g) glevs -> Forall (fun r => length r = count /\ Forall (glwe_rnd_ok N k w E) r) rnd ->
  exists gs, pfks_row_loop pr w log N p z f sk ss glevs rnd = Ok gs /\ length gs = length ss /\ Forall (fun g => length g = count /\ Forall (glwe_wf w N k) g) gs /\
    forall i s g j c, nth_error ss i = Some s -> nth_error gs i = Some g -> nth_error g j = Some c ->
      pn E (glwe_phase N sk c) (coef (f (zpoly N) (one_hot p z ((s * 2 ^ (w - log * (Z.of_nat j + 1))) mod 2 ^ w)))).
Proof.
  intros Hw Hp Hl Hlc Hs HE Hf Hz. induction ss as [|s ss IH]; intros [|g glevs] [|r rnd] Lg Lr Fg Fr; cbn [length] in *; try lia; cbn [pfks_row_loop].
  - exists []. split; [reflexivity|]. split; [reflexivity|]. split; [constructor|]. intros i; intros. destruct i; discriminate.
  - apply Forall_cons_iff in Fg as [[Lg1 Fg1] Fg]. apply Forall_cons_iff in Fr as [[Lr1 Fr1] Fr].
    destruct (pfks_glev_loop_ok pr log k p z f sk s E Hw Hp Hl Hs HE Hf Hz g r 0) as (g1 & E1 & L1 & W1 & P1); try assumption.
    { cbn [plus]. now rewrite Lg1. } { congruence. }
    rewrite E1. cbn [bind]. destruct (IH glevs rnd ltac:(lia) ltac:(lia) Fg Fr) as (gs & E2 & L2 & W2 & P2). rewrite E2. cbn [bind].
    exists (g1 :: gs). split; [reflexivity|]. split; [cbn [length]; lia|]. split; [constructor; [split; [congruence|assumption]|assumption]|].
    intros [|i] s0 g0 j c Hi Hg Hj; cbn [nth_error] in Hi, Hg; [|now apply (P2 i s0 g0)].
    inversion Hi; subst s0. inversion Hg; subst g0. now apply P1.
Qed.

Lemma pfks_key_loop_ok pr log count n k p f sk s E : word w -> is_pow2 N = true -> 1 <= log -> log * Z.of_nat count <= w -> polys_shape N k sk -> 0 <= E -> length s = n ->
  (forall x, length x = p -> toruses w x -> length (f (zpoly N) x) = N) ->
  forall todo z key rnd, (z + todo)%nat = p -> length key = (todo * (n + 1))%nat -> length rnd = length key ->
    Forall (fun g => length g = count /\ Forall (glwe_fresh N k) g) key -> Forall (fun r => length r = count /\ Forall (glwe_rnd_ok N k w E) r) rnd ->
  exists key', pfks_key_loop pr w log n N p f sk s z todo key rnd = Ok key' /\ length key' = length key /\ Forall (fun g => length g = count /\ Forall (glwe_wf w N k) g) key' /\
    forall y i x g j c, (y < todo)%nat -> nth_error (s ++ [2 ^ w - 1]) i = Some x -> nth_error key' (y * (n + 1) + i) = Some g -> nth_error g j = Some c ->
      pn E (glwe_phase N sk c) (coef (f (zpoly N) (one_hot p (z + y) ((x * 2 ^ (w - log * (Z.of_nat j + 1))) mod 2 ^ w)))).
Proof.
  intros Hw Hp Hl Hlc Hs HE Ls Hf. induction todo as [|todo IH]; intros z key rnd Hz Lk Lr Fk Fr; cbn [pfks_key_loop].
  - exists key. split; [reflexivity|]. split; [reflexivity|]. destruct key; [|discriminate]. split; [constructor|]. intros; lia.
  - assert (Lss : length (s ++ [2 ^ w - 1]) = (n + 1)%nat) by (rewrite app_length; cbn [length]; lia).
    rewrite <- (firstn_skipn (n + 1) key) in Fk. rewrite <- (firstn_skipn (n + 1) rnd) in Fr. apply Forall_app in Fk as [Fk1 Fk2]. apply Forall_app in Fr as [Fr1 Fr2].
    cbn [Nat.mul] in Lk.
    destruct (pfks_row_loop_ok pr log count k p z f sk E Hw Hp Hl Hlc Hs HE Hf ltac:(lia) (s ++ [2 ^ w - 1]) (firstn (n + 1) key) (firstn (n + 1) rnd)) as (gs & E1 & L1 & W1 & P1); try assumption.
    { rewrite firstn_length. lia. } { rewrite firstn_length. lia. }
    rewrite E1. cbn [bind].
    destruct (IH (S z) (skipn (n + 1) key) (skipn (n + 1) rnd)) as (key' & E2 & L2 & W2 & P2); try assumption; try lia.
    { rewrite skipn_length. lia. } { rewrite !skipn_length. lia. }
    rewrite E2. cbn [bind]. exists (gs ++ key'). split; [reflexivity|]. split; [rewrite app_length, L2, skipn_length; lia|]. split; [apply Forall_app; split; assumption|].
    intros [|y] i x g j c Hy Hi Hg Hj.
    + assert ((i < n + 1)%nat) by (rewrite <- Lss; apply nth_error_Some; congruence). cbn [Nat.mul plus] in Hg. rewrite nth_error_app1 in Hg by lia. rewrite Nat.add_0_r. now apply (P1 i x g).
    + rewrite nth_error_app2 in Hg by lia. replace (S y * (n + 1) + i - length gs)%nat with (y * (n + 1) + i)%nat in Hg by lia.
      replace (z + S y)%nat with (S z + y)%nat by lia. now apply (P2 y i x g); [lia| | |].
Qed.

Lemma pfksk_valid_iff n k p count key : pfksk_valid n N k p count key = true <-> length key = (p * (n + 1))%nat /\ Forall (fun g => length g = count /\ Forall (glwe_shape N k) g) key.
Proof.
  unfold pfksk_valid. rewrite andb_true_iff, Nat.eqb_eq. apply and_iff_compat_l. rewrite forallb_forall, Forall_forall.
  split; intros H g Hg; specialize (H g Hg); now apply glev_valid_iff.
Qed.
End P.
