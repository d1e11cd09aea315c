(** LWE key switching and polynomial arithmetic: lemmas. *)
From Verif Require Import Base Alu AluProofs PolyRing Tfhe SpecTfhe FluentIntProofs TfheProofs.
Ltac Zify.zify_post_hook ::= idtac.
Open Scope Z_scope.

(** ** Key switching *)

Lemma dotz_near w D E ds xs ys : 0 <= E -> Forall (fun d => Z.abs d <= D) ds -> length ds = length xs -> Forall2 (near w E) xs ys ->
  near w (Z.of_nat (length xs) * (D * E)) (dotz ds xs) (dotz ds ys).
Proof.
  intros HE Hd Hl H. revert ds Hd Hl. induction H as [|x y xs ys Hxy H IH]; intros ds Hd Hl.
  - destruct ds; cbn [length] in *; [|lia]. cbn [dotz]. change (Z.of_nat 0) with 0. rewrite Z.mul_0_l. apply near_refl.
  - destruct ds as [|d ds]; cbn [length] in *; [lia|]. inversion Hd as [|? ? Hd1 Hd2]; subst. cbn [dotz].
    apply (near_weaken _ (Z.abs d * E + Z.of_nat (length xs) * (D * E))).
    + rewrite Nat2Z.inj_succ. nia.
    + apply near_add; [now apply near_mul|]. apply IH; [assumption|lia].
Qed.

Lemma dotz_congr_l w a a' s : Forall2 (zeq (2 ^ w)) a a' -> congr w (dotz a s) (dotz a' s).
Proof.
  intros H. revert s. induction H as [|x y l l' Hxy H IH]; intros [|z s]; cbn [dotz]; try reflexivity.
  now rewrite Hxy, IH.
Qed.

Lemma radix_value_dotz log ds g : dotz ds (map (fun i => g * 2 ^ (log * Z.of_nat i)) (seq 0 (length ds))) = g * radix_value log ds \/ log < 0.
Proof.
  destruct (Z.lt_ge_cases log 0) as [?|H]; [now right|left].
  enough (forall k, dotz ds (map (fun i => g * 2 ^ (log * Z.of_nat i)) (seq k (length ds))) = g * 2 ^ (log * Z.of_nat k) * radix_value log ds) as E.
  { rewrite E. change (Z.of_nat 0) with 0. rewrite Z.mul_0_r, Z.pow_0_r. ring. }
  induction ds as [|d ds IH]; intros k; cbn [length seq map dotz radix_value]; [ring|]. rewrite IH.
  replace (log * Z.of_nat (S k)) with (log * Z.of_nat k + log) by lia. rewrite Z.pow_add_r by lia. ring.
Qed.

Lemma mad_loop_ok pr w log count bs : forall v l cur c, word w -> 1 <= log < w -> torus w v ->
  (l + length bs <= count)%nat -> Forall (fun b => length (lwe_a b) = length (lwe_a c)) bs ->
  exists c', lev_mad_loop pr w log count {| ri_scratch := [v]; ri_level := l |} cur bs c = Ok c' /\
    length (lwe_a c') = length (lwe_a c) /\ (toruses w (lwe_a c) -> toruses w (lwe_a c')) /\ (torus w (lwe_b c) -> torus w (lwe_b c')) /\
    forall sk, congr w (lwe_phase sk c') (lwe_phase sk c + dotz (sdigs log (length bs) v) (map (lwe_phase sk) bs)).
Proof.
  induction bs as [|b bs IH]; intros v l cur c Hw Hl Hv Hc Hb; cbn [lev_mad_loop].
  - exists c. repeat split; auto; cbn; try (now destruct H); try lia. intros sk. cbn [length sdigs dotz]. apply zeq_refl'. ring.
  - cbn [length] in Hc. unfold write_next. cbn [ri_level ri_scratch].
    destruct (Nat.eqb_spec l count) as [->|_]; [lia|]. cbn [mapM]. rewrite vec_next_ok by assumption. cbn [bind map fst snd nth].
    inversion Hb as [|? ? Hb1 Hb2]; subst. pose proof (word_pos w Hw).
    destruct (lwe_scalar_mad_ok w c (uwrap w (sdig log v)) b ltac:(congruence)) as (c1 & E1 & L1 & T1 & T1' & P1).
    rewrite E1. cbn [bind].
    destruct (IH (snext log v) (S l) [uwrap w (sdig log v)] c1 Hw Hl) as (c' & E2 & L2 & T2 & T2' & P2).
    { apply snext_range; (lia || assumption). } { lia. } { rewrite L1. assumption. }
    exists c'. split; [assumption|]. split; [congruence|]. split; [intros; apply T2, T1; (lia || assumption)|].
    split; [intros; apply T2', T1'; lia|].
    intros sk. rewrite P2, P1. cbn [length sdigs map dotz]. rewrite uwrap_congr. apply zeq_refl'. ring.
Qed.

Lemma lev_enc_rev w log E dim sk s lev count : word w -> 1 <= log -> log * Z.of_nat count < w -> length lev = count ->
  lev_enc w log E dim sk s lev ->
  Forall2 (near w E) (map (lwe_phase sk) (rev lev))
    (map (fun i => s * 2 ^ (w - log * Z.of_nat count) * 2 ^ (log * Z.of_nat i)) (seq 0 count)).
Proof.
  intros Hw Hl Hs Hc H. subst count.
  assert (G : forall n, (n <= length lev)%nat ->
    Forall2 (near w E) (map (lwe_phase sk) (rev (firstn n lev)))
      (map (fun i => s * 2 ^ (w - log * Z.of_nat n) * 2 ^ (log * Z.of_nat i)) (seq 0 n))).
  { induction n as [|n IH]; intros Hn; [constructor|].
    destruct (nth_error lev n) as [c|] eqn:Ec; [|apply nth_error_None in Ec; lia].
    assert (Ef : firstn (S n) lev = firstn n lev ++ [c]).
    { clear - Ec. revert lev Ec. induction n; intros [|x lev] Ec; try discriminate; cbn in Ec.
      - injection Ec as ->. reflexivity.
      - cbn [firstn app]. f_equal. now apply IHn. }
    rewrite Ef, rev_app_distr. cbn [rev app map seq].
    constructor.
    - destruct (H n c Ec) as [_ Hnear]. change (Z.of_nat 0) with 0. rewrite Z.mul_0_r, Z.pow_0_r, Z.mul_1_r.
      replace (Z.of_nat (S n)) with (Z.of_nat n + 1) by lia. assumption.
    - rewrite <- seq_shift, map_map. specialize (IH ltac:(lia)).
      rewrite (map_ext_in _ (fun i => s * 2 ^ (w - log * Z.of_nat n) * 2 ^ (log * Z.of_nat i)) (seq 0 n)); [exact IH|]. intros i Hi. apply in_seq in Hi. cbv beta.
      rewrite <- !Z.mul_assoc. f_equal. rewrite <- !Z.pow_add_r by nia. f_equal. lia. }
  specialize (G (length lev) (Nat.le_refl _)). rewrite firstn_all in G. exact G.
Qed.

Definition ks_bound (w log K E : Z) (count : nat) : Z :=
  K * 2 ^ (w - log * Z.of_nat count - 1) + Z.of_nat count * (2 ^ (log - 1) * E).

Lemma lev_mad_ok pr w log count c x lev : word w -> 1 <= log -> (1 <= count)%nat -> log * Z.of_nat count < w -> torus w x ->
  length lev = count -> Forall (fun b => length (lwe_a b) = length (lwe_a c)) lev ->
  exists c', (it <- radix_new pr w log count [x] ;; lev_mad pr w log count c it lev) = Ok c' /\
    length (lwe_a c') = length (lwe_a c) /\ (toruses w (lwe_a c) -> toruses w (lwe_a c')) /\ (torus w (lwe_b c) -> torus w (lwe_b c')) /\
    forall sk s K E, 0 <= E -> Z.abs s <= K -> lev_enc w log E (length (lwe_a c)) sk s lev ->
      near w (ks_bound w log K E count) (lwe_phase sk c') (lwe_phase sk c + s * x).
Proof.
  intros Hw Hl Hc Hs Hx Hlen Hall. pose proof (word_pos w Hw). unfold radix_new.
  destruct (Z.ltb_spec (log * Z.of_nat count) w); [|lia]. destruct (Z.eqb_spec (log * Z.of_nat count) 0); [nia|]. cbn [andb negb mapM].
  rewrite radix_round_ok by assumption. cbn [bind]. unfold lev_mad.
  assert (Hrt : torus w (rnd w log count x)) by (now apply rnd_torus).
  destruct (mad_loop_ok pr w log count (rev lev) (rnd w log count x) 0 [0] c Hw ltac:(nia) Hrt) as (c' & E1 & L1 & T1 & T1' & P1).
  { rewrite rev_length. lia. } { now apply Forall_rev. }
  exists c'. split; [exact E1|]. split; [assumption|]. split; [assumption|]. split; [assumption|].
  intros sk s K E HE HK Henc. eapply near_congr; [symmetry; apply P1|reflexivity|]. rewrite rev_length, Hlen.
  replace (ks_bound w log K E count) with (0 + ks_bound w log K E count) by lia. apply near_add; [apply near_refl|].
  pose proof (lev_enc_rev w log E _ sk s lev count Hw Hl Hs Hlen Henc) as Hrev.
  set (ds := sdigs log count (rnd w log count x)) in *.
  assert (Ld : length ds = count) by apply sdigs_len.
  unfold ks_bound. rewrite Z.add_comm.
  apply (near_trans _ _ _ _ (dotz ds (map (fun i => s * 2 ^ (w - log * Z.of_nat count) * 2 ^ (log * Z.of_nat i)) (seq 0 count)))).
  - replace (Z.of_nat count) with (Z.of_nat (length (map (lwe_phase sk) (rev lev)))) at 1 by (rewrite map_length, rev_length, Hlen; reflexivity).
    apply dotz_near; [lia| |rewrite map_length, rev_length; lia|assumption].
    apply (Forall_impl (P := fun d => - 2 ^ (log - 1) <= d < 2 ^ (log - 1))); [intros; lia|]. now apply sdigs_range.
  - destruct (radix_value_dotz log ds (s * 2 ^ (w - log * Z.of_nat count))) as [E2|?]; [|lia].
    rewrite Ld in E2. rewrite E2.
    apply (near_weaken _ (Z.abs s * 2 ^ (w - log * Z.of_nat count - 1))).
    { pose proof (pow_pos' (w - log * Z.of_nat count - 1) ltac:(lia)). nia. }
    eapply near_congr; [| |apply near_mul, (digits_value w log count x Hw Hl Hc Hs)]; [|reflexivity].
    fold ds. apply zeq_refl'. ring.
Qed.

Lemma ks_loop_ok pr w log count a : forall c ksk, word w -> 1 <= log -> (1 <= count)%nat -> log * Z.of_nat count < w -> toruses w a ->
  length a = length ksk -> Forall (fun lev => length lev = count /\ Forall (fun b => length (lwe_a b) = length (lwe_a c)) lev) ksk ->
  exists c', lwe_ks_loop pr w log count a ksk c = Ok c' /\
    length (lwe_a c') = length (lwe_a c) /\ (toruses w (lwe_a c) -> toruses w (lwe_a c')) /\ (torus w (lwe_b c) -> torus w (lwe_b c')) /\
    forall oldsk sk K E, 0 <= E -> Forall (fun s => Z.abs s <= K) oldsk -> length sk = length (lwe_a c) ->
      ksk_enc w log E count oldsk sk ksk ->
      near w (Z.of_nat (length a) * ks_bound w log K E count) (lwe_phase sk c') (lwe_phase sk c + dotz a oldsk).
Proof.
  induction a as [|x a IH]; intros c [|lev ksk] Hw Hl Hc Hs Ha Hlen Hk; cbn [length] in Hlen; try lia; cbn [lwe_ks_loop].
  - exists c. split; [reflexivity|]. split; [reflexivity|]. split; [auto|]. split; [auto|].
    intros. cbn [length dotz]. change (Z.of_nat 0) with 0. rewrite Z.mul_0_l. apply near_0. apply zeq_refl'. ring.
  - inversion Ha as [|? ? Hx Ha']; subst. inversion Hk as [|? ? [Hk1 Hk1'] Hk2]; subst.
    destruct (lev_mad_ok pr w log (length lev) c x lev Hw Hl Hc Hs Hx eq_refl Hk1') as (c1 & E1 & L1 & T1 & T1' & P1).
    destruct (radix_new pr w log (length lev) [x]) as [it| |]; cbn [bind] in *; try discriminate. rewrite E1. cbn [bind].
    destruct (IH c1 ksk Hw Hl Hc Hs Ha' ltac:(lia)) as (c' & E2 & L2 & T2 & T2' & P2). { now rewrite L1. }
    exists c'. split; [assumption|]. split; [congruence|]. split; [auto|]. split; [auto|].
    intros oldsk sk K E HE HK Hd Henc. inversion Henc as [|s lev' oldsk' ksk' [He1 He2] Henc']; subst.
    inversion HK as [|? ? HK1 HK2]; subst. cbn [length dotz].
    apply (near_weaken _ (Z.of_nat (length a) * ks_bound w log K E (length lev) + ks_bound w log K E (length lev))); [lia|].
    eapply near_trans; [eapply (P2 oldsk' sk K E); eauto; congruence|].
    rewrite Hd in He2. specialize (P1 sk s K E HE HK1 He2).
    apply (near_weaken _ (ks_bound w log K E (length lev) + 0)); [lia|].
    eapply near_congr; [reflexivity| |exact (near_add _ _ _ _ _ _ _ P1 (near_refl w (dotz a oldsk')))]. apply zeq_refl'. ring.
Qed.

Lemma ksk_valid_iff old new count ksk : ksk_valid old new count ksk = true <->
  length ksk = old /\ Forall (fun lev => length lev = count /\ Forall (fun b => length (lwe_a b) = new) lev) ksk.
Proof.
  unfold ksk_valid. rewrite andb_true_iff, Nat.eqb_eq, forallb_forall, Forall_forall.
  apply and_iff_compat_l. split; intros H lev Hin; specialize (H lev Hin).
  - apply andb_true_iff in H as [H1 H2]. apply Nat.eqb_eq in H1. rewrite forallb_forall in H2. split; [assumption|].
    apply Forall_forall. intros b Hb. specialize (H2 b Hb). now apply Nat.eqb_eq in H2.
  - destruct H as [-> H]. rewrite Nat.eqb_refl. cbn [andb]. apply forallb_forall. intros b Hb.
    apply (proj1 (Forall_forall _ _)) with (x := b) in H; [|assumption]. now apply Nat.eqb_eq.
Qed.

Lemma lwe_trivial_ok dim c m : dim <> O -> length (lwe_a c) = dim ->
  exists c', lwe_trivial dim c m = Ok c' /\ length (lwe_a c') = dim /\ lwe_b c' = m /\ Forall (eq 0) (lwe_a c') /\ forall sk, lwe_phase sk c' = m.
Proof.
  intros Hd Hl. unfold lwe_trivial, lwe_dim_valid, lwe_valid. rewrite (proj2 (Nat.eqb_eq _ _) Hl), (proj2 (Nat.eqb_neq _ _) Hd).
  cbn [negb andb]. eexists. split; [reflexivity|]. cbn [lwe_a lwe_b]. rewrite map_length. split; [assumption|]. split; [reflexivity|].
  split; [apply map_0|]. intros sk. unfold lwe_phase. cbn [lwe_a lwe_b]. rewrite dotz_zeros by apply map_0. ring.
Qed.

Lemma lwe_keyswitch_ok pr w log count old new out ct ksk : word w -> 1 <= log -> (1 <= count)%nat -> log * Z.of_nat count < w ->
  old <> O -> new <> O -> length (lwe_a out) = new -> lwe_wf w old ct -> ksk_valid old new count ksk = true ->
  exists c, lwe_keyswitch pr w log count old new out ct ksk = Ok c /\ lwe_wf w new c /\
    forall oldsk newsk K E, 0 <= E -> Forall (fun s => Z.abs s <= K) oldsk -> length newsk = new ->
      ksk_enc w log E count oldsk newsk ksk ->
      near w (Z.of_nat old * ks_bound w log K E count) (lwe_phase newsk c) (lwe_phase oldsk ct).
Proof.
  intros Hw Hl Hc Hs Ho Hn Hout (Hct1 & Hct2 & Hct3) Hk. pose proof (word_pos w Hw). unfold lwe_keyswitch.
  assert (G : lwe_dim_valid old && lwe_dim_valid new && radix_valid w log count && lwe_valid new out && lwe_valid old ct && ksk_valid old new count ksk = true).
  { unfold lwe_dim_valid, radix_valid, lwe_valid. rewrite Hk, (proj2 (Nat.eqb_neq _ _) Ho), (proj2 (Nat.eqb_neq _ _) Hn), (proj2 (Nat.eqb_eq _ _) Hout), (proj2 (Nat.eqb_eq _ _) Hct1).
    destruct (Z.ltb_spec 0 (Z.of_nat count)); [|lia]. destruct (Z.ltb_spec 0 log); [|lia]. destruct (Z.leb_spec (Z.of_nat count * log) w); [|lia]. reflexivity. }
  rewrite G. apply ksk_valid_iff in Hk as [Hk1 Hk2].
  assert (Ln : length (lwe_a (lwe_new new)) = new) by (cbn; apply repeat_length).
  destruct (ks_loop_ok pr w log count (lwe_a ct) (lwe_new new) ksk Hw Hl Hc Hs Hct2 ltac:(congruence)) as (c1 & E1 & L1 & _ & _ & P1).
  { now rewrite Ln. }
  rewrite E1. cbn [bind]. destruct (lwe_trivial_ok new (lwe_new new) (lwe_b ct) Hn Ln) as (c2 & E2 & L2 & _ & _ & P2).
  rewrite E2. cbn [bind].
  destruct (lwe_sub_ok w out c2 c1 ltac:(congruence) ltac:(congruence)) as (c3 & E3 & L3 & T3 & T3' & P3).
  exists c3. split; [assumption|]. split; [split; [congruence|]; split; [apply T3|apply T3']; lia|].
  intros oldsk newsk K E HE HK Hns Henc. eapply near_congr; [symmetry; apply P3|reflexivity|]. rewrite P2.
  specialize (P1 oldsk newsk K E HE HK ltac:(congruence) Henc). rewrite Hct1, phase_new in P1.
  replace (Z.of_nat old * ks_bound w log K E count) with (0 + Z.of_nat old * ks_bound w log K E count) by lia.
  eapply near_congr; [reflexivity| |apply near_sub; [apply near_refl|exact P1]]. apply zeq_refl'. unfold lwe_phase. ring.
Qed.

(** ** Key generation *)

Lemma gadget_factor_ok pr w log j : word w -> 1 <= log -> log * (Z.of_nat j + 1) <= w ->
  gadget_factor pr w log j = Ok (2 ^ (w - log * (Z.of_nat j + 1))).
Proof.
  intros Hw Hl Hj. pose proof (word_le w Hw). unfold gadget_factor. rewrite usub_ok by lia. cbn [bind].
  rewrite ushl_ok by nia. cbn [bind]. rewrite Z.mul_1_l. set (s := w - log * (Z.of_nat j + 1)). assert (0 <= s < w) by nia.
  assert (2 ^ s < 2 ^ w) by (apply Z.pow_lt_mono_r; lia). assert (2 ^ s < 2 ^ 64) by (apply Z.pow_lt_mono_r; lia).
  pose proof (pow_pos' s ltac:(lia)). unfold uwrap. rewrite (Z.mod_small _ (2 ^ 64)) by lia. now rewrite Z.mod_small by lia.
Qed.

(** [pr] and the key coefficient [s] do not make the checked multiplication overflow. *)
Definition key_fits (pr : profile) (log s : Z) : Prop := 0 <= s /\ (pr = Release \/ s < 2 ^ log).

Lemma umul_congr pr w log j s : 0 <= w -> 1 <= log -> log * (Z.of_nat j + 1) <= w -> key_fits pr log s ->
  exists m, umul pr w (2 ^ (w - log * (Z.of_nat j + 1))) s = Ok m /\ congr w m (s * 2 ^ (w - log * (Z.of_nat j + 1))).
Proof.
  intros Hw Hl Hj [Hs [->|Hs']].
  - unfold umul. destruct (_ <? _); eexists; (split; [reflexivity|]); [apply zeq_refl'; ring|]. rewrite uwrap_congr. apply zeq_refl'. ring.
  - rewrite umul_ok; [eexists; split; [reflexivity|]; apply zeq_refl'; ring|].
    set (t := w - log * (Z.of_nat j + 1)). replace (2 ^ w) with (2 ^ t * 2 ^ (w - t)) by (rewrite <- pow_split by nia; f_equal; lia).
    apply Z.mul_lt_mono_pos_l; [apply pow_pos'; lia|]. eapply Z.lt_le_trans; [exact Hs'|]. apply Z.pow_le_mono_r; nia.
Qed.

Lemma ksk_row_ok pr w log new newsk s E : word w -> 1 <= log -> new <> O -> length newsk = new -> key_fits pr log s ->
  forall row j rnd, log * Z.of_nat (j + length row) <= w ->
  Forall (fun b => length (lwe_a b) = new) row ->
  Forall2 (fun _ r => length (fst r) = new /\ near w E (snd r) 0) row rnd ->
  exists row', ksk_row pr w log new newsk s j row rnd = Ok row' /\ length row' = length row /\
    Forall (fun b => length (lwe_a b) = new) row' /\
    forall i c, nth_error row' i = Some c -> length (lwe_a c) = new /\
      near w E (lwe_phase newsk c) (s * 2 ^ (w - log * (Z.of_nat (j + i) + 1))).
Proof.
  intros Hw Hl Hn Hns Hs. pose proof (word_pos w Hw). induction row as [|col row IH]; intros j rnd Hj Hrow Hr; inversion Hr as [|? r ? rnd' Hr1 Hr2]; subst.
  - cbn [ksk_row]. exists []. repeat split; auto. intros; destruct i; discriminate. intros; destruct i; discriminate.
  - destruct r as [mask e]. cbn [fst snd] in Hr1. destruct Hr1 as [Hm He]. inversion Hrow as [|? ? Hc1 Hc2]; subst. cbn [length] in Hj.
    assert (Hj1 : log * (Z.of_nat j + 1) <= w) by nia.
    cbn [ksk_row]. rewrite gadget_factor_ok by assumption. cbn [bind].
    destruct (umul_congr pr w log j s ltac:(lia) Hl ltac:(nia) Hs) as (m & Em & Cm). rewrite Em. cbn [bind].
    destruct (lwe_encrypt_ok w (length newsk) col newsk m mask e Hn Hc1 eq_refl Hm) as (c & Ec & Ac & _ & Pc). rewrite Ec. cbn [bind].
    destruct (IH (S j) rnd' ltac:(lia) Hc2 Hr2) as (row' & Er & Lr & Fr & Pr). rewrite Er. cbn [bind].
    exists (c :: row'). split; [reflexivity|]. split; [cbn; lia|]. split; [constructor; auto; congruence|].
    intros [|i] c' Hi; cbn in Hi.
    + injection Hi as <-. split; [congruence|]. rewrite Nat.add_0_r. eapply near_congr; [symmetry; exact Pc|reflexivity|].
      eapply near_congr; [| |apply (near_add w 0 E _ _ _ _ (proj2 (near_0 w _ _) Cm) He)]; [reflexivity|]. apply zeq_refl'. ring.
    + destruct (Pr i c' Hi) as [H1 H2]. split; [assumption|]. replace (j + S i)%nat with (S j + i)%nat by lia. assumption.
Qed.

Lemma Forall2_const {A B} (P : B -> Prop) (l : list A) (l' : list B) : length l = length l' -> Forall P l' -> Forall2 (fun _ y => P y) l l'.
Proof. revert l'. induction l; intros [|y l'] H F; cbn in H; try lia; constructor; inversion F; subst; auto. Qed.


Lemma ksk_rows_ok pr w log count new newsk E : word w -> 1 <= log -> (1 <= count)%nat -> log * Z.of_nat count <= w -> new <> O -> length newsk = new ->
  forall oldsk ksk rnd, length oldsk = length ksk -> length oldsk = length rnd ->
  Forall (fun lev => length lev = count /\ Forall (fun b => length (lwe_a b) = new) lev) ksk ->
  Forall (key_fits pr log) oldsk -> ksk_rnd_ok w E new count rnd ->
  exists ksk', ksk_rows pr w log new newsk oldsk ksk rnd = Ok ksk' /\ length ksk' = length ksk /\
    Forall (fun lev => length lev = count /\ Forall (fun b => length (lwe_a b) = new) lev) ksk' /\ ksk_enc w log E count oldsk newsk ksk'.
Proof.
  intros Hw Hl Hc Hs Hn Ln. induction oldsk as [|s oldsk IH]; intros [|row ksk] [|r rnd] H1 H2 Hk Hf Hr; cbn [length] in *; try lia; cbn [ksk_rows].
  - exists []. repeat split; auto. constructor.
  - inversion Hk as [|? ? [Hk1 Hk2] Hk3]; subst. inversion Hf; subst. inversion Hr as [|? ? [Hr1 Hr2] Hr3]; subst.
    destruct (ksk_row_ok pr w log (length newsk) newsk s E Hw Hl Hn eq_refl H3 row 0 r) as (row' & Er & Lr & Fr & Pr).
    { cbn [plus]. assumption. } { assumption. } { apply Forall2_const; [congruence|assumption]. }
    rewrite Er. cbn [bind]. destruct (IH ksk rnd ltac:(lia) ltac:(lia) Hk3 H4 Hr3) as (k' & Ek & Lk & Fk & Pk). rewrite Ek. cbn [bind].
    exists (row' :: k'). split; [reflexivity|]. split; [cbn; lia|]. split; [constructor; [split; [congruence|assumption]|assumption]|].
    constructor; [|assumption]. split; [assumption|]. intros j c Hj. exact (Pr j c Hj).
Qed.

Lemma lwe_gen_ksk_ok pr w log count old new ksk oldsk newsk rnd E : word w -> 1 <= log -> (1 <= count)%nat -> log * Z.of_nat count <= w ->
  old <> O -> new <> O -> length oldsk = old -> length newsk = new -> ksk_valid old new count ksk = true ->
  Forall (key_fits pr log) oldsk -> length rnd = old -> ksk_rnd_ok w E new count rnd ->
  exists ksk', lwe_gen_ksk pr w log count old new ksk oldsk newsk rnd = Ok ksk' /\
    ksk_valid old new count ksk' = true /\ ksk_enc w log E count oldsk newsk ksk'.
Proof.
  intros Hw Hl Hc Hs Ho Hn Lo Ln Hk Hf Lr Hr. unfold lwe_gen_ksk.
  assert (G : lwe_dim_valid old && lwe_dim_valid new && radix_valid w log count && (length newsk =? new)%nat && (length oldsk =? old)%nat && ksk_valid old new count ksk = true).
  { unfold lwe_dim_valid, radix_valid. rewrite Hk, (proj2 (Nat.eqb_neq _ _) Ho), (proj2 (Nat.eqb_neq _ _) Hn), (proj2 (Nat.eqb_eq _ _) Lo), (proj2 (Nat.eqb_eq _ _) Ln).
    destruct (Z.ltb_spec 0 (Z.of_nat count)); [|lia]. destruct (Z.ltb_spec 0 log); [|lia]. destruct (Z.leb_spec (Z.of_nat count * log) w); [|lia]. reflexivity. }
  rewrite G. apply ksk_valid_iff in Hk as [Hk1 Hk2].
  destruct (ksk_rows_ok pr w log count new newsk E Hw Hl Hc Hs Hn Ln oldsk ksk rnd) as (k' & E1 & L1 & F1 & P1); try assumption; try congruence.
  exists k'. split; [assumption|]. split; [|assumption]. apply ksk_valid_iff. split; [congruence|assumption].
Qed.
