(** Theorems about scheme switching: turning a GLEV ciphertext into a GGSW ciphertext. *)
From Verif Require Import Base Alu AluProofs MuxGraph MuxGraphProofs PolyRing Tfhe TfheGlwe TfheBoot TfheTrace TfheSwitch SpecTfhe SpecGlwe SpecBoot SpecTrace SpecSwitch FluentIntProofs TfheProofs TfheProofs2 TfheProofs3 TfheGlweProofs TfheGlweProofs2 TfheGlweProofs3 TfheGlweProofs4 TfheBootProofs TfheBootProofs2 TfheBootProofs3 TfheBootProofs4 TfheTraceProofs TfheTraceProofs2 TfheSwitchProofs Props_Boot.
Ltac Zify.zify_post_hook ::= idtac.
Open Scope Z_scope.

(** * C96: upper-triangular storage *)

(** Draining the iterator yields the pairs (x_i, x_j), i <= j, row by row; it never indexes out of range. *)
Theorem triangular_pairs_complete {A} (items : list A) fuel : tri_collect items (0, 0)%nat fuel = Ok (firstn fuel (tri_pairs items)).
Proof. apply tri_collect_all. Qed.
Print Assumptions triangular_pairs_complete.
(** The linear index of (i, j), in either order, is the position of that pair; distinct unordered pairs have
    distinct positions, and all positions are below the number of entries. *)
Theorem linear_index_correct {A} (l : list A) i j x y : nth_error l i = Some x -> nth_error l j = Some y ->
  exists idx, linear_index i j (length l) = Ok idx /\ (idx < tri_count (length l))%nat /\
    nth_error (tri_pairs l) idx = Some (if (i <=? j)%nat then (x, y) else (y, x)).
Proof.
  intros Hi Hj. destruct (linear_index_ok l i j x y Hi Hj) as (idx & E & P). exists idx. split; [assumption|]. split; [|assumption].
  rewrite <- tri_pairs_len. apply nth_error_Some. congruence.
Qed.
Print Assumptions linear_index_correct.
Theorem linear_index_injective n i j i' j' idx : linear_index i j n = Ok idx -> linear_index i' j' n = Ok idx ->
  (i = i' /\ j = j') \/ (i = j' /\ j = i').
Proof.
  intros H H'.
  assert (G : forall i j, linear_index i j n = Ok idx -> (i < n)%nat /\ (j < n)%nat).
  { clear. intros i j. unfold linear_index. destruct (Nat.ltb_spec i n), (Nat.ltb_spec j n); cbn [andb]; try discriminate. auto. }
  destruct (G i j H) as (Li & Lj). destruct (G i' j' H') as (Li' & Lj').
  assert (Q : forall i, (i < n)%nat -> nth_error (seq 0 n) i = Some i) by (intros t Ht; rewrite (nth_error_nth' _ 0%nat) by (now rewrite seq_length); now rewrite seq_nth).
  destruct (linear_index_ok (seq 0 n) i j i j (Q i Li) (Q j Lj)) as (x & E1 & P1). destruct (linear_index_ok (seq 0 n) i' j' i' j' (Q i' Li') (Q j' Lj')) as (x' & E1' & P1').
  rewrite seq_length in E1, E1'. rewrite H in E1. rewrite H' in E1'. injection E1 as <-. injection E1' as <-. rewrite P1 in P1'.
  destruct (i <=? j)%nat, (i' <=? j')%nat; injection P1' as A B; auto.
Qed.
Print Assumptions linear_index_injective.
Theorem linear_index_refuses i j n : (n <= i \/ n <= j)%nat -> linear_index i j n = Panic.
Proof. intros H. unfold linear_index. destruct (Nat.ltb_spec i n), (Nat.ltb_spec j n); cbn [andb]; try reflexivity. lia. Qed.
Print Assumptions linear_index_refuses.
Example linear_index_ex : map (fun p => linear_index (fst p) (snd p) 3) [(0, 0); (0, 1); (0, 2); (1, 1); (2, 1); (2, 2)]%nat = [Ok 0; Ok 1; Ok 2; Ok 3; Ok 4; Ok 5]%nat.
Proof. reflexivity. Qed.

(** * C88: scheme switching *)

(** Key generation. [fmul] is what the code computes for s_i * s_j through the f64 FFT; the theorem needs it to
    be the exact product modulo 2^w for the polynomials of the key. *)
Theorem scheme_switch_key_correct pr w log count N k ssk sk fmul rnd E : word w -> glwe_dim_valid N k = true -> 1 <= log -> (1 <= count)%nat -> log * Z.of_nat count <= w ->
  polys_shape N k sk -> 0 <= E -> length ssk = tri_count k -> Forall (fun r => length r = count /\ Forall (glwe_fresh N k) r) ssk ->
  (forall s t, In s sk -> In t sk -> length (fmul s t) = N /\ peq N (2 ^ w) (coef (fmul s t)) (pmul N (coef s) (coef t))) ->
  (forall i, length (rnd i) = count /\ Forall (glwe_rnd_ok N k w E) (rnd i)) ->
  exists ssk', generate_ssk pr w log count N k ssk sk fmul rnd = Ok ssk' /\ ssk_enc N k count w log E sk ssk'.
Proof.
  intros Hw Hdim Hl Hc Hs Hsk HE Ls Fs Hm Hr. destruct (dim_valid N k Hdim) as (HP & HN0 & Hk).
  unfold generate_ssk. rewrite Hdim, (proj2 (radix_valid_iff _ _ _)) by auto. rewrite (proj2 (polys_valid_iff N k sk) Hsk).
  assert (Hv : ssk_valid N k count ssk = true).
  { unfold ssk_valid. rewrite Ls, Nat.eqb_refl. cbn [andb]. apply forallb_forall. intros r Hr'. destruct (proj1 (Forall_forall _ _) Fs r Hr') as (Lr & Fr).
    apply glev_valid_iff. split; [assumption|]. eapply Forall_impl; [|exact Fr]. intros a Ha. apply Ha. }
  rewrite Hv. cbn [andb]. rewrite tri_collect_all. cbn [bind].
  assert (Lp : length (tri_pairs sk) = length ssk) by (rewrite tri_pairs_len, Ls; f_equal; apply Hsk).
  rewrite firstn_all2 by lia.
  assert (Hin : forall l (p : list Z * list Z), In p (tri_pairs l) -> In (fst p) l /\ In (snd p) l).
  { clear. induction l as [|x l IH]; intros p Hp; [destruct Hp|]. cbn [tri_pairs] in Hp. apply in_app_iff in Hp as [Hp|Hp].
    - apply in_map_iff in Hp as (y & <- & Hy). cbn [fst snd]. split; [now left|assumption].
    - destruct (IH p Hp). split; now right. }
  destruct (ssk_loop_ok N w pr log count k sk fmul E Hw HP Hl Hc Hs Hsk HE (tri_pairs sk) ssk rnd) as (ssk' & E1 & P1); try assumption.
  { intros p Hp. destruct (Hin sk p Hp). now apply Hm. }
  exists ssk'. split; assumption.
Qed.
Print Assumptions scheme_switch_key_correct.

Lemma ssk_enc_valid N k count w log E sk ssk : length sk = k -> ssk_enc N k count w log E sk ssk -> ssk_valid N k count ssk = true.
Proof.
  intros L H. unfold ssk_valid. rewrite <- (Forall2_len _ _ _ H), tri_pairs_len, L, Nat.eqb_refl. cbn [andb]. apply forallb_forall.
  intros r Hr. apply glev_valid_iff. clear - H Hr. unfold ssk_enc in H. induction H as [|p g ps gs Hp H IH]; [destruct Hr|]. destruct Hr as [<-|Hr]; [apply Hp|now apply IH].
Qed.

(** A GLEV encryption of m becomes a GGSW encryption of m, whatever the output buffer holds. *)
Theorem scheme_switch_correct pr w log count cg N k out glev ssk sk E E0 logg m : word w -> is_pow2 N = true -> 1 <= log -> (1 <= count)%nat -> log * Z.of_nat count < w ->
  0 <= E -> 0 <= E0 -> polys_shape N k sk -> binary_polys sk -> ssk_enc N k count w log E sk ssk ->
  ggsw_valid N k cg out = true -> length glev = cg -> Forall (glwe_wf w N k) glev -> glev_enc N k w logg E0 sk m glev ->
  exists g, scheme_switch pr w log count cg N k out glev ssk = Ok g /\ ggsw_valid N k cg g = true /\ Forall (Forall (glwe_wf w N k)) g /\
    ggsw_enc N k cg w logg (ss_noise N k count w log E0 E) sk m g.
Proof.
  intros Hw HP Hl Hc Hs HE HE0 Hsk Hb He Hout Lg Wg Hm. pose proof (word_pos w Hw) as Hwp. unfold scheme_switch. rewrite (ssk_enc_valid _ _ _ _ _ _ _ _ (proj1 Hsk) He), Hout.
  rewrite (proj2 (glev_valid_iff N k cg glev)). 2:{ split; [assumption|]. eapply Forall_impl; [|exact Wg]. intros a Ha. apply Ha. }
  cbn [andb]. apply ggsw_valid_iff in Hout as (Lo & Fo).
  assert (Wz : poly_wf w N (zpoly N)). { unfold zpoly. split; [apply repeat_length|]. apply Forall_forall. intros y Hy. apply repeat_spec in Hy. subst. unfold torus. pose proof (pow_pos' w ltac:(lia)). lia. }
  destruct (ss_rows_ok N w pr log count k sk ssk E Hw HP Hl Hc Hs HE Hsk Hb He glev cg E0 m HE0 Lg Wg out 0 (glwe_new N k) (zpoly N) logg) as (g & E1 & L1 & F1 & P1).
  { lia. } { eapply Forall_impl; [|exact Fo]. intros a Ha. apply Ha. } { assumption. } { rewrite setnth_repeat. reflexivity. }
  exists g. split; [assumption|]. split.
  { apply ggsw_valid_iff. split; [lia|]. eapply Forall_impl; [|exact F1]. intros a (A & B). split; [assumption|]. eapply Forall_impl; [|exact B]. intros b Hb'. apply Hb'. }
  split. { eapply Forall_impl; [|exact F1]. intros a (A & B). exact B. }
  specialize (P1 Hm). split; [lia|]. split. { eapply Forall_impl; [|exact F1]. intros a (A & B). exact A. }
  split.
  - intros i s r Hs' Hr. specialize (P1 i r Hr). cbn [Nat.add] in P1. now rewrite Hs' in P1.
  - intros r Hr. specialize (P1 k r Hr). cbn [Nat.add] in P1. assert (nth_error sk k = None) as EN by (apply nth_error_None; destruct Hsk; lia). rewrite EN in P1. subst r.
    intros j c Hc'. destruct (Hm j c Hc') as (A & B). split; [assumption|]. eapply pnear_weaken; [|exact B]. unfold ss_noise, gadget_bound.
    assert (HN0 : (0 < N)%nat) by (destruct N; [discriminate HP|lia]).
    pose proof (pow_pos' (w - log * Z.of_nat count - 1) ltac:(lia)). pose proof (pow_pos' (log - 1) ltac:(lia)). 
    assert (0 <= 2 ^ (w - log * Z.of_nat count - 1) * (Z.of_nat N * Z.of_nat N)) by (apply Z.mul_nonneg_nonneg; [lia|apply Z.mul_nonneg_nonneg; lia]).
    assert (0 <= Z.of_nat count * (2 ^ (log - 1) * (Z.of_nat N * E))) by (apply Z.mul_nonneg_nonneg; [lia|apply Z.mul_nonneg_nonneg; [lia|apply Z.mul_nonneg_nonneg; lia]]).
    assert (E0 <= Z.of_nat N * E0) by nia. nia.
Qed.
Print Assumptions scheme_switch_correct.

(** The FFT version into a new (zero) GGSW ciphertext. *)
Theorem scheme_switch_fft_correct pr w log count cg N k glev ssk sk E E0 logg m ds D : word w -> is_pow2 N = true -> 1 <= log -> (1 <= count)%nat -> log * Z.of_nat count < w ->
  0 <= E -> 0 <= E0 -> 0 <= D -> polys_shape N k sk -> binary_polys sk -> ssk_enc N k count w log E sk ssk ->
  length glev = cg -> Forall (glwe_wf w N k) glev -> glev_enc N k w logg E0 sk m glev -> (forall i t, fft_err N k D (ds i t)) ->
  exists g, scheme_switch_fft pr w log count cg N k (ggsw_new N k cg) glev ssk ds = Ok g /\ ggsw_valid N k cg g = true /\ Forall (Forall (glwe_wf w N k)) g /\
    ggsw_enc N k cg w logg (ss_noise N k count w log E0 E + D * (1 + Z.of_nat k * Z.of_nat N)) sk m g.
Proof.
  intros Hw HP Hl Hc Hs HE HE0 HD Hsk Hb He Lg Wg Hm Hd. pose proof (word_pos w Hw) as Hwp. unfold scheme_switch_fft. rewrite (ssk_enc_valid _ _ _ _ _ _ _ _ (proj1 Hsk) He).
  assert (Fo : Forall (fun r => length r = cg /\ Forall (glwe_wf w N k) r) (ggsw_new N k cg)).
  { unfold ggsw_new. apply Forall_forall. intros r Hr. apply repeat_spec in Hr. subst. split; [apply repeat_length|]. apply Forall_forall. intros c Hc'. apply repeat_spec in Hc'. subst. apply glwe_new_wf. lia. }
  assert (Lo : length (ggsw_new N k cg) = S k) by (unfold ggsw_new; rewrite repeat_length; lia).
  assert (Hout : ggsw_valid N k cg (ggsw_new N k cg) = true).
  { apply ggsw_valid_iff. split; [lia|]. eapply Forall_impl; [|exact Fo]. intros a (A & B). split; [assumption|]. eapply Forall_impl; [|exact B]. intros b Hb'. apply Hb'. }
  rewrite Hout. rewrite (proj2 (glev_valid_iff N k cg glev)). 2:{ split; [assumption|]. eapply Forall_impl; [|exact Wg]. intros a Ha. apply Ha. }
  cbn [andb].
  destruct (ss_rows_fft_ok N w pr log count k sk ssk E Hw HP Hl Hc Hs HE Hsk Hb He glev cg D HD Lg Wg (ggsw_new N k cg) 0 ds ltac:(lia) Fo Hd) as (g & E1 & L1 & F1 & P1).
  exists g. split; [assumption|]. split.
  { apply ggsw_valid_iff. split; [lia|]. eapply Forall_impl; [|exact F1]. intros a (A & B). split; [assumption|]. eapply Forall_impl; [|exact B]. intros b Hb'. apply Hb'. }
  split. { eapply Forall_impl; [|exact F1]. intros a (A & B). exact B. }
  split; [lia|]. split. { eapply Forall_impl; [|exact F1]. intros a (A & B). exact A. }
  assert (New : forall i row t y, nth_error (ggsw_new N k cg) i = Some row -> nth_error row t = Some y -> y = glwe_new N k).
  { intros i row t y H1 H2. apply nth_error_In in H1. unfold ggsw_new in H1. apply repeat_spec in H1. subst row. apply nth_error_In in H2. now apply repeat_spec in H2. }
  assert (Look : forall i row' t y', nth_error g i = Some row' -> nth_error row' t = Some y' -> exists row x, nth_error (ggsw_new N k cg) i = Some row /\ nth_error glev t = Some x /\ nth_error row t = Some (glwe_new N k) /\ glwe_wf w N k y').
  { intros i row' t y' H1 H2. assert (Hi : (i < length g)%nat) by (apply nth_error_Some; congruence). pose proof (nth_error_In _ _ H1) as Hin. destruct (proj1 (Forall_forall _ _) F1 row' Hin) as (Lr & Wr).
    assert (Ht : (t < cg)%nat) by (rewrite <- Lr; apply nth_error_Some; congruence).
    destruct (nth_error (ggsw_new N k cg) i) as [row|] eqn:Er; [|apply nth_error_None in Er; lia].
    destruct (nth_error glev t) as [x|] eqn:Ex; [|apply nth_error_None in Ex; lia].
    destruct (proj1 (Forall_forall _ _) Fo row (nth_error_In _ _ Er)) as (Lr0 & _).
    destruct (nth_error row t) as [y|] eqn:Ey; [|apply nth_error_None in Ey; lia]. exists row, x. split; [reflexivity|]. split; [reflexivity|].
    split; [rewrite <- (New i row t y Er Ey); exact Ey|]. apply (proj1 (Forall_forall _ _) Wr). eapply nth_error_In. eassumption. }
  split.
  - intros i s r Hs' Hr t y' Hy'. destruct (Look i r t y' Hr Hy') as (row & x & A1 & A2 & A3 & A4). split; [apply A4|].
    specialize (P1 i t row r x (glwe_new N k) y' A1 Hr A2 A3 Hy'). cbn [Nat.add] in P1. rewrite Hs' in P1.
    unfold glwe_new in P1. cbn [ga gb] in P1. rewrite setnth_repeat in P1. fold (glwe_new N k) in P1.
    destruct (Hm t x A2) as (_ & Px). unfold ss_noise.
    replace (Z.of_nat N * E0 + Z.of_nat k * gadget_bound N count w log (Z.of_nat N * Z.of_nat N) E + D * (1 + Z.of_nat k * Z.of_nat N))
      with (Z.of_nat k * gadget_bound N count w log (Z.of_nat N * Z.of_nat N) E + D * (1 + Z.of_nat k * Z.of_nat N) + Z.of_nat N * E0) by ring.
    eapply pnear_trans; [eapply pnear_peq; [reflexivity| |exact P1]|].
    + instantiate (1 := popp (pmul N (glwe_phase N sk x) (coef s))). intros q Hq. unfold padd. etransitivity; [apply zeq_add; [apply (glwe_phase_new N w k sk q Hq)|reflexivity]|]. apply zeq_refl'. unfold p0. ring.
    + eapply pnear_peq; [reflexivity| |apply (neg_s_near N w k sk E0 s _ _ Hsk Hb (nth_error_In _ _ Hs') HE0 Px)].
      intros q Hq. unfold popp at 1, pscale at 2, popp. etransitivity; [apply zeq_opp; apply (pmul_scale_l N (2 ^ w) _ m (coef s) q Hq)|]. unfold pscale. apply zeq_refl'. ring.
  - intros r Hr t y' Hy'. destruct (Look k r t y' Hr Hy') as (row & x & A1 & A2 & A3 & A4). split; [apply A4|].
    specialize (P1 k t row r x (glwe_new N k) y' A1 Hr A2 A3 Hy'). cbn [Nat.add] in P1.
    assert (nth_error sk k = None) as EN by (apply nth_error_None; destruct Hsk; lia). rewrite EN in P1. destruct (Hm t x A2) as (_ & Px).
    eapply pnear_weaken; [|eapply pnear_trans; [exact P1|exact Px]]. unfold ss_noise, gadget_bound.
    assert (HN0 : (0 < N)%nat) by (destruct N; [discriminate HP|lia]).
    pose proof (pow_pos' (w - log * Z.of_nat count - 1) ltac:(lia)). pose proof (pow_pos' (log - 1) ltac:(lia)). 
    assert (0 <= 2 ^ (w - log * Z.of_nat count - 1) * (Z.of_nat N * Z.of_nat N)) by (apply Z.mul_nonneg_nonneg; [lia|apply Z.mul_nonneg_nonneg; lia]).
    assert (0 <= Z.of_nat count * (2 ^ (log - 1) * (Z.of_nat N * E))) by (apply Z.mul_nonneg_nonneg; [lia|apply Z.mul_nonneg_nonneg; [lia|apply Z.mul_nonneg_nonneg; lia]]).
    assert (E0 <= Z.of_nat N * E0) by nia. 
    assert (0 <= Z.of_nat k * (2 ^ (w - log * Z.of_nat count - 1) * (Z.of_nat N * Z.of_nat N) + Z.of_nat count * (2 ^ (log - 1) * (Z.of_nat N * E)))) by (apply Z.mul_nonneg_nonneg; lia).
    lia.
Qed.
Print Assumptions scheme_switch_fft_correct.

(** Into a buffer that already holds a ciphertext the FFT version does not overwrite: every entry of the key
    rows keeps the old ciphertext (with mask polynomial j removed) added to the result. *)
Theorem scheme_switch_fft_accumulates_refuted pr w log count cg N k out glev ssk sk E ds D : word w -> is_pow2 N = true -> 1 <= log -> (1 <= count)%nat -> log * Z.of_nat count < w ->
  0 <= E -> 0 <= D -> polys_shape N k sk -> binary_polys sk -> ssk_enc N k count w log E sk ssk ->
  length out = S k -> Forall (fun r => length r = cg /\ Forall (glwe_wf w N k) r) out -> length glev = cg -> Forall (glwe_wf w N k) glev -> (forall i t, fft_err N k D (ds i t)) ->
  exists g, scheme_switch_fft pr w log count cg N k out glev ssk ds = Ok g /\
    forall j t s row row' x y y', nth_error sk j = Some s -> nth_error out j = Some row -> nth_error g j = Some row' ->
      nth_error glev t = Some x -> nth_error row t = Some y -> nth_error row' t = Some y' ->
      pnear N w (Z.of_nat k * gadget_bound N count w log (Z.of_nat N * Z.of_nat N) E + D * (1 + Z.of_nat k * Z.of_nat N)) (glwe_phase N sk y')
        (padd (glwe_phase N sk {| ga := setnth (ga y) j (zpoly N); gb := gb y |}) (popp (pmul N (glwe_phase N sk x) (coef s)))).
Proof.
  intros Hw HP Hl Hc Hs HE HD Hsk Hb He Lo Fo Lg Wg Hd. unfold scheme_switch_fft. rewrite (ssk_enc_valid _ _ _ _ _ _ _ _ (proj1 Hsk) He).
  assert (Hout : ggsw_valid N k cg out = true).
  { apply ggsw_valid_iff. split; [lia|]. eapply Forall_impl; [|exact Fo]. intros a (A & B). split; [assumption|]. eapply Forall_impl; [|exact B]. intros b Hb'. apply Hb'. }
  rewrite Hout. rewrite (proj2 (glev_valid_iff N k cg glev)). 2:{ split; [assumption|]. eapply Forall_impl; [|exact Wg]. intros a Ha. apply Ha. }
  cbn [andb]. destruct (ss_rows_fft_ok N w pr log count k sk ssk E Hw HP Hl Hc Hs HE Hsk Hb He glev cg D HD Lg Wg out 0 ds ltac:(lia) Fo Hd) as (g & E1 & L1 & F1 & P1).
  exists g. split; [assumption|]. intros j t s row row' x y y' Hs' H1 H2 Hx Hy Hy'. specialize (P1 j t row row' x y y' H1 H2 Hx Hy Hy'). cbn [Nat.add] in P1. now rewrite Hs' in P1.
Qed.
Print Assumptions scheme_switch_fft_accumulates_refuted.

(** ** A concrete case: degree 8, two GGSW levels; decrypting the GGSW row of s_0 gives - m s_0. *)
Definition ex_fmul (s t : list Z) : list Z := match poly_mad 64 (zpoly 8) s t with Ok p => p | _ => [] end.
Definition ex_srnd (i : nat) : list (list (list Z) * option (list Z)) :=
  map (fun c => ([map (fun j => (Z.of_nat (i + 7 * c + j + 1) * 0x9E3779B97F4A7C15) mod 2 ^ 64) (seq 0 8)],
     Some (map (fun j => (Z.of_nat ((i + c + j) mod 9) - 4) mod 2 ^ 64) (seq 0 8)))) (seq 0 4).
Definition ex_switch (reuse : bool) : res (list Z) :=
  ssk <- generate_ssk Release 64 14 4 8 1 (repeat (repeat (glwe_new 8 1) 4) 1) ex_sk ex_fmul ex_srnd ;;
  glev <- glev_encrypt Release 64 3 2 8 1 (repeat (glwe_new 8 1) 2) (1 :: repeat 0 7) ex_sk (firstn 2 (ex_srnd 5)) ;;
  let out := ggsw_new 8 1 2 in
  out <- (if reuse then scheme_switch_fft Release 64 14 4 2 8 1 out glev ssk (fun i j => ex_err (i + j)) else Ok out) ;;
  g <- scheme_switch_fft Release 64 14 4 2 8 1 out glev ssk (fun i j => ex_err (i + j)) ;;
  match nth_error g 0 with Some row => glev_decrypt_at Release 64 3 2 8 1 (zpoly 8) row ex_sk 0 | None => Panic end.
Example scheme_switch_run : ex_switch false = Ok (map (fun b => (- b) mod 8) (nth 0 ex_sk [])).
Proof. vm_compute. reflexivity. Qed.
Example scheme_switch_reuse_run : ex_switch true <> ex_switch false.
Proof. vm_compute. discriminate. Qed.
