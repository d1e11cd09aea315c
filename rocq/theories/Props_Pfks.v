(** Theorems about private and public functional key switching and the circuit bootstrap built on them. *)
From Verif Require Import Base Alu AluProofs MuxGraph MuxGraphProofs PolyRing Tfhe TfheGlwe TfheBoot TfheTrace TfheSwitch TfheCbs TfhePfks SpecTfhe SpecGlwe SpecBoot SpecTrace SpecSwitch SpecCbs SpecPfks FluentIntProofs TfheProofs TfheProofs2 TfheProofs3 TfheGlweProofs TfheGlweProofs2 TfheGlweProofs3 TfheGlweProofs4 TfheBootProofs TfheBootProofs2 TfheBootProofs3 TfheBootProofs4 TfheCbsProofs TfhePfksProofs TfhePfksProofs2 TfhePfksProofs3 Props_Boot Props_Cbs.
Ltac Zify.zify_post_hook ::= idtac.
Open Scope Z_scope.

(** * C85: private functional key switching *)

(** Key generation, for a map that writes all N coefficients of the polynomial it is handed (which the code clears
    before each call). *)
Theorem private_keyswitch_key_correct pr w log count n N k p f key s sk rnd E :
  word w -> glwe_dim_valid N k = true -> (1 <= n)%nat -> (1 <= p)%nat ->
  1 <= log -> (1 <= count)%nat -> log * Z.of_nat count <= w -> length s = n -> polys_shape N k sk -> 0 <= E ->
  (forall x, length x = p -> toruses w x -> length (f (repeat 0 N) x) = N) ->
  length key = (p * (n + 1))%nat -> Forall (fun g => length g = count /\ Forall (glwe_fresh N k) g) key ->
  length rnd = (p * (n + 1))%nat -> Forall (fun r => length r = count /\ Forall (glwe_rnd_ok N k w E) r) rnd ->
  exists key', generate_pfksk pr w log count n N k p f key s sk rnd = Ok key' /\ pfksk_enc n N k p count w log E s sk (f (repeat 0 N)) key'.
Proof. exact (generate_pfksk_ok N w pr log count n k p f key s sk rnd E). Qed.
Print Assumptions private_keyswitch_key_correct.

(** Switching into a fresh output: the result encrypts F of the messages, with the stated noise. *)
Theorem private_keyswitch_correct h pr w log count n N k p inputs key s sk F R E :
  word w -> smad_exact h pr w N -> glwe_dim_valid N k = true -> (1 <= n)%nat -> (1 <= p)%nat ->
  1 <= log -> (1 <= count)%nat -> log * Z.of_nat count < w ->
  length inputs = p -> Forall (lwe_wf w n) inputs ->
  0 <= E -> binary s -> morphism N w p F -> lipschitz N w p R F -> pfksk_enc n N k p count w log E s sk F key ->
  exists r, pfks h pr w log count n N k p (glwe_new N k) inputs key = Ok r /\ glwe_wf w N k r /\
    pnear N w (pfks_noise n p count w log R E) (glwe_phase N sk r) (coef (F (phases w s inputs))).
Proof.
  intros Hw Hsm Hdim Hn Hp Hl Hc Hlc Li Wi HE Hs HF HR Henc. pose proof (word_pos w Hw).
  assert (Hv : pfksk_valid n N k p count key = true) by (apply pfksk_valid_iff; split; apply Henc).
  destruct (pfks_ok N w h pr log count n k p (glwe_new N k) inputs key) as (r & E1 & W1 & P1); try assumption; [apply (glwe_new_wf N w k); lia|].
  exists r. split; [assumption|]. split; [assumption|]. eapply pnear_peq; [reflexivity| |exact (P1 s sk F R E HE Hs HF HR Henc)].
  intros j Hj. unfold psub. transitivity (coef (F (phases w s inputs)) j - 0); [apply zeq_sub; [reflexivity|exact (glwe_phase_new N w k sk j Hj)]|apply zeq_refl'; ring].
Qed.
Print Assumptions private_keyswitch_correct.

(** Into an output that already holds a ciphertext the old message is subtracted: the result is a correct encryption
    (within any noise bound B) only if the old message was within B plus the noise of zero. *)
Theorem private_keyswitch_reuse_refuted h pr w log count n N k p out inputs key s sk F R E :
  word w -> smad_exact h pr w N -> glwe_dim_valid N k = true -> (1 <= n)%nat -> (1 <= p)%nat ->
  1 <= log -> (1 <= count)%nat -> log * Z.of_nat count < w ->
  glwe_shape N k out -> length inputs = p -> Forall (lwe_wf w n) inputs ->
  0 <= E -> binary s -> morphism N w p F -> lipschitz N w p R F -> pfksk_enc n N k p count w log E s sk F key ->
  exists r, pfks h pr w log count n N k p out inputs key = Ok r /\
    pnear N w (pfks_noise n p count w log R E) (glwe_phase N sk r) (psub (coef (F (phases w s inputs))) (glwe_phase N sk out)) /\
    forall B, pnear N w B (glwe_phase N sk r) (coef (F (phases w s inputs))) ->
      pnear N w (B + pfks_noise n p count w log R E) (glwe_phase N sk out) p0.
Proof.
  intros Hw Hsm Hdim Hn Hp Hl Hc Hlc So Li Wi HE Hs HF HR Henc.
  assert (Hv : pfksk_valid n N k p count key = true) by (apply pfksk_valid_iff; split; apply Henc).
  destruct (pfks_ok N w h pr log count n k p out inputs key) as (r & E1 & W1 & P1); try assumption.
  specialize (P1 s sk F R E HE Hs HF HR Henc). exists r. split; [assumption|]. split; [assumption|]. intros B HB.
  destruct HB as (e1 & B1 & Q1). destruct P1 as (e2 & B2 & Q2). exists (psub e2 e1). split.
  - intros j Hj. specialize (B1 j Hj). specialize (B2 j Hj). unfold psub. lia.
  - intros j Hj. specialize (Q1 j Hj). specialize (Q2 j Hj). unfold padd, psub, p0 in *.
    set (o := glwe_phase N sk out j) in *. set (g := coef (F (phases w s inputs)) j) in *. set (y := glwe_phase N sk r j) in *.
    transitivity (g + e2 j - (g - o + e2 j)); [apply zeq_refl'; ring|]. transitivity (g + e2 j - y); [apply zeq_sub; [reflexivity|symmetry; exact Q2]|].
    transitivity (g + e2 j - (g + e1 j)); [apply zeq_sub; [reflexivity|exact Q1]|apply zeq_refl'; ring].
Qed.
Print Assumptions private_keyswitch_reuse_refuted.

(** A radix that fills the word (log * count = w) passes the validity check, but in debug builds every switch with it
    aborts. *)
Theorem private_keyswitch_full_radix_refuted h w log count n N k p out inputs key :
  word w -> 1 <= log -> (1 <= count)%nat -> log * Z.of_nat count = w -> (1 <= n)%nat -> (1 <= p)%nat ->
  radix_valid w log count = true /\ pfks h Debug w log count n N k p out inputs key = Panic.
Proof.
  intros Hw Hl Hct Hlc Hn Hp. split; [apply radix_valid_iff; repeat split; lia|]. unfold pfks. destruct (_ && _) eqn:Hc; [|reflexivity].
  apply andb_true_iff in Hc as [_ Hc]. apply Nat.eqb_eq in Hc. destruct inputs as [|c inputs]; [cbn in Hc; lia|]. cbn [pfks_inputs_loop].
  destruct (Nat.ltb_spec (length (lwe_a c ++ [lwe_b c])) (n + 1)); [reflexivity|].
  destruct (lwe_a c ++ [lwe_b c]) as [|x ab]; [cbn in *; lia|]. rewrite Nat.add_1_r. cbn [firstn pfks_input_loop].
  destruct key as [|glev key]; [reflexivity|]. unfold scalar_glev_mad, scalar_digits, radix_round. rewrite Hlc.
  assert (U : usub Debug 64 w w = Ok 0) by (unfold usub; rewrite Z.leb_refl, Z.sub_diag; reflexivity).
  rewrite U. reflexivity.
Qed.
Print Assumptions private_keyswitch_full_radix_refuted.

(** * C97: circuit bootstrapping through private functional key switching *)

Theorem circuit_bootstrap_pfks_keys_correct pr w log count n N k keys s sk rnd E :
  word w -> glwe_dim_valid N k = true -> (1 <= n)%nat -> 1 <= log -> (1 <= count)%nat -> log * Z.of_nat count <= w ->
  length s = n -> polys_shape N k sk -> 0 <= E -> length keys = S k ->
  Forall (fun key => length key = (n + 1)%nat /\ Forall (fun g => length g = count /\ Forall (glwe_fresh N k) g) key) keys ->
  (forall i, length (rnd i) = (n + 1)%nat /\ Forall (fun r => length r = count /\ Forall (glwe_rnd_ok N k w E) r) (rnd i)) ->
  exists keys', generate_cbsksk pr w log count n N k keys s sk rnd = Ok keys' /\ cbsksk_enc n N k count w log E s sk keys'.
Proof.
  intros Hw Hdim Hn Hl Hc Hlc Ls Hsk HE Lk Fk Hr. destruct (dim_valid N k Hdim) as (HP & HN0 & Hk). pose proof (word_pos w Hw).
  unfold generate_cbsksk.
  assert (Hv : cbsksk_valid n N k count keys = true).
  { unfold cbsksk_valid. rewrite (proj2 (Nat.eqb_eq _ _)) by lia. cbn [andb]. apply forallb_forall. intros key Hkey. destruct (proj1 (Forall_forall _ _) Fk key Hkey) as [A B].
    apply pfksk_valid_iff. split; [lia|]. eapply Forall_impl; [|exact B]. cbv beta. intros g [C D]. split; [assumption|]. now apply fresh_shapes. }
  rewrite Hv, (proj2 (Nat.eqb_eq _ _) Ls), Hdim, (proj2 (polys_valid_iff N k sk) Hsk), (proj2 (radix_valid_iff w log count)) by auto.
  unfold lwe_dim_valid. destruct (Nat.eqb_spec n 0); [lia|]. cbn [andb negb].
  destruct (cb_keys_loop_ok N w pr log count n k s sk E Hw Hdim Hn Hl Hc Hlc Ls Hsk HE (firstn k keys) sk rnd) as (ks & E1 & P1).
  { rewrite firstn_length_le by lia. symmetry. apply Hsk. } { apply Hsk. }
  { apply Forall_forall. intros x Hx. apply (proj1 (Forall_forall _ _) Fk). rewrite <- (firstn_skipn k keys). apply in_or_app. now left. } { assumption. }
  rewrite E1. cbn [bind]. destruct (nth_error keys k) as [b|] eqn:Eb; [|apply nth_error_None in Eb; lia].
  destruct (proj1 (Forall_forall _ _) Fk b (nth_error_In _ _ Eb)) as [Lb Fb]. destruct (Hr k) as [Lr Fr].
  destruct (generate_pfksk_ok N w pr log count n k 1 cb_map_b b s sk (rnd k) E) as (b' & E2 & P2); try assumption; try lia.
  { intros x _ _. rewrite cb_map_b_eq by lia. unfold constant. cbn [length]. rewrite repeat_length. lia. }
  rewrite E2. cbn [bind]. exists (ks ++ [b']). split; [reflexivity|].
  assert (Lks : length ks = k). { rewrite <- (Forall2_len _ _ _ P1). apply Hsk. }
  split; [rewrite app_length; cbn [length]; lia|]. split.
  - intros i si key Hi Hkey. assert (Hik : (i < k)%nat). { rewrite <- (proj1 Hsk). apply nth_error_Some. congruence. }
    rewrite nth_error_app1 in Hkey by lia. exact (Forall2_nth_r _ _ _ i si key P1 Hi Hkey).
  - intros key Hkey. rewrite nth_error_app2 in Hkey by lia. rewrite Lks, Nat.sub_diag in Hkey. cbn [nth_error] in Hkey. inversion Hkey; subst key.
    eapply pfksk_enc_ext; [lia| |exact P2]. intros. apply cb_map_b_eq. lia.
Qed.
Print Assumptions circuit_bootstrap_pfks_keys_correct.

(** The general step: entry t of row i of the result. *)
Lemma cbs_pfks_entries h pr w lp lf log cp cf count n N2 k2 N1 k1 out input bsk keys scr scg ex scl d1 D sk1 sk2 s Eb Ef B m :
  let L := Z.of_nat (Nat.log2 N2) + 1 in
  word w -> glwe_dim_valid N2 k2 = true -> glwe_dim_valid N1 k1 = true -> add_exact h pr w -> sub_exact h pr w -> smad_exact h pr w N1 -> L < w -> 0 <= D -> 0 <= Eb -> 0 <= Ef ->
  1 <= lp -> (1 <= cp)%nat -> lp * Z.of_nat cp < w -> 1 <= lf -> (1 <= cf)%nat -> lf * Z.of_nat cf < w ->
  1 <= log -> (1 <= count < 8)%nat -> log * Z.of_nat count + 1 < w ->
  (1 <= n)%nat -> polys_shape N2 k2 sk2 -> binary_polys sk2 -> polys_shape N1 k1 sk1 -> binary_polys sk1 -> binary s -> length s = n ->
  bsk_enc N2 k2 cp w lp Eb sk2 s bsk -> cbsksk_enc (k2 * N2) N1 k1 cf w lf Ef (to_lwe_sk sk2) sk1 keys ->
  length (lwe_a scr) = n -> glwe_shape N2 k2 scg -> length (lwe_a ex) = (k2 * N2)%nat ->
  length scl = count -> Forall (fun o => length (lwe_a o) = (k2 * N2)%nat) scl -> (forall i, fft_err N2 k2 D (d1 i)) ->
  0 <= B -> B + (Z.of_nat n + 1) * 2 ^ (w - L + Z.of_nat (log_slots count) - 1) < 2 ^ (w - 2) ->
  lwe_wf w n input -> 0 <= m < 2 -> near w B (lwe_phase s input) (m * 2 ^ (w - 1)) ->
  ggsw_valid N1 k1 count out = true ->
  exists g, circuit_bootstrap_pfks h pr w lp lf log cp cf count n N2 k2 N1 k1 out input bsk keys scr scg ex scl d1 = Ok g /\
    length g = S k1 /\ Forall (fun r => length r = count /\ Forall (glwe_wf w N1 k1) r) g /\
    forall i t row row' y y', nth_error out i = Some row -> nth_error g i = Some row' -> nth_error row t = Some y -> nth_error row' t = Some y' ->
      pnear N1 w (pfks_noise (k2 * N2) 1 cf w lf 1 Ef + Z.of_nat n * cmux_noise N2 k2 cp w lp Eb D) (glwe_phase N1 sk1 y')
        (psub (pscale (2 ^ (w - log * (Z.of_nat t + 1))) (match nth_error sk1 i with Some si => popp (pmul N1 (pconst m) (coef si)) | None => pconst m end)) (glwe_phase N1 sk1 y)).
Proof.
  intros L Hw Hd2 Hd1 Hadd Hsub Hsm HLw HD HEb HEf Hlp Hcp Hlcp Hlf Hcf Hlcf Hlog Hcnt Hlc Hn Hsk2 Hb2 Hsk1 Hb1 Hs Ls Hbsk Hkeys Hscr Hscg Hex Lscl Fscl Hd HB HBn Hin Hm Hnear Hout.
  destruct (dim_valid N2 k2 Hd2) as (HP2 & HN2 & Hk2). destruct (dim_valid N1 k1 Hd1) as (HP1 & HN1 & Hk1). pose proof (word_pos w Hw) as Wp.
  assert (Hn2 : (1 <= k2 * N2)%nat) by nia.
  destruct (cbs_hi_noise_ok h pr w lp log cp count n N2 k2 input bsk scr scg d1 D sk2 s Eb B m) as (lo & E1 & W1 & HcN & P1); try assumption.
  destruct (extract_rotate_ok N2 w log k2 lo Hw Hlog W1 scl ex 0 count ltac:(lia) HcN Hlc Hex Fscl) as (os & E2 & L2 & W2 & P2).
  assert (Hbs : binary (to_lwe_sk sk2)). { unfold to_lwe_sk, binary. clear - Hb2. induction Hb2; cbn [concat]; [constructor|]. apply Forall_app. auto. }
  destruct Hkeys as (Lk & Hka & Hkb).
  assert (Hkv : forallb (pfksk_valid (k2 * N2) N1 k1 1 cf) keys = true).
  { apply forallb_forall. intros key Hkey. apply In_nth_error in Hkey as (i & Hi). assert (i < S k1)%nat by (rewrite <- Lk; apply nth_error_Some; congruence).
    apply pfksk_valid_iff. destruct (Nat.eq_dec i k1) as [->|Hne]; [split; apply (Hkb key Hi)|].
    destruct (nth_error sk1 i) as [si|] eqn:Es; [|apply nth_error_None in Es; rewrite (proj1 Hsk1) in Es; lia]. split; apply (Hka i si key Es Hi). }
  pose proof Hout as Hout'. apply ggsw_valid_iff in Hout' as (Lo & Fo).
  destruct (apply_pfks_ok N1 w h pr lf cf (k2 * N2) k1 Hw Hsm Hd1 Hn2 Hlf Hcf Hlcf os out keys count ltac:(congruence) ltac:(congruence) Fo W2 Hkv) as (g & E3 & L3 & W3 & P3).
  exists g. split.
  { unfold circuit_bootstrap_pfks. rewrite Hd1, Hd2. unfold lwe_dim_valid. destruct (Nat.eqb_spec n 0); [lia|].
    rewrite (proj2 (radix_valid_iff w lp cp)), (proj2 (radix_valid_iff w log count)), (proj2 (radix_valid_iff w lf cf)) by (repeat split; (assumption || lia)).
    unfold cbsksk_valid. rewrite (proj2 (Nat.eqb_eq (length keys) (k1 + 1))) by lia. rewrite Hkv. pose proof (bsk_enc_valid N2 k2 cp w lp Eb sk2 s bsk Hbsk) as Hbv. rewrite Ls in Hbv. rewrite Hbv, Hout.
    unfold lwe_valid. rewrite (proj1 Hin), Nat.eqb_refl. cbn [andb negb]. rewrite E1. cbn [bind]. rewrite E2. cbn [bind]. exact E3. }
  split; [congruence|]. split; [assumption|]. intros i t row row' y y' Hr Hr' Hy Hy'.
  assert (Hi : (i < S k1)%nat) by (rewrite <- Lo; apply nth_error_Some; congruence).
  assert (Ht : (t < count)%nat). { destruct (proj1 (Forall_forall _ _) Fo row (nth_error_In _ _ Hr)) as (Lr & _). rewrite <- Lr. apply nth_error_Some. congruence. }
  destruct (nth_error keys i) as [key|] eqn:Ek; [|apply nth_error_None in Ek; lia].
  destruct (nth_error os t) as [d|] eqn:Ed; [|apply nth_error_None in Ed; lia].
  assert (Nd : near w (Z.of_nat n * cmux_noise N2 k2 cp w lp Eb D) (lwe_phase (to_lwe_sk sk2) d) (m * 2 ^ (w - log * (Z.of_nat t + 1)))).
  { eapply near_congr; [symmetry; exact (P2 sk2 t d Hsk2 Ed)|reflexivity|]. exact (P1 t Ht). }
  set (NB := Z.of_nat n * cmux_noise N2 k2 cp w lp Eb D) in *. set (fac := 2 ^ (w - log * (Z.of_nat t + 1))) in *.
  assert (HNB : 0 <= NB). { destruct Nd as (e & He & _). pose proof (Z.abs_nonneg e). lia. }
  assert (Nx : forall q, (q < 1)%nat -> near w NB (nth q [lwe_phase (to_lwe_sk sk2) d mod 2 ^ w] 0) (nth q [(m * fac) mod 2 ^ w] 0)).
  { intros [|q] Hq; [|lia]. cbn [nth]. eapply near_congr; [symmetry; apply zeq_mod|symmetry; apply zeq_mod|exact Nd]. }
  assert (T1 : forall x, toruses w [x mod 2 ^ w]). { intros x. constructor; [apply Z.mod_pos_bound, pow_pos'; lia|constructor]. }
  assert (Go : forall F, morphism N1 w 1 F -> lipschitz N1 w 1 1 F -> pfksk_enc (k2 * N2) N1 k1 1 cf w lf Ef (to_lwe_sk sk2) sk1 F key ->
    pnear N1 w (pfks_noise (k2 * N2) 1 cf w lf 1 Ef + NB) (glwe_phase N1 sk1 y') (psub (coef (F [(m * fac) mod 2 ^ w])) (glwe_phase N1 sk1 y))).
  { intros F HF HL Henc. eapply pnear_trans; [exact (P3 i key row row' Ek Hr Hr' (to_lwe_sk sk2) sk1 F Ef HEf Hbs HF HL Henc t d y y' Ed Hy Hy')|].
    rewrite <- (Z.add_0_r NB). apply pnear_sub; [|apply pnear_refl; reflexivity]. rewrite <- (Z.mul_1_l NB). apply HL; try assumption; try reflexivity; apply T1. }
  destruct (nth_error sk1 i) as [si|] eqn:Es.
  - assert (Lsi : length si = N1) by (apply (proj1 (Forall_forall _ _) (proj2 Hsk1)); now apply nth_error_In with i).
    assert (Bsi : binary si) by (apply (proj1 (Forall_forall _ _) Hb1); now apply nth_error_In with i).
    specialize (Go (minus_times w si) (minus_times_morphism N1 w si ltac:(lia) Lsi) (minus_times_lipschitz N1 w si ltac:(lia) Lsi Bsi) (Hka i si key Es Ek)).
    eapply pnear_peq; [reflexivity| |exact Go]. intros j Hj. unfold psub. apply zeq_sub; [|reflexivity].
    transitivity (pscale (- nth 0 [(m * fac) mod 2 ^ w] 0) (coef si) j); [exact (minus_times_coef N1 w si _ Lsi j Hj)|]. cbn [nth]. unfold pscale.
    transitivity (- (m * fac) * coef si j); [apply zeq_mul; [apply zeq_opp, zeq_mod|reflexivity]|]. unfold popp.
    transitivity (fac * - (pscale m (coef si) j)); [unfold pscale; apply zeq_refl'; ring|]. apply zeq_mul; [reflexivity|]. apply zeq_opp. symmetry. exact (pconst_mul N1 w m (coef si) j Hj).
  - assert (i = k1). { apply nth_error_None in Es. rewrite (proj1 Hsk1) in Es. lia. } subst i.
    specialize (Go (constant N1) (constant_morphism N1 w ltac:(lia) ltac:(lia)) (constant_lipschitz N1 w) (Hkb key Ek)).
    eapply pnear_peq; [reflexivity| |exact Go]. intros j Hj. unfold psub. apply zeq_sub; [|reflexivity].
    transitivity (pconst ((m * fac) mod 2 ^ w) j); [exact (constant_coef N1 w _ j Hj)|]. unfold pconst, pscale. destruct (j =? 0)%nat; [|apply zeq_refl'; ring].
    transitivity (m * fac); [apply zeq_mod|apply zeq_refl'; ring].
Qed.

(** A bit m, encrypted in one plaintext bit, becomes a GGSW encryption of m under the target key. *)
Theorem circuit_bootstrap_pfks_correct h pr w lp lf log cp cf count n N2 k2 N1 k1 input bsk keys scr scg ex scl d1 D sk1 sk2 s Eb Ef B m :
  let L := Z.of_nat (Nat.log2 N2) + 1 in
  word w -> glwe_dim_valid N2 k2 = true -> glwe_dim_valid N1 k1 = true -> add_exact h pr w -> sub_exact h pr w -> smad_exact h pr w N1 -> L < w -> 0 <= D -> 0 <= Eb -> 0 <= Ef ->
  1 <= lp -> (1 <= cp)%nat -> lp * Z.of_nat cp < w -> 1 <= lf -> (1 <= cf)%nat -> lf * Z.of_nat cf < w ->
  1 <= log -> (1 <= count < 8)%nat -> log * Z.of_nat count + 1 < w ->
  (1 <= n)%nat -> polys_shape N2 k2 sk2 -> binary_polys sk2 -> polys_shape N1 k1 sk1 -> binary_polys sk1 -> binary s -> length s = n ->
  bsk_enc N2 k2 cp w lp Eb sk2 s bsk -> cbsksk_enc (k2 * N2) N1 k1 cf w lf Ef (to_lwe_sk sk2) sk1 keys ->
  length (lwe_a scr) = n -> glwe_shape N2 k2 scg -> length (lwe_a ex) = (k2 * N2)%nat ->
  length scl = count -> Forall (fun o => length (lwe_a o) = (k2 * N2)%nat) scl -> (forall i, fft_err N2 k2 D (d1 i)) ->
  0 <= B -> B + (Z.of_nat n + 1) * 2 ^ (w - L + Z.of_nat (log_slots count) - 1) < 2 ^ (w - 2) ->
  lwe_wf w n input -> 0 <= m < 2 -> near w B (lwe_phase s input) (m * 2 ^ (w - 1)) ->
  exists g, circuit_bootstrap_pfks h pr w lp lf log cp cf count n N2 k2 N1 k1 (ggsw_new N1 k1 count) input bsk keys scr scg ex scl d1 = Ok g /\
    ggsw_valid N1 k1 count g = true /\ Forall (Forall (glwe_wf w N1 k1)) g /\
    ggsw_enc N1 k1 count w log (pfks_noise (k2 * N2) 1 cf w lf 1 Ef + Z.of_nat n * cmux_noise N2 k2 cp w lp Eb D) sk1 (pconst m) g.
Proof.
  intros L Hw Hd2 Hd1 Hadd Hsub Hsm HLw HD HEb HEf Hlp Hcp Hlcp Hlf Hcf Hlcf Hlog Hcnt Hlc Hn Hsk2 Hb2 Hsk1 Hb1 Hs Ls Hbsk Hkeys Hscr Hscg Hex Lscl Fscl Hd HB HBn Hin Hm Hnear.
  pose proof (word_pos w Hw) as Wp.
  assert (Hout : ggsw_valid N1 k1 count (ggsw_new N1 k1 count) = true).
  { apply ggsw_valid_iff. unfold ggsw_new. split; [rewrite repeat_length; lia|]. apply Forall_forall. intros r Hr. apply repeat_spec in Hr. subst r. split; [apply repeat_length|].
    apply Forall_forall. intros c Hc. apply repeat_spec in Hc. subst c. apply (glwe_new_wf N1 w k1). lia. }
  destruct (cbs_pfks_entries h pr w lp lf log cp cf count n N2 k2 N1 k1 (ggsw_new N1 k1 count) input bsk keys scr scg ex scl d1 D sk1 sk2 s Eb Ef B m) as (g & E1 & L1 & W1 & P1); try assumption.
  assert (Pe : forall i t row' y', nth_error g i = Some row' -> nth_error row' t = Some y' -> (i < S k1)%nat /\ glwe_shape N1 k1 y' /\
    pnear N1 w (pfks_noise (k2 * N2) 1 cf w lf 1 Ef + Z.of_nat n * cmux_noise N2 k2 cp w lp Eb D) (glwe_phase N1 sk1 y')
      (pscale (2 ^ (w - log * (Z.of_nat t + 1))) (match nth_error sk1 i with Some si => popp (pmul N1 (pconst m) (coef si)) | None => pconst m end))).
  { intros i t row' y' Hr' Hy'. assert (Hi : (i < S k1)%nat) by (rewrite <- L1; apply nth_error_Some; congruence).
    destruct (proj1 (Forall_forall _ _) W1 row' (nth_error_In _ _ Hr')) as (Lr & Wr).
    assert (Ht : (t < count)%nat) by (rewrite <- Lr; apply nth_error_Some; congruence).
    assert (Hr : nth_error (ggsw_new N1 k1 count) i = Some (repeat (glwe_new N1 k1) count)).
    { unfold ggsw_new. destruct (nth_error (repeat (repeat (glwe_new N1 k1) count) (k1 + 1)) i) as [x|] eqn:Ex; [apply nth_error_In, repeat_spec in Ex; congruence|]. apply nth_error_None in Ex. rewrite repeat_length in Ex. lia. }
    assert (Hy : nth_error (repeat (glwe_new N1 k1) count) t = Some (glwe_new N1 k1)).
    { destruct (nth_error (repeat (glwe_new N1 k1) count) t) as [x|] eqn:Ex; [apply nth_error_In, repeat_spec in Ex; congruence|]. apply nth_error_None in Ex. rewrite repeat_length in Ex. lia. }
    split; [assumption|]. split; [apply (proj1 (Forall_forall _ _) Wr y' (nth_error_In _ _ Hy'))|].
    eapply pnear_peq; [reflexivity| |exact (P1 i t _ row' _ y' Hr Hr' Hy Hy')].
    intros j Hj. unfold psub. match goal with |- zeq _ (?a - _) _ => transitivity (a - 0) end; [apply zeq_sub; [reflexivity|exact (glwe_phase_new N1 w k1 sk1 j Hj)]|apply zeq_refl'; ring]. }
  exists g. split; [assumption|]. split.
  { apply ggsw_valid_iff. split; [assumption|]. eapply Forall_impl; [|exact W1]. cbv beta. intros r [A C]. split; [assumption|]. eapply Forall_impl; [|exact C]. intros c Hc. apply Hc. }
  split. { eapply Forall_impl; [|exact W1]. cbv beta. tauto. }
  split; [assumption|]. split. { eapply Forall_impl; [|exact W1]. cbv beta. tauto. } split.
  - intros i si r Hi Hr t c Hc. destruct (Pe i t r c Hr Hc) as (_ & A & C). rewrite Hi in C. auto.
  - intros r Hr t c Hc. destruct (Pe k1 t r c Hr Hc) as (_ & A & C). rewrite (proj2 (nth_error_None sk1 k1)) in C by (rewrite (proj1 Hsk1); lia). auto.
Qed.
Print Assumptions circuit_bootstrap_pfks_correct.

(** Into an output that already holds a ciphertext, each entry is the intended one minus the old one: the result is a GGSW
    encryption of the bit with noise B only if every old entry was within B plus the noise of zero. *)
Theorem circuit_bootstrap_pfks_reuse_refuted h pr w lp lf log cp cf count n N2 k2 N1 k1 out input bsk keys scr scg ex scl d1 D sk1 sk2 s Eb Ef B m :
  let L := Z.of_nat (Nat.log2 N2) + 1 in
  word w -> glwe_dim_valid N2 k2 = true -> glwe_dim_valid N1 k1 = true -> add_exact h pr w -> sub_exact h pr w -> smad_exact h pr w N1 -> L < w -> 0 <= D -> 0 <= Eb -> 0 <= Ef ->
  1 <= lp -> (1 <= cp)%nat -> lp * Z.of_nat cp < w -> 1 <= lf -> (1 <= cf)%nat -> lf * Z.of_nat cf < w ->
  1 <= log -> (1 <= count < 8)%nat -> log * Z.of_nat count + 1 < w ->
  (1 <= n)%nat -> polys_shape N2 k2 sk2 -> binary_polys sk2 -> polys_shape N1 k1 sk1 -> binary_polys sk1 -> binary s -> length s = n ->
  bsk_enc N2 k2 cp w lp Eb sk2 s bsk -> cbsksk_enc (k2 * N2) N1 k1 cf w lf Ef (to_lwe_sk sk2) sk1 keys ->
  length (lwe_a scr) = n -> glwe_shape N2 k2 scg -> length (lwe_a ex) = (k2 * N2)%nat ->
  length scl = count -> Forall (fun o => length (lwe_a o) = (k2 * N2)%nat) scl -> (forall i, fft_err N2 k2 D (d1 i)) ->
  0 <= B -> B + (Z.of_nat n + 1) * 2 ^ (w - L + Z.of_nat (log_slots count) - 1) < 2 ^ (w - 2) ->
  lwe_wf w n input -> 0 <= m < 2 -> near w B (lwe_phase s input) (m * 2 ^ (w - 1)) -> ggsw_valid N1 k1 count out = true ->
  exists g, circuit_bootstrap_pfks h pr w lp lf log cp cf count n N2 k2 N1 k1 out input bsk keys scr scg ex scl d1 = Ok g /\
    forall B', ggsw_enc N1 k1 count w log B' sk1 (pconst m) g ->
      Forall (Forall (fun y => pnear N1 w (B' + (pfks_noise (k2 * N2) 1 cf w lf 1 Ef + Z.of_nat n * cmux_noise N2 k2 cp w lp Eb D)) (glwe_phase N1 sk1 y) p0)) out.
Proof.
  intros L Hw Hd2 Hd1 Hadd Hsub Hsm HLw HD HEb HEf Hlp Hcp Hlcp Hlf Hcf Hlcf Hlog Hcnt Hlc Hn Hsk2 Hb2 Hsk1 Hb1 Hs Ls Hbsk Hkeys Hscr Hscg Hex Lscl Fscl Hd HB HBn Hin Hm Hnear Hout.
  destruct (cbs_pfks_entries h pr w lp lf log cp cf count n N2 k2 N1 k1 out input bsk keys scr scg ex scl d1 D sk1 sk2 s Eb Ef B m) as (g & E1 & L1 & W1 & P1); try assumption.
  exists g. split; [assumption|]. intros B' (_ & Lg & Ga & Gb). apply ggsw_valid_iff in Hout as (Lo & Fo).
  apply Forall_forall. intros row Hrow. apply In_nth_error in Hrow as (i & Hr). apply Forall_forall. intros y Hy. apply In_nth_error in Hy as (t & Hy).
  assert (Hi : (i < S k1)%nat) by (rewrite <- Lo; apply nth_error_Some; congruence).
  destruct (proj1 (Forall_forall _ _) Fo row (nth_error_In _ _ Hr)) as (Lr & _).
  assert (Ht : (t < count)%nat) by (rewrite <- Lr; apply nth_error_Some; congruence).
  destruct (nth_error g i) as [row'|] eqn:Hr'; [|apply nth_error_None in Hr'; lia].
  destruct (proj1 (Forall_forall _ _) W1 row' (nth_error_In _ _ Hr')) as (Lr' & _).
  destruct (nth_error row' t) as [y'|] eqn:Hy'; [|apply nth_error_None in Hy'; lia].
  specialize (P1 i t row row' y y' Hr Hr' Hy Hy').
  set (M := pscale (2 ^ (w - log * (Z.of_nat t + 1))) (match nth_error sk1 i with Some si => popp (pmul N1 (pconst m) (coef si)) | None => pconst m end)) in *.
  assert (Q : pnear N1 w B' (glwe_phase N1 sk1 y') M).
  { unfold M. destruct (nth_error sk1 i) as [si|] eqn:Es; [apply (Ga i si row' Es Hr' t y' Hy')|].
    assert (i = k1) by (apply nth_error_None in Es; rewrite (proj1 Hsk1) in Es; lia). subst i. apply (Gb row' Hr' t y' Hy'). }
  destruct Q as (e1 & B1 & Q1). destruct P1 as (e2 & B2 & Q2). exists (psub e2 e1). split.
  - intros j Hj. specialize (B1 j Hj). specialize (B2 j Hj). unfold psub. lia.
  - intros j Hj. specialize (Q1 j Hj). specialize (Q2 j Hj). unfold padd, psub, p0 in *.
    set (o := glwe_phase N1 sk1 y j) in *. set (z := glwe_phase N1 sk1 y' j) in *.
    transitivity (M j + e2 j - (M j - o + e2 j)); [apply zeq_refl'; ring|]. transitivity (M j + e2 j - z); [apply zeq_sub; [reflexivity|symmetry; exact Q2]|].
    transitivity (M j + e2 j - (M j + e1 j)); [apply zeq_sub; [reflexivity|exact Q1]|apply zeq_refl'; ring].
Qed.
Print Assumptions circuit_bootstrap_pfks_reuse_refuted.

(** End to end: generate both keys from fresh buffers, encrypt a bit, bootstrap it, select between two ciphertexts with
    it, decrypt. *)
Theorem circuit_bootstrap_pfks_end_to_end h pr w lp lf log cp cf count n N2 k2 N1 k1 bsk0 keys0 rb rf mask e scr scg ex scl d1 d2 D sk1 sk2 s Eb Ef B m out x0 x1 p pt E0 :
  let L := Z.of_nat (Nat.log2 N2) + 1 in
  word w -> glwe_dim_valid N2 k2 = true -> glwe_dim_valid N1 k1 = true -> add_exact h pr w -> sub_exact h pr w -> smad_exact h pr w N1 -> L < w -> 0 <= D -> 0 <= Eb -> 0 <= Ef ->
  1 <= lp -> (1 <= cp)%nat -> lp * Z.of_nat cp < w -> 1 <= lf -> (1 <= cf)%nat -> lf * Z.of_nat cf < w ->
  1 <= log -> (1 <= count < 8)%nat -> log * Z.of_nat count + 1 < w ->
  (1 <= n)%nat -> polys_shape N2 k2 sk2 -> binary_polys sk2 -> polys_shape N1 k1 sk1 -> binary_polys sk1 -> binary s -> length s = n ->
  length bsk0 = n -> Forall (fun g => length g = S k2 /\ Forall (fun r => length r = cp /\ Forall (glwe_fresh N2 k2) r) g) bsk0 -> (forall i, ggsw_rnd_ok N2 k2 cp w Eb (rb i)) ->
  length keys0 = S k1 -> Forall (fun key => length key = (k2 * N2 + 1)%nat /\ Forall (fun g => length g = cf /\ Forall (glwe_fresh N1 k1) g) key) keys0 ->
  (forall i, length (rf i) = (k2 * N2 + 1)%nat /\ Forall (fun r => length r = cf /\ Forall (glwe_rnd_ok N1 k1 w Ef) r) (rf i)) ->
  length (lwe_a scr) = n -> glwe_shape N2 k2 scg -> length (lwe_a ex) = (k2 * N2)%nat ->
  length scl = count -> Forall (fun o => length (lwe_a o) = (k2 * N2)%nat) scl -> (forall i, fft_err N2 k2 D (d1 i)) -> fft_err N1 k1 D d2 ->
  0 <= B -> B + (Z.of_nat n + 1) * 2 ^ (w - L + Z.of_nat (log_slots count) - 1) < 2 ^ (w - 2) ->
  length mask = n -> toruses w mask -> near w B e 0 -> 0 <= m < 2 ->
  glwe_shape N1 k1 out -> glwe_wf w N1 k1 x0 -> glwe_wf w N1 k1 x1 -> 0 < p < w -> p < 32 -> length pt = N1 ->
  pnear N1 w E0 (glwe_phase N1 sk1 (if m =? 1 then x1 else x0)) (pscale (2 ^ (w - p)) (coef pt)) ->
  cmux_noise N1 k1 count w log (pfks_noise (k2 * N2) 1 cf w lf 1 Ef + Z.of_nat n * cmux_noise N2 k2 cp w lp Eb D) D + E0 < 2 ^ (w - p - 1) ->
  exists bsk keys c g r, generate_bsk pr w lp cp n N2 k2 bsk0 s sk2 rb = Ok bsk /\
    generate_cbsksk pr w lf cf (k2 * N2) N1 k1 keys0 (to_lwe_sk sk2) sk1 rf = Ok keys /\ lwe_sk_encrypt w n s m 1 mask e = Ok c /\
    circuit_bootstrap_pfks h pr w lp lf log cp cf count n N2 k2 N1 k1 (ggsw_new N1 k1 count) c bsk keys scr scg ex scl d1 = Ok g /\
    cmux h pr w log count N1 k1 out x0 x1 g d2 = Ok r /\
    glwe_decrypt_decode pr w N1 k1 sk1 r p = Ok (map (fun x => x mod 2 ^ p) pt).
Proof.
  intros L Hw Hd2 Hd1 Hadd Hsub Hsm HLw HD HEb HEf Hlp Hcp Hlcp Hlf Hcf Hlcf Hlog Hcnt Hlc Hn Hsk2 Hb2 Hsk1 Hb1 Hs Ls
    Lb Fb Hrb Lk Fk Hrf Hscr Hscg Hex Lscl Fscl Hd Hdd HB HBn Lm Tm He Hm Hout H0 H1 Hp Hp' Lp Hpt Hnoise.
  destruct (dim_valid N2 k2 Hd2) as (HP2 & HN2 & Hk2). destruct (dim_valid N1 k1 Hd1) as (HP1 & HN1 & Hk1). pose proof (near_word_pow w Hw) as Wp.
  destruct (generate_bsk_ok N2 w pr lp cp k2 Hw Hd2 Hlp Hcp Hlcp n bsk0 s sk2 Eb rb Hn Hs Ls Hsk2 HEb Lb Fb Hrb) as (bsk & E1 & P1).
  assert (Ll : length (to_lwe_sk sk2) = (k2 * N2)%nat).
  { unfold to_lwe_sk. destruct Hsk2 as [A C]. subst k2. clear - C. induction C; cbn [concat length]; [reflexivity|]. rewrite app_length. lia. }
  destruct (circuit_bootstrap_pfks_keys_correct pr w lf cf (k2 * N2) N1 k1 keys0 (to_lwe_sk sk2) sk1 rf Ef) as (keys & E2 & P2); try assumption; try nia.
  destruct (lwe_sk_encrypt_near w n s m 1 mask e B Hw Hn Ls Lm Tm ltac:(lia) He) as (c & E4 & W4 & P4).
  destruct (circuit_bootstrap_pfks_correct h pr w lp lf log cp cf count n N2 k2 N1 k1 c bsk keys scr scg ex scl d1 D sk1 sk2 s Eb Ef B m) as (g & E5 & V5 & W5 & P5); try assumption.
  destruct (cmux_ok N1 w h pr log count k1 out x0 x1 g d2 D Hw Hd1 Hadd Hsub Hlog ltac:(lia) ltac:(lia) Hout H0 H1 V5 HD Hdd) as (r & E6 & W6 & P6).
  exists bsk, keys, c, g, r. repeat (split; [assumption|]).
  set (NZ := pfks_noise (k2 * N2) 1 cf w lf 1 Ef + Z.of_nat n * cmux_noise N2 k2 cp w lp Eb D) in *.
  assert (HE : 0 <= NZ).
  { destruct P5 as (A1 & A2 & _ & A4). destruct (nth_error g k1) as [row|] eqn:Er; [|apply nth_error_None in Er; lia].
    pose proof (proj1 (Forall_forall _ _) A2 row (nth_error_In _ _ Er)) as Lr. cbv beta in Lr. destruct (nth_error row 0) as [y|] eqn:Ey; [|apply nth_error_None in Ey; lia].
    destruct (A4 row eq_refl 0%nat y Ey) as (_ & (ee & Be & _)). specialize (Be 0%nat HN1). pose proof (Z.abs_nonneg (ee 0%nat)). lia. }
  specialize (P6 sk1 m _ Hsk1 Hb1 ltac:(lia) HE P5).
  apply (glwe_decode_ok N1 w pr k1 sk1 r p pt (cmux_noise N1 k1 count w log NZ D + E0)); try assumption.
  eapply pnear_trans; [exact P6|]. unfold penc. destruct (m =? 1); exact Hpt.
Qed.
Print Assumptions circuit_bootstrap_pfks_end_to_end.

Theorem circuit_bootstrap_pfks_count_refused h pr w lp lf log cp cf count n N2 k2 N1 k1 out input bsk keys scr scg ex scl d1 : (8 <= count)%nat ->
  circuit_bootstrap_pfks h pr w lp lf log cp cf count n N2 k2 N1 k1 out input bsk keys scr scg ex scl d1 = Panic.
Proof. intros H. unfold circuit_bootstrap_pfks, cbs_hi_noise. destruct (_ && _); [|reflexivity]. destruct (Nat.ltb_spec count 8); [lia|]. reflexivity. Qed.
Print Assumptions circuit_bootstrap_pfks_count_refused.

(** * C98: public functional key switching *)

Theorem public_keyswitch_key_correct pr w log count n N k key s sk rnd E :
  word w -> glwe_dim_valid N k = true -> 1 <= log -> (1 <= count)%nat -> log * Z.of_nat count <= w -> length s = n -> polys_shape N k sk -> 0 <= E ->
  length key = n -> Forall (fun g => length g = count /\ Forall (glwe_fresh N k) g) key ->
  length rnd = n -> Forall (fun r => length r = count /\ Forall (glwe_rnd_ok N k w E) r) rnd ->
  exists key', generate_pufksk pr w log count n N k key s sk rnd = Ok key' /\ pufksk_enc N k count w log E s sk key'.
Proof.
  intros Hw Hdim Hl Hc Hlc Ls Hsk HE Lk Fk Lr Fr. destruct (dim_valid N k Hdim) as (HP & HN0 & Hk).
  unfold generate_pufksk. rewrite (proj2 (Nat.eqb_eq _ _) Ls), (proj2 (polys_valid_iff N k sk) Hsk). rewrite (proj2 (pufksk_valid_iff N n k count key)).
  2:{ split; [assumption|]. eapply Forall_impl; [|exact Fk]. cbv beta. intros g [A C]. split; [assumption|]. now apply fresh_shapes. }
  cbn [andb]. apply (pufks_key_loop_ok N w pr log count k sk E); try assumption; try lia. { apply zpoly_len. } { intros i _. unfold zpoly. apply nth_repeat. }
Qed.
Print Assumptions public_keyswitch_key_correct.

(** With a map that writes every coefficient whatever the polynomial held before, the result encrypts F of the messages,
    whatever the output and the scratch polynomial held. *)
Theorem public_keyswitch_correct pr w log count n N k f F out inputs key scp d D s sk E :
  word w -> glwe_dim_valid N k = true -> 1 <= log -> (1 <= count)%nat -> log * Z.of_nat count < w ->
  Forall (lwe_wf w n) inputs -> (length inputs <= N)%nat ->
  morphism N w (length inputs) F -> (forall old x, poly_wf w N old -> length x = length inputs -> toruses w x -> f old x = F x) ->
  glwe_shape N k out -> poly_wf w N scp -> 0 <= D -> fft_err N k D d ->
  0 <= E -> binary s -> length s = n -> polys_shape N k sk -> binary_polys sk -> pufksk_enc N k count w log E s sk key ->
  exists r, pufks pr w log count n N k f out inputs key scp d = Ok r /\ glwe_wf w N k r /\
    pnear N w (pufks_noise n N k count w log E D) (glwe_phase N sk r) (coef (F (phases w s inputs))).
Proof.
  intros Hw Hdim Hl Hc Hlc Wi Li HF HfF So Wp HD Hd HE Hs Ls Hsk Hbin Henc. pose proof (word_pos w Hw).
  assert (Hf : forall old x, poly_wf w N old -> length x = length inputs -> toruses w x -> poly_wf w N (f old x)).
  { intros old x Wo Lx Tx. rewrite HfF by assumption. now apply (proj1 HF). }
  assert (Hv : pufksk_valid n N k count key = true).
  { apply pufksk_valid_iff. split; [rewrite <- Ls; symmetry; exact (Forall2_len _ _ _ Henc)|]. clear - Henc. induction Henc as [|x g ? ? [A C]]; constructor; [|assumption]. split; [assumption|].
    apply Forall_forall. intros c Hc. apply In_nth_error in Hc as (j & Hj). apply (C j c Hj). }
  destruct (pufks_ok N w pr log count n k f out inputs key scp d D) as (r & E1 & W1 & P1); try assumption.
  exists r. split; [assumption|]. split; [assumption|]. specialize (P1 s sk E HE Hs Hsk Hbin Henc). cbv zeta in P1.
  assert (Wl : poly_wf w N (last (pseq f inputs scp 0 n) scp)).
  { destruct (pufks_loop_ok N w pr log count n k f inputs (proj1 (dim_valid N k Hdim)) Hw Hl Hc Hlc Wi Hf key scp (glwe_new N k) 0) as (acc & _ & _ & A & _); try assumption.
    - now apply pufksk_valid_iff in Hv.
    - apply glwe_new_wf. lia.
    - replace (length key) with n in A by (apply pufksk_valid_iff in Hv; symmetry; apply Hv). assumption. }
  rewrite HfF in P1; [|assumption|apply map_length|now apply bs_torus with n].
  rewrite (pseq_map N w f F inputs Hf HfF n n scp 0) in P1; [|lia|assumption|assumption].
  eapply pnear_peq; [reflexivity| |exact P1]. exact (F_combination N w F inputs (length inputs) n s Hw HF eq_refl Wi Ls).
Qed.
Print Assumptions public_keyswitch_correct.

(** The scratch polynomial is documented as initialised to 0 and is not. With the map that packs p < N messages into the
    low coefficients and leaves the others alone (the map of the project's own test), the low coefficients are right, and
    coefficient q >= p is not 0 but (1 - sum of s) times what the scratch polynomial held. *)
Theorem public_keyswitch_stale_scratch_refuted pr w log count n N k out inputs key scp d D s sk E :
  word w -> glwe_dim_valid N k = true -> 1 <= log -> (1 <= count)%nat -> log * Z.of_nat count < w ->
  Forall (lwe_wf w n) inputs -> (length inputs <= N)%nat -> glwe_shape N k out -> poly_wf w N scp -> 0 <= D -> fft_err N k D d ->
  0 <= E -> binary s -> length s = n -> polys_shape N k sk -> binary_polys sk -> pufksk_enc N k count w log E s sk key ->
  exists r, pufks pr w log count n N k (fun old x => zip_assign (fun _ t => t) old x) out inputs key scp d = Ok r /\
    forall q, (q < N)%nat -> near w (pufks_noise n N k count w log E D) (glwe_phase N sk r q)
      (if (q <? length inputs)%nat then lwe_phase s (nth q inputs (lwe_new n)) else (1 - zsuml s) * nth q scp 0).
Proof.
  intros Hw Hdim Hl Hc Hlc Wi Li So Wp HD Hd HE Hs Ls Hsk Hbin Henc. pose proof (word_pos w Hw).
  assert (Hv : pufksk_valid n N k count key = true).
  { apply pufksk_valid_iff. split; [rewrite <- Ls; symmetry; exact (Forall2_len _ _ _ Henc)|]. clear - Henc. induction Henc as [|x g ? ? [A C]]; constructor; [|assumption]. split; [assumption|].
    apply Forall_forall. intros c Hc. apply In_nth_error in Hc as (j & Hj). apply (C j c Hj). }
  set (f := fun old x : list Z => zip_assign (fun _ t => t) old x).
  assert (Hf : forall old x, poly_wf w N old -> length x = length inputs -> toruses w x -> poly_wf w N (f old x)) by (intros; now apply pack_wf).
  destruct (pufks_ok N w pr log count n k f out inputs key scp d D) as (r & E1 & W1 & P1); try assumption.
  exists r. split; [assumption|]. intros q Hq. specialize (P1 s sk E HE Hs Hsk Hbin Henc). cbv zeta in P1. apply (pnear_coef N w _ _ _ q Hq) in P1.
  eapply near_congr; [reflexivity| |exact P1]. unfold psub. apply zeq_refl'.
  assert (Wl : length (last (pseq f inputs scp 0 n) scp) = N).
  { destruct (pufks_loop_ok N w pr log count n k f inputs (proj1 (dim_valid N k Hdim)) Hw Hl Hc Hlc Wi Hf key scp (glwe_new N k) 0) as (acc & _ & _ & A & _); try assumption.
    - now apply pufksk_valid_iff in Hv.
    - apply glwe_new_wf. lia.
    - replace (length key) with n in A by (apply pufksk_valid_iff in Hv; symmetry; apply Hv). apply A. }
  change f with (zip_assign (fun _ t : Z => t)) in *.
  unfold coef at 1. rewrite pack_nth by (rewrite map_length, Wl; assumption). rewrite map_length.
  destruct (Nat.ltb_spec q (length inputs)) as [Hlt|Hge].
  - rewrite (pseq_pack_low N w inputs n ltac:(lia) Wi Li n scp 0 q s (proj1 Wp) Hlt Ls eq_refl). cbn [skipn]. unfold lwe_phase.
    rewrite (nth_indep (map lwe_b inputs) 0 (lwe_b (lwe_new n))) by (rewrite map_length; lia). rewrite (map_nth lwe_b). reflexivity.
  - destruct (pseq_pack N inputs n scp 0 q scp (proj1 Wp) Li Hge) as [A C].
    rewrite (pcomb_const q (nth q scp 0) _ s) by (rewrite ?pseq_len; assumption). rewrite (C eq_refl). ring.
Qed.
Print Assumptions public_keyswitch_stale_scratch_refuted.

(** ** Concrete cases

    Private: degree 4, two inputs of dimension 2, F (x, y) = x + y X^3; 5-bit messages. [reuse] switches twice into the same output. *)
Definition ex_sk4 : list (list Z) := [[1; 0; 1; 1]].
Definition ex_rnd4 (i : nat) : list (list (list Z) * option (list Z)) :=
  map (fun c => ([map (fun j => (Z.of_nat (i + 7 * c + j + 1) * 0x9E3779B97F4A7C15) mod 2 ^ 64) (seq 0 4)],
     Some (map (fun j => (Z.of_nat ((i + c + j) mod 9) - 4) mod 2 ^ 64) (seq 0 4)))) (seq 0 2).
Definition ex_F (x : list Z) : list Z := [nth 0 x 0; 0; 0; nth 1 x 0].
Definition ex_lwe5 (m : Z) : res lwe := lwe_sk_encrypt 64 2 [1; 0] m 5 [0xDEADBEEFDEADBEEF; 0x123456789ABCDEF] 12345.
Definition ex_private (reuse : bool) : res (list Z) :=
  key <- generate_pfksk Release 64 20 2 2 4 1 2 (fun _ x => ex_F x) (repeat (repeat (glwe_new 4 1) 2) 6) [1; 0] ex_sk4 (map ex_rnd4 (seq 0 6)) ;;
  a <- ex_lwe5 13 ;; b <- ex_lwe5 30 ;;
  out <- (if reuse then pfks ex_hw Release 64 20 2 2 4 1 2 (glwe_new 4 1) [a; b] key else Ok (glwe_new 4 1)) ;;
  r <- pfks ex_hw Release 64 20 2 2 4 1 2 out [a; b] key ;;
  glwe_decrypt_decode Release 64 4 1 ex_sk4 r 5.
Example private_keyswitch_run : ex_private false = Ok [13; 0; 0; 30].
Proof. vm_compute. reflexivity. Qed.
Example private_keyswitch_reuse_run : ex_private true = Ok [0; 0; 0; 0].
Proof. vm_compute. reflexivity. Qed.
Lemma ex_rnd4_ok i : length (ex_rnd4 i) = 2%nat /\ Forall (glwe_rnd_ok 4 1 64 4) (ex_rnd4 i).
Proof.
  split; [reflexivity|]. apply Forall_forall. intros x Hx. apply in_map_iff in Hx as (c & <- & _). split; [split; [reflexivity|repeat constructor; cbn; lia]|]. cbn [fst snd]. split.
  - constructor; [|constructor]. apply Forall_forall. intros y Hy. apply in_map_iff in Hy as (j & <- & _). apply Z.mod_pos_bound. lia.
  - split.
    + split; [reflexivity|]. apply Forall_forall. intros y Hy. apply in_map_iff in Hy as (j & <- & _). apply Z.mod_pos_bound. lia.
    + exists (fun j => Z.of_nat ((i + c + j) mod 9) - 4). split.
      * intros j Hj. pose proof (Nat.mod_upper_bound (i + c + j) 9 ltac:(lia)). lia.
      * intros j Hj. unfold coef. rewrite nth_map_seq by exact Hj. etransitivity; [apply zeq_mod|]. apply zeq_refl'. unfold padd, p0. ring.
Qed.
Example private_keyswitch_hyps : smad_exact ex_hw Release 64 4 /\ word 64 /\ glwe_dim_valid 4 1 = true /\ polys_shape 4 1 ex_sk4 /\ binary [1; 0] /\
  morphism 4 64 2 ex_F /\ lipschitz 4 64 2 1 ex_F /\ Forall (fun r => length r = 2%nat /\ Forall (glwe_rnd_ok 4 1 64 4) r) (map ex_rnd4 (seq 0 6)) /\
  pfks_noise 2 2 2 64 20 1 4 + 12345 < 2 ^ (64 - 5 - 1).
Proof.
  split; [right; cbn; auto|].
  split; [now right|]. split; [reflexivity|]. split; [split; [reflexivity|repeat constructor]|]. split; [unfold binary; repeat (constructor; auto)|].
  split; [|split; [|split]].
  - split.
    + intros [|a [|b [|? ?]]] L T; try discriminate. split; [reflexivity|]. apply Forall_cons_iff in T as [Ta T]. apply Forall_cons_iff in T as [Tb _]. unfold ex_F. cbn [nth].
      repeat constructor; cbv beta; try apply Ta; try apply Tb; try reflexivity; unfold torus; lia.
    + intros x y z _ _ _ _ _ _ H i Hi. unfold coef, padd, ex_F. destruct i as [|[|[|[|]]]]; cbn [nth]; try lia; try reflexivity; [apply (H 0%nat)|apply (H 1%nat)]; lia.
  - intros E x y HE _ _ _ _ H. destruct (H 0%nat ltac:(lia)) as (e0 & B0 & Q0). destruct (H 1%nat ltac:(lia)) as (e1 & B1 & Q1).
    exists (fun i => if (i =? 0)%nat then e0 else if (i =? 3)%nat then e1 else 0). split.
    + intros i Hi. destruct i as [|[|[|[|]]]]; cbn [Nat.eqb]; lia.
    + intros i Hi. unfold padd, coef, ex_F. destruct i as [|[|[|[|]]]]; cbn [nth Nat.eqb]; try lia; try reflexivity; assumption.
  - apply Forall_forall. intros r Hr. apply in_map_iff in Hr as (i & <- & _). apply ex_rnd4_ok.
  - vm_compute. reflexivity.
Qed.

(** Circuit bootstrap from a degree-8 key to a degree-4 key. *)
Definition ex_cbsf (reuse : bool) (m : Z) : res (list Z) :=
  bsk <- generate_bsk Release 64 16 3 2 8 1 (repeat (ggsw_new 8 1 3) 2) [1; 0] ex_sk ex_rnd ;;
  keys <- generate_cbsksk Release 64 20 2 8 4 1 (repeat (repeat (repeat (glwe_new 4 1) 2) 9) 2) (to_lwe_sk ex_sk) ex_sk4 (fun i => map (fun j => ex_rnd4 (i + 2 * j)) (seq 0 9)) ;;
  c <- ex_lwe m ;;
  let run out := circuit_bootstrap_pfks ex_hw Release 64 16 20 7 3 2 2 2 8 1 4 1 out c bsk keys {| lwe_a := [7; 8]; lwe_b := 9 |} ex_junk
    {| lwe_a := repeat 3 8; lwe_b := 4 |} (repeat {| lwe_a := repeat 5 8; lwe_b := 6 |} 2) ex_err in
  out <- (if reuse then run (ggsw_new 4 1 2) else Ok (ggsw_new 4 1 2)) ;;
  g <- run out ;;
  x0 <- glwe_encode_encrypt 64 4 1 ex_sk4 [1; 2; 3; 4] 3 [map (fun j => (Z.of_nat j * 0x123456789ABCDEF) mod 2 ^ 64) (seq 1 4)] (Some (repeat 3 4)) ;;
  x1 <- glwe_encode_encrypt 64 4 1 ex_sk4 [7; 6; 5; 0] 3 [map (fun j => (Z.of_nat j * 0xFEDCBA987654321) mod 2 ^ 64) (seq 1 4)] (Some (repeat 5 4)) ;;
  r <- cmux ex_hw Release 64 7 2 4 1 (glwe_new 4 1) x0 x1 g {| ga := [repeat 1 4]; gb := repeat 1 4 |} ;;
  glwe_decrypt_decode Release 64 4 1 ex_sk4 r 3.
Example circuit_bootstrap_pfks_run : ex_cbsf false 0 = Ok [1; 2; 3; 4] /\ ex_cbsf false 1 = Ok [7; 6; 5; 0].
Proof. vm_compute. auto. Qed.
(** A second bootstrap into the same output yields an encryption of 0 - the old ciphertext is subtracted. *)
Example circuit_bootstrap_pfks_reuse_run : ex_cbsf true 1 = Ok [1; 2; 3; 4].
Proof. vm_compute. reflexivity. Qed.
(** (The hypotheses on the bootstrap key are in [univariate_bootstrap_hyps].) *)
Example circuit_bootstrap_pfks_hyps : glwe_dim_valid 8 1 = true /\ glwe_dim_valid 4 1 = true /\ polys_shape 4 1 ex_sk4 /\ binary_polys ex_sk4 /\
  (forall i, length (map (fun j => ex_rnd4 (i + 2 * j)) (seq 0 9)) = (1 * 8 + 1)%nat /\ Forall (fun r => length r = 2%nat /\ Forall (glwe_rnd_ok 4 1 64 4) r) (map (fun j => ex_rnd4 (i + 2 * j)) (seq 0 9))) /\
  12345 + (Z.of_nat 2 + 1) * 2 ^ (64 - 4 + Z.of_nat (log_slots 2) - 1) < 2 ^ (64 - 2) /\
  cmux_noise 4 1 2 64 7 (pfks_noise (1 * 8) 1 2 64 20 1 4 + Z.of_nat 2 * cmux_noise 8 1 3 64 16 4 1) 1 + 5 < 2 ^ (64 - 3 - 1).
Proof.
  split; [reflexivity|]. split; [reflexivity|]. split; [split; [reflexivity|repeat constructor]|]. split; [unfold binary_polys, binary, ex_sk4; repeat (constructor; auto)|].
  split; [|split; vm_compute; reflexivity]. intros i. split; [reflexivity|]. apply Forall_forall. intros r Hr. apply in_map_iff in Hr as (j & <- & _). apply ex_rnd4_ok.
Qed.

(** Public: two 5-bit messages packed into a degree-4 polynomial, with a scratch polynomial that holds [junk] multiples
    of 2^59 (one unit of a 5-bit message). The LWE key is [1; 1], so the stale coefficients appear multiplied by -1. *)
Definition ex_public (f : user_map) (junk : list Z) : res (list Z) :=
  key <- generate_pufksk Release 64 20 2 2 4 1 (repeat (repeat (glwe_new 4 1) 2) 2) [1; 1] ex_sk4 (map ex_rnd4 (seq 0 2)) ;;
  a <- lwe_sk_encrypt 64 2 [1; 1] 13 5 [0xDEADBEEFDEADBEEF; 0x123456789ABCDEF] 12345 ;;
  b <- lwe_sk_encrypt 64 2 [1; 1] 30 5 [0xFEDCBA9876543210; 0x23456789ABCDEF1] 54321 ;;
  r <- pufks Release 64 20 2 2 4 1 f {| ga := [[1; 2; 3; 4]]; gb := [5; 6; 7; 8] |} [a; b] key (map (fun x => x * 2 ^ 59) junk) {| ga := [[1; 0; -1; 1]]; gb := [1; 1; 0; -1] |} ;;
  glwe_decrypt_decode Release 64 4 1 ex_sk4 r 5.
Example public_keyswitch_run : ex_public (fun _ x => ex_F x) [9; 8; 7; 6] = Ok [13; 0; 0; 30].
Proof. vm_compute. reflexivity. Qed.
Example public_keyswitch_stale_run : ex_public (zip_assign (fun _ t => t)) [9; 8; 7; 6] = Ok [13; 30; 25; 26] /\
  ex_public (zip_assign (fun _ t => t)) [0; 0; 0; 0] = Ok [13; 30; 0; 0].
Proof. vm_compute. auto. Qed.
Example public_keyswitch_hyps : (forall old x, poly_wf 64 4 old -> length x = 2%nat -> toruses 64 x -> (fun _ x => ex_F x) old x = ex_F x) /\
  fft_err 4 1 1 {| ga := [[1; 0; -1; 1]]; gb := [1; 1; 0; -1] |} /\ pufks_noise 2 4 1 2 64 20 4 1 + 54321 < 2 ^ (64 - 5 - 1).
Proof.
  split; [reflexivity|]. split; [|vm_compute; reflexivity]. split; [split; [split; [reflexivity|repeat constructor]|reflexivity]|].
  split; repeat constructor; cbv beta; lia.
Qed.
