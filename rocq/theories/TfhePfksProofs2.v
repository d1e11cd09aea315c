(** Functional key switching and the circuit bootstrap through it: lemmas. *)
From Verif Require Import Base Alu AluProofs MuxGraph MuxGraphProofs PolyRing Tfhe TfheGlwe TfheBoot TfheTrace TfheSwitch TfheCbs TfhePfks SpecTfhe SpecGlwe SpecBoot SpecTrace SpecSwitch SpecCbs SpecPfks FluentIntProofs TfheProofs TfheProofs2 TfheProofs3 TfheGlweProofs TfheGlweProofs2 TfheGlweProofs3 TfheGlweProofs4 TfheBootProofs TfheBootProofs2 TfheBootProofs3 TfheBootProofs4 TfheCbsProofs TfhePfksProofs.
Ltac Zify.zify_post_hook ::= idtac.
Open Scope Z_scope.

Section P.
Context (N : nat) (w : Z).
Local Notation "f == g" := (peq N (2 ^ w) f g) (at level 70).
Local Notation pn := (pnear N w).
Local Existing Instances peq_equiv padd_mor popp_mor psub_mor pscale_mor pmul_mor.
Add Ring poly_ring_pf2 : (poly_ring N (2 ^ w)) (setoid (peq_equiv N (2 ^ w)) (poly_ring_ext N (2 ^ w))).

Lemma generate_pfksk_ok pr log count n k p f key s sk rnd E : word w -> glwe_dim_valid N k = true -> (1 <= n)%nat -> (1 <= p)%nat ->
  1 <= log -> (1 <= count)%nat -> log * Z.of_nat count <= w -> length s = n -> polys_shape N k sk -> 0 <= E ->
  (forall x, length x = p -> toruses w x -> length (f (zpoly N) x) = N) ->
  length key = (p * (n + 1))%nat -> Forall (fun g => length g = count /\ Forall (glwe_fresh N k) g) key ->
  length rnd = (p * (n + 1))%nat -> Forall (fun r => length r = count /\ Forall (glwe_rnd_ok N k w E) r) rnd ->
  exists key', generate_pfksk pr w log count n N k p f key s sk rnd = Ok key' /\ pfksk_enc n N k p count w log E s sk (f (zpoly N)) key'.
Proof.
  intros Hw Hdim Hn Hp Hl Hc Hlc Ls Hsk HE Hf Lk Fk Lr Fr. destruct (dim_valid N k Hdim) as (HP & HN0 & Hk). pose proof (word_pos w Hw).
  unfold generate_pfksk. rewrite (proj2 (pfksk_valid_iff N n k p count key)).
  2:{ split; [assumption|]. eapply Forall_impl; [|exact Fk]. cbv beta. intros g [A B]. split; [assumption|]. now apply fresh_shapes. }
  rewrite (proj2 (radix_valid_iff w log count)) by auto. rewrite (proj2 (Nat.eqb_eq _ _) Ls), (proj2 (polys_valid_iff N k sk) Hsk), Hdim. unfold lwe_dim_valid.
  destruct (Nat.eqb_spec n 0); [lia|]. destruct (Nat.eqb_spec p 0); [lia|]. cbn [andb negb].
  destruct (pfks_key_loop_ok N w pr log count n k p f sk s E Hw HP Hl Hlc Hsk HE Ls Hf p 0 key rnd) as (key' & E1 & L1 & W1 & P1); try assumption; try lia.
  exists key'. split; [assumption|]. split; [assumption|]. split; [lia|]. split.
  { eapply Forall_impl; [|exact W1]. cbv beta. intros g [A B]. split; [assumption|]. eapply Forall_impl; [|exact B]. cbv beta. intros c Hc'. apply Hc'. }
  intros z i x g j c l Hz Hi Hg Hj Hu.
  assert (Hx : exists x', nth_error (s ++ [2 ^ w - 1]) i = Some x' /\ congr w x' x).
  { destruct (Nat.lt_ge_cases i n) as [Hlt|Hge].
    - rewrite nth_error_app1 in Hi by lia. exists x. rewrite nth_error_app1 by lia. split; [assumption|reflexivity].
    - rewrite nth_error_app2 in Hi by lia. rewrite nth_error_app2 by lia. destruct (i - length s)%nat as [|q]; [|destruct q; discriminate]. cbn [nth_error] in *. inversion Hi; subst x.
      exists (2 ^ w - 1). split; [reflexivity|]. apply zeq_iff; [apply pow2_nz; lia|]. exists 1. ring. }
  destruct Hx as (x' & Hx' & Cx). specialize (P1 z i x' g j c Hz Hx' Hg Hj). cbn [plus] in P1.
  assert (El : l = one_hot p z ((x' * 2 ^ (w - log * (Z.of_nat j + 1))) mod 2 ^ w)).
  { apply (unit_eq p z ((x * 2 ^ (w - log * (Z.of_nat j + 1))) mod 2 ^ w)); [assumption|].
    replace ((x * 2 ^ (w - log * (Z.of_nat j + 1))) mod 2 ^ w) with ((x' * 2 ^ (w - log * (Z.of_nat j + 1))) mod 2 ^ w); [now apply one_hot_unit|].
    apply (uwrap_eq w). apply zeq_mul; [assumption|reflexivity]. }
  rewrite El. exact P1.
Qed.

Lemma pfksk_enc_glev n k p count log E s sk F key : word w -> 1 <= log -> log * Z.of_nat count <= w -> morphism N w p F ->
  pfksk_enc n N k p count w log E s sk F key ->
  forall z i x g, (z < p)%nat -> nth_error (s ++ [-1]) i = Some x -> nth_error key (z * (n + 1) + i) = Some g ->
    glev_enc N k w log E sk (pscale x (coef (F (one_hot p z 1)))) g.
Proof.
  intros Hw Hl Hlc HF (Ls & Lk & Fk & H) z i x g Hz Hi Hg j c Hj. pose proof (word_pos w Hw).
  destruct (proj1 (Forall_forall _ _) Fk g (nth_error_In _ _ Hg)) as [Lg Sg].
  split; [apply (proj1 (Forall_forall _ _) Sg c (nth_error_In _ _ Hj))|].
  set (v := (x * 2 ^ (w - log * (Z.of_nat j + 1))) mod 2 ^ w).
  assert (Tv : torus w v) by (apply Z.mod_pos_bound, pow_pos'; lia).
  specialize (H z i x g j c (one_hot p z v) Hz Hi Hg Hj (one_hot_unit p z v Hz)).
  eapply pnear_peq; [reflexivity| |exact H]. rewrite (F_one_hot N w p F HF Hw z v Hz Tv).
  intros q Hq. unfold pscale. transitivity (x * 2 ^ (w - log * (Z.of_nat j + 1)) * coef (F (one_hot p z 1)) q); [apply zeq_mul; [apply zeq_mod|reflexivity]|apply zeq_refl'; ring].
Qed.

Lemma pfks_ok h pr log count n k p out inputs key : word w -> smad_exact h pr w N -> glwe_dim_valid N k = true -> (1 <= n)%nat -> (1 <= p)%nat ->
  1 <= log -> (1 <= count)%nat -> log * Z.of_nat count < w ->
  glwe_shape N k out -> length inputs = p -> Forall (lwe_wf w n) inputs -> pfksk_valid n N k p count key = true ->
  exists r, pfks h pr w log count n N k p out inputs key = Ok r /\ glwe_wf w N k r /\
    forall s sk F R E, 0 <= E -> binary s -> morphism N w p F -> lipschitz N w p R F -> pfksk_enc n N k p count w log E s sk F key ->
      pn (pfks_noise n p count w log R E) (glwe_phase N sk r) (psub (coef (F (phases w s inputs))) (glwe_phase N sk out)).
Proof.
  intros Hw Hsm Hdim Hn Hp Hl Hc Hs So Li Wi Hv. destruct (dim_valid N k Hdim) as (HP & HN0 & Hk). pose proof (word_pos w Hw).
  unfold pfks. rewrite (proj2 (glwe_valid_iff N k out) So), Hv, Hdim, (proj2 (radix_valid_iff w log count)) by (split; [|split]; (assumption || lia)).
  unfold lwe_dim_valid. destruct (Nat.eqb_spec n 0); [lia|]. destruct (Nat.eqb_spec p 0); [lia|]. rewrite (proj2 (Nat.eqb_eq p (length inputs))) by congruence. cbn [andb negb].
  apply pfksk_valid_iff in Hv as [Lk Fk].
  destruct (pfks_inputs_loop_ok N w h pr log count n k Hw Hsm Hl Hc Hs inputs key out Wi ltac:(congruence) Fk So) as (o & E1 & S1 & P1). rewrite E1. cbn [bind].
  destruct (glwe_negate_ok N w k o Hw S1) as (W2 & P2). eexists. split; [reflexivity|]. split; [assumption|].
  intros s sk F R E HE Hb HF HR Henc. rewrite Li in P1.
  assert (Ls : length s = n) by apply Henc.
  assert (Q := P1 sk (s ++ [-1]) (fun z => coef (F (one_hot p z 1))) E HE ltac:(rewrite app_length; cbn [length]; lia)).
  eapply pnear_peq; [symmetry; apply P2|reflexivity|].
  set (u := map (fun c => uwrap w (- tval w log count (s ++ [-1]) c)) inputs).
  assert (Lu : length u = p) by (unfold u; now rewrite map_length).
  assert (Tu : toruses w u). { unfold u. apply toruses_map. intros. apply uwrap_torus. lia. }
  assert (Nu : forall z, (z < p)%nat -> nth z u 0 = uwrap w (- tval w log count (s ++ [-1]) (nth z inputs (lwe_new n)))).
  { intros z Hz. unfold u. rewrite (nth_indep _ 0 (uwrap w (- tval w log count (s ++ [-1]) (lwe_new n)))) by (rewrite map_length; lia). now rewrite (map_nth (fun c => uwrap w (- tval w log count (s ++ [-1]) c))). }
  assert (Nx : forall z, (z < p)%nat -> nth z (phases w s inputs) 0 = lwe_phase s (nth z inputs (lwe_new n)) mod 2 ^ w).
  { intros z Hz. unfold phases. rewrite (nth_indep _ 0 (lwe_phase s (lwe_new n) mod 2 ^ w)) by (rewrite map_length; lia). now rewrite (map_nth (fun c => lwe_phase s c mod 2 ^ w)). }
  unfold pfks_noise. rewrite Z.add_comm.
  assert (Fu := F_sum N w p F HF Hw u Lu Tu).
  assert (G : pn (Z.of_nat p * ((Z.of_nat n + 1) * gerr log count E)) (popp (glwe_phase N sk o)) (psub (coef (F u)) (glwe_phase N sk out))).
  { eapply pnear_peq; [reflexivity| |apply pnear_opp; apply Q].
    - rewrite Fu. intros q Hq. unfold popp, padd, psub, psum. transitivity (- glwe_phase N sk out q + - zsum p (fun i => pscale (tval w log count (s ++ [-1]) (nth i inputs (lwe_new n))) (coef (F (one_hot p i 1))) q)); [apply zeq_refl'; ring|].
      transitivity (- glwe_phase N sk out q + zsum p (fun i => pscale (nth i u 0) (coef (F (one_hot p i 1))) q)); [|apply zeq_refl'; ring].
      apply zeq_add; [reflexivity|]. rewrite <- zsum_opp. apply zsum_zeq. intros z Hz. rewrite (Nu z Hz). unfold pscale.
      transitivity (- tval w log count (s ++ [-1]) (nth z inputs (lwe_new n)) * coef (F (one_hot p z 1)) q); [apply zeq_refl'; ring|]. apply zeq_mul; [symmetry; apply uwrap_congr|reflexivity].
    - apply (pfksk_enc_glev n k p count log E s sk F key Hw Hl ltac:(lia) HF Henc). }
  eapply pnear_trans; [exact G|]. rewrite <- (Z.add_0_r (R * _)). apply pnear_sub; [|apply pnear_refl; reflexivity].
  apply HR; try assumption.
  - pose proof (pow_pos' (w - log * Z.of_nat count - 1) ltac:(lia)). nia.
  - unfold phases. now rewrite map_length.
  - unfold phases. apply toruses_map. intros. apply Z.mod_pos_bound, pow_pos'. lia.
  - intros z Hz. rewrite (Nu z Hz), (Nx z Hz). assert (Hin : In (nth z inputs (lwe_new n)) inputs) by (apply nth_In; lia).
    assert (Wc := proj1 (Forall_forall _ _) Wi _ Hin). eapply near_congr; [symmetry; apply uwrap_congr|symmetry; apply zeq_mod|].
    assert (T := tval_near w log count n s (nth z inputs (lwe_new n)) Hw Hl Hc Hs Hb Ls (proj1 Wc)).
    apply (near_sub w 0 _ 0 0 _ _ (near_refl w 0)) in T. rewrite Z.add_0_l in T. eapply near_congr; [| |exact T]; apply zeq_refl'; ring.
Qed.

(** ** The circuit bootstrap *)

Lemma pfksk_enc_ext n k p count log E s sk F G key : 0 <= w -> (forall x, length x = p -> toruses w x -> F x = G x) ->
  pfksk_enc n N k p count w log E s sk F key -> pfksk_enc n N k p count w log E s sk G key.
Proof.
  intros Hw HFG (A & B & C & H). split; [assumption|]. split; [assumption|]. split; [assumption|].
  intros z i x g j c l Hz Hi Hg Hj Hu. rewrite <- HFG; [now apply (H z i x g j c l)|apply Hu|].
  apply Forall_forall. intros y Hy. apply (In_nth _ _ 0) in Hy as (q & Hq & <-). rewrite (proj2 Hu). pose proof (pow_pos' w Hw). destruct (q =? z)%nat; [apply Z.mod_pos_bound; lia|unfold torus; lia].
Qed.

Lemma minus_times_len s x : length (minus_times w s x) = length s.
Proof. apply map_length. Qed.
Lemma minus_times_coef s x : length s = N -> coef (minus_times w s x) == pscale (- nth 0 x 0) (coef s).
Proof. intros Ls i Hi. unfold coef, minus_times, pscale. rewrite nth_map0 by lia. apply zeq_mod. Qed.
Lemma constant_coef x : coef (constant N x) == pconst (nth 0 x 0).
Proof. intros i Hi. unfold coef, constant, pconst. destruct i; cbn [nth Nat.eqb]; [reflexivity|]. now rewrite nth_repeat. Qed.

Lemma minus_times_morphism s : 0 <= w -> length s = N -> morphism N w 1 (minus_times w s).
Proof.
  intros Hw Ls. split.
  - intros x _ _. split; [now rewrite minus_times_len|]. apply toruses_map. intros. apply Z.mod_pos_bound, pow_pos'. assumption.
  - intros x y z _ _ _ _ _ _ H. specialize (H O ltac:(lia)). rewrite !minus_times_coef by assumption. intros i Hi. unfold pscale, padd.
    transitivity (- (nth 0 x 0 + nth 0 y 0) * coef s i); [apply zeq_mul; [now apply zeq_opp|reflexivity]|apply zeq_refl'; ring].
Qed.
Lemma minus_times_lipschitz s : 0 <= w -> length s = N -> binary s -> lipschitz N w 1 1 (minus_times w s).
Proof.
  intros Hw Ls Hb E x y HE _ _ _ _ H. specialize (H O ltac:(lia)). eapply pnear_peq; [symmetry; now apply minus_times_coef|symmetry; now apply minus_times_coef|].
  apply pnear_of_coef. intros i Hi. unfold pscale. assert (Hs : coef s i = 0 \/ coef s i = 1) by (apply (proj1 (Forall_forall _ _) Hb), nth_In; lia).
  assert (Q : near w (Z.abs (- coef s i) * E) (- coef s i * nth 0 x 0) (- coef s i * nth 0 y 0)) by (now apply near_mul).
  eapply near_congr; [| |eapply near_weaken; [|exact Q]]; try (apply zeq_refl'; ring). destruct Hs as [-> | ->]; cbn [Z.opp Z.abs]; lia.
Qed.
Lemma constant_morphism : (1 <= N)%nat -> 0 <= w -> morphism N w 1 (constant N).
Proof.
  intros HN Hw. split.
  - intros [|a x] Lx Tx; [discriminate|]. split; [unfold constant; cbn [length]; rewrite repeat_length; lia|]. apply Forall_cons_iff in Tx as [Ta _]. constructor; [exact Ta|now apply toruses_repeat].
  - intros x y z _ _ _ _ _ _ H. specialize (H O ltac:(lia)). rewrite !constant_coef. intros i Hi. unfold pconst, padd. destruct (i =? 0)%nat; [assumption|reflexivity].
Qed.
Lemma constant_lipschitz : lipschitz N w 1 1 (constant N).
Proof.
  intros E x y HE _ _ _ _ H. specialize (H O ltac:(lia)). eapply pnear_peq; [symmetry; apply constant_coef|symmetry; apply constant_coef|].
  apply pnear_of_coef. intros i Hi. unfold pconst. rewrite Z.mul_1_l. destruct (i =? 0)%nat; [assumption|]. eapply near_weaken; [exact HE|apply near_refl].
Qed.

Lemma zip_assign_copy_map (f : Z -> Z) l s : length l = length s -> zip_assign (fun _ a => f a) l s = map f s.
Proof. revert s. induction l as [|x l IH]; intros [|y s] H; cbn [length] in H; try lia; cbn [zip_assign map]; [reflexivity|]. rewrite IH by lia. reflexivity. Qed.
Lemma cb_map_a_eq s x : length s = N -> cb_map_a w s (zpoly N) x = minus_times w s x.
Proof.
  intros Ls. unfold cb_map_a, minus_times. rewrite zip_assign_copy_map by (now rewrite zpoly_len). apply map_ext. intros a. unfold tmul. apply uwrap_eq.
  apply zeq_mul; [apply tneg_congr|reflexivity].
Qed.
Lemma cb_map_b_eq x : (1 <= N)%nat -> cb_map_b (zpoly N) x = constant N x.
Proof.
  intros HN. unfold cb_map_b, constant, zpoly. destruct N as [|N']; [lia|]. cbn [repeat map upd]. f_equal. rewrite Nat.sub_succ, Nat.sub_0_r.
  clear. induction N'; cbn [repeat map]; congruence.
Qed.

Lemma cb_keys_loop_ok pr log count n k s sk E : word w -> glwe_dim_valid N k = true -> (1 <= n)%nat ->
  1 <= log -> (1 <= count)%nat -> log * Z.of_nat count <= w -> length s = n -> polys_shape N k sk -> 0 <= E ->
  forall keys ss rnd, length keys = length ss -> Forall (fun x => length x = N) ss ->
  Forall (fun key => length key = (n + 1)%nat /\ Forall (fun g => length g = count /\ Forall (glwe_fresh N k) g) key) keys ->
  (forall i, length (rnd i) = (n + 1)%nat /\ Forall (fun r => length r = count /\ Forall (glwe_rnd_ok N k w E) r) (rnd i)) ->
  exists keys', cb_keys_loop pr w log count n N k keys ss s sk rnd = Ok keys' /\
    Forall2 (fun x key => pfksk_enc n N k 1 count w log E s sk (minus_times w x) key) ss keys'.
Proof.
  intros Hw Hdim Hn Hl Hc Hlc Ls Hsk HE. pose proof (word_pos w Hw). induction keys as [|key keys IH]; intros [|x ss] rnd Lk Fs Fk Hr; cbn [length] in Lk; try lia; cbn [cb_keys_loop].
  - exists []. split; [reflexivity|constructor].
  - apply Forall_cons_iff in Fs as [Lx Fs]. apply Forall_cons_iff in Fk as [[L1 F1] Fk]. destruct (Hr O) as [Lr Fr].
    destruct (generate_pfksk_ok pr log count n k 1 (cb_map_a w x) key s sk (rnd O) E) as (key' & E1 & P1); try assumption; try lia.
    { intros y _ _. rewrite cb_map_a_eq by assumption. now rewrite minus_times_len. }
    rewrite E1. cbn [bind]. destruct (IH ss (fun i => rnd (S i)) ltac:(lia) Fs Fk ltac:(intros; apply Hr)) as (keys' & E2 & P2). rewrite E2. cbn [bind].
    exists (key' :: keys'). split; [reflexivity|]. constructor; [|assumption]. eapply pfksk_enc_ext; [lia| |exact P1]. intros. now apply cb_map_a_eq.
Qed.

Lemma pfks_glev_ok h pr log count n k key : word w -> smad_exact h pr w N -> glwe_dim_valid N k = true -> (1 <= n)%nat -> 1 <= log -> (1 <= count)%nat -> log * Z.of_nat count < w ->
  pfksk_valid n N k 1 count key = true ->
  forall lwes glev, length glev = length lwes -> Forall (lwe_wf w n) lwes -> Forall (glwe_shape N k) glev ->
  exists gs, pfks_glev h pr w log count n N k lwes glev key = Ok gs /\ length gs = length glev /\ Forall (glwe_wf w N k) gs /\
    forall s sk F E, 0 <= E -> binary s -> morphism N w 1 F -> lipschitz N w 1 1 F -> pfksk_enc n N k 1 count w log E s sk F key ->
      forall t d g g', nth_error lwes t = Some d -> nth_error glev t = Some g -> nth_error gs t = Some g' ->
        pn (pfks_noise n 1 count w log 1 E) (glwe_phase N sk g') (psub (coef (F [lwe_phase s d mod 2 ^ w])) (glwe_phase N sk g)).
Proof.
  intros Hw Hsm Hdim Hn Hl Hc Hs Hv. induction lwes as [|d lwes IH]; intros [|g glev] Lg Wl Fg; cbn [length] in Lg; try lia; cbn [pfks_glev].
  - exists []. split; [reflexivity|]. split; [reflexivity|]. split; [constructor|]. intros s sk F E _ _ _ _ _ t; intros. destruct t; discriminate.
  - apply Forall_cons_iff in Wl as [Wd Wl]. apply Forall_cons_iff in Fg as [Sg Fg].
    destruct (pfks_ok h pr log count n k 1 g [d] key) as (g' & E1 & W1 & P1); try assumption; try lia; [reflexivity|repeat constructor; apply Wd|]. rewrite E1. cbn [bind].
    destruct (IH glev ltac:(lia) Wl Fg) as (gs & E2 & L2 & W2 & P2). rewrite E2. cbn [bind].
    exists (g' :: gs). split; [reflexivity|]. split; [cbn [length]; lia|]. split; [constructor; assumption|].
    intros s sk F E HE Hb HF HR Henc [|t] d0 g0 g0' H1 H2 H3; cbn [nth_error] in *; [|now apply (P2 s sk F E HE Hb HF HR Henc t)].
    inversion H1; inversion H2; inversion H3; subst d0 g0 g0'. now apply (P1 s sk F 1 E).
Qed.

Lemma apply_pfks_ok h pr log count n k : word w -> smad_exact h pr w N -> glwe_dim_valid N k = true -> (1 <= n)%nat -> 1 <= log -> (1 <= count)%nat -> log * Z.of_nat count < w ->
  forall lwes rows keys cnt, length keys = length rows -> length lwes = cnt -> Forall (fun r => length r = cnt /\ Forall (glwe_shape N k) r) rows -> Forall (lwe_wf w n) lwes ->
  forallb (pfksk_valid n N k 1 count) keys = true ->
  exists rows', apply_pfks h pr w log count n N k lwes rows keys = Ok rows' /\ length rows' = length rows /\ Forall (fun r => length r = cnt /\ Forall (glwe_wf w N k) r) rows' /\
    forall i key row row', nth_error keys i = Some key -> nth_error rows i = Some row -> nth_error rows' i = Some row' ->
    forall s sk F E, 0 <= E -> binary s -> morphism N w 1 F -> lipschitz N w 1 1 F -> pfksk_enc n N k 1 count w log E s sk F key ->
      forall t d g g', nth_error lwes t = Some d -> nth_error row t = Some g -> nth_error row' t = Some g' ->
        pn (pfks_noise n 1 count w log 1 E) (glwe_phase N sk g') (psub (coef (F [lwe_phase s d mod 2 ^ w])) (glwe_phase N sk g)).
Proof.
  intros Hw Hsm Hdim Hn Hl Hc Hs lwes. induction rows as [|r rows IH]; intros [|key keys] cnt Lk Ll Fr Wl Hv; cbn [length] in Lk; try lia; cbn [apply_pfks].
  - exists []. split; [reflexivity|]. split; [reflexivity|]. split; [constructor|]. intros i; intros. destruct i; discriminate.
  - apply Forall_cons_iff in Fr as [[Lr Fr1] Fr]. cbn [forallb] in Hv. apply andb_true_iff in Hv as [Hv1 Hv].
    destruct (pfks_glev_ok h pr log count n k key Hw Hsm Hdim Hn Hl Hc Hs Hv1 lwes r ltac:(congruence) Wl Fr1) as (gs & E1 & L1 & W1 & P1). rewrite E1. cbn [bind].
    destruct (IH keys cnt ltac:(lia) Ll Fr Wl Hv) as (rs & E2 & L2 & W2 & P2). rewrite E2. cbn [bind].
    exists (gs :: rs). split; [reflexivity|]. split; [cbn [length]; lia|]. split; [constructor; [split; [congruence|assumption]|assumption]|].
    intros [|i] key0 row row' H1 H2 H3; cbn [nth_error] in *; [|now apply (P2 i)].
    inversion H1; inversion H2; inversion H3; subst key0 row row'. exact P1.
Qed.

Lemma extract_rotate_ok log k c : word w -> 1 <= log -> glwe_wf w N k c -> forall outs ex i count, (i + length outs = count)%nat -> (count <= N)%nat -> log * Z.of_nat count + 1 < w ->
  length (lwe_a ex) = (k * N)%nat -> Forall (fun o => length (lwe_a o) = (k * N)%nat) outs ->
  exists os, extract_rotate w log N k ex outs c i = Ok os /\ length os = length outs /\ Forall (lwe_wf w (k * N)) os /\
    forall sk t o, polys_shape N k sk -> nth_error os t = Some o -> congr w (lwe_phase (to_lwe_sk sk) o) (glwe_phase N sk c (i + t)%nat + 2 ^ (w - cbs_bits log (i + t))).
Proof.
  intros Hw Hl Wc. pose proof (word_pos w Hw). induction outs as [|o outs IH]; intros ex i count Hi HN Hlc Lex Fo; cbn [extract_rotate length] in *.
  - exists []. split; [reflexivity|]. split; [reflexivity|]. split; [constructor|]. intros sk t; intros. destruct t; discriminate.
  - apply Forall_cons_iff in Fo as [Lo Fo].
    destruct (sample_extract_ok N w k ex c i Hw ltac:(lia) Wc Lex) as (x & E1 & W1 & P1). rewrite E1. cbn [bind].
    assert (Hb : 0 < cbs_bits log i < w). { assert (log * (Z.of_nat i + 1) <= log * Z.of_nat count) by (apply Z.mul_le_mono_nonneg_l; lia). unfold cbs_bits. nia. }
    rewrite t_encode_ok by assumption. cbn [bind]. rewrite Z.mul_1_l. unfold lwe_rotate, lwe_valid. rewrite Lo, (proj1 W1), Nat.eqb_refl. cbn [andb bind].
    destruct (IH ex (S i) count ltac:(lia) HN Hlc Lex Fo) as (os & E2 & L2 & W2 & P2). rewrite E2. cbn [bind].
    eexists. split; [reflexivity|]. split; [cbn [length]; lia|]. split.
    { constructor; [|assumption]. destruct W1 as (A & T1 & T2). split; [exact A|]. split; [exact T1|]. cbn [lwe_b]. apply uwrap_torus. lia. }
    intros sk [|t] o0 Hsk Ht; cbn [nth_error] in Ht.
    + inversion Ht; subst o0. rewrite Nat.add_0_r. unfold lwe_phase. cbn [lwe_a lwe_b]. transitivity (lwe_phase (to_lwe_sk sk) x + 2 ^ (w - cbs_bits log i)).
      * unfold lwe_phase. transitivity (lwe_b x + 2 ^ (w - cbs_bits log i) mod 2 ^ w - dotz (lwe_a x) (to_lwe_sk sk)); [apply zeq_sub; [apply tadd_congr|reflexivity]|].
        transitivity (lwe_b x + 2 ^ (w - cbs_bits log i) - dotz (lwe_a x) (to_lwe_sk sk)); [|apply zeq_refl'; ring]. apply zeq_sub; [|reflexivity]. apply zeq_add; [reflexivity|apply zeq_mod].
      * apply zeq_add; [now apply P1|reflexivity].
    + replace (i + S t)%nat with (S i + t)%nat by lia. now apply P2.
Qed.
End P.

Lemma cbs_hi_noise_ok h pr w lp log cp count n N k input bsk scr scg d1 D sk s Eb B m :
  let L := Z.of_nat (Nat.log2 N) + 1 in
  word w -> glwe_dim_valid N k = true -> add_exact h pr w -> sub_exact h pr w -> L < w -> 0 <= D -> 0 <= Eb ->
  1 <= lp -> (1 <= cp)%nat -> lp * Z.of_nat cp < w ->
  1 <= log -> (1 <= count < 8)%nat -> log * Z.of_nat count + 1 < w ->
  (1 <= n)%nat -> polys_shape N k sk -> binary_polys sk -> binary s -> length s = n ->
  bsk_enc N k cp w lp Eb sk s bsk ->
  length (lwe_a scr) = n -> glwe_shape N k scg -> (forall i, fft_err N k D (d1 i)) ->
  0 <= B -> B + (Z.of_nat n + 1) * 2 ^ (w - L + Z.of_nat (log_slots count) - 1) < 2 ^ (w - 2) ->
  lwe_wf w n input -> 0 <= m < 2 -> near w B (lwe_phase s input) (m * 2 ^ (w - 1)) ->
  exists lo, cbs_hi_noise h pr w lp log cp count n N k scr scg input bsk d1 = Ok lo /\ glwe_wf w N k lo /\ (count <= N)%nat /\
    forall j, (j < count)%nat -> near w (Z.of_nat n * cmux_noise N k cp w lp Eb D) (glwe_phase N sk lo j + 2 ^ (w - cbs_bits log j)) (m * 2 ^ (w - log * (Z.of_nat j + 1))).
Proof.
  intros L Hw Hdim Hadd Hsub HLw HD HEb Hlp Hcp Hlcp Hlog Hcnt Hlc Hn Hsk Hbin Hs Ls Hbsk Hscr Hscg Hd1 HB HBn Hin Hm Hnear.
  destruct (dim_valid N k Hdim) as (HP & HN0 & Hk). destruct (pow2_log2 N HP) as (EN & _). pose proof (near_word_pow w Hw) as Wp.
  set (v := Z.of_nat (log_slots count)) in *. assert (Hv0 : 0 <= v) by (unfold v; lia).
  assert (Hv : v + 2 <= L).
  { destruct (Z_lt_le_dec L (v + 2)); [exfalso|lia].
    assert (2 ^ (w - 2) <= 2 ^ (w - L + v - 1 + 0)) by (apply Z.pow_le_mono_r; lia). rewrite Z.add_0_r in *.
    assert (0 < 2 ^ (w - L + v - 1)) by (apply pow_pos'; lia). nia. }
  assert (HcN : (count <= N)%nat). { pose proof (count_le_slots count ltac:(lia)). apply (Nat.le_trans _ _ _ H). rewrite EN. apply Nat.pow_le_mono_r; [lia|]. unfold v, L in *. lia. }
  unfold cbs_hi_noise. destruct (Nat.ltb_spec count 8); [|lia]. rewrite t_encode_ok by (assumption || lia). cbn [bind]. rewrite Z.mul_1_l.
  unfold lwe_rotate, lwe_valid. rewrite Hscr, (proj1 Hin), Nat.eqb_refl. cbn [andb bind].
  set (q := 2 ^ (w - 2) mod 2 ^ w). set (inp := {| lwe_a := lwe_a input; lwe_b := tadd w (lwe_b input) q |}).
  assert (Wi : lwe_wf w n inp). { destruct Hin as (A & T1 & T2). split; [assumption|]. split; [assumption|]. cbn [lwe_b inp]. unfold tadd. apply uwrap_torus. lia. }
  assert (Pi : congr w (lwe_phase s inp) (lwe_phase s input + 2 ^ (w - 2))).
  { unfold lwe_phase, inp. cbn [lwe_a lwe_b]. rewrite tadd_congr. unfold q. transitivity (lwe_b input + 2 ^ (w - 2) - dotz (lwe_a input) s); [|apply zeq_refl'; ring].
    apply zeq_sub; [|reflexivity]. apply zeq_add; [reflexivity|apply zeq_mod]. }
  rewrite cbs_log_v_ok by lia. cbn [bind]. destruct (cbs_lut_ok N w pr log count k Hw Hlog ltac:(lia)) as (T & ET & WT & _ & PT). rewrite ET. cbn [bind]. fold v.
  pose proof (bsk_enc_valid N k cp w lp Eb sk s bsk Hbsk) as Hbv. rewrite Ls in Hbv.
  destruct (generalized_pbs_ok N w h pr lp cp k D Hw Hdim Hadd Hsub Hlp Hcp Hlcp HD n scg inp T bsk 0 v d1 Hn Wi Hbv Hscg WT ltac:(lia) ltac:(fold L; lia) HLw Hd1) as (lo & Elo & Wlo & Plo).
  destruct (Plo sk s Eb Hsk Hbin Hs HEb Hbsk) as (idx & Dv & Nv & Pv). fold L in Nv. rewrite Z.pow_0_r, Z.mul_1_r in Nv.
  assert (Nv2 : near w (B + (Z.of_nat n + 1) * 2 ^ (w - L + v - 1)) (idx * 2 ^ (w - L)) (m * 2 ^ (w - 1) + 2 ^ (w - 2))).
  { rewrite Z.add_comm. eapply near_trans; [exact Nv|]. eapply near_congr; [symmetry; exact Pi|reflexivity|].
    replace B with (B + 0) by ring. apply near_add; [exact Hnear|apply near_refl]. }
  exists lo. split; [assumption|]. split; [assumption|]. split; [assumption|].
  intros j Hj. assert (Hb : cbs_bits log j < w). { assert (log * (Z.of_nat j + 1) <= log * Z.of_nat count) by (apply Z.mul_le_mono_nonneg_l; lia). unfold cbs_bits. lia. }
  pose proof (cbs_select N w log count L v idx m j _ Hw HP eq_refl HLw Hlog ltac:(lia) eq_refl Hv Dv Nv2 HBn Hm ltac:(lia) Hb) as Q.
  apply (pnear_coef N w _ _ _ j ltac:(lia)) in Pv.
  eapply near_congr; [reflexivity|exact Q|]. rewrite <- (Z.add_0_r (Z.of_nat n * _)). apply near_add; [|apply near_refl].
  eapply near_congr; [reflexivity| |exact Pv]. apply (pmono_mor N (2 ^ w) (- idx) _ _ (PT sk) j). lia.
Qed.
