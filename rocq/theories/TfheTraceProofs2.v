(** Lemmas about automorphism key generation, the trace loop and the power-of-two modulus switch. *)
From Verif Require Import Base Alu AluProofs MuxGraph PolyRing Tfhe TfheGlwe TfheBoot TfheTrace SpecTfhe SpecGlwe SpecBoot SpecTrace FluentIntProofs TfheProofs TfheProofs2 TfheProofs3 TfheGlweProofs TfheGlweProofs2 TfheGlweProofs3 TfheGlweProofs4 TfheBootProofs TfheBootProofs2 TfheBootProofs3 TfheBootProofs4 TfheTraceProofs.
Ltac Zify.zify_post_hook ::= idtac.
Open Scope Z_scope.

Lemma pow2_div N i : is_pow2 N = true -> (i <= Nat.log2 N)%nat -> (N / 2 ^ i = 2 ^ (Nat.log2 N - i) /\ N = 2 ^ i * (N / 2 ^ i))%nat.
Proof.
  intros HP Hi. destruct (pow2_log2 N HP) as (EN & _). pose proof (Nat.pow_nonzero 2 i ltac:(lia)).
  assert (E : (N = 2 ^ (Nat.log2 N - i) * 2 ^ i)%nat) by (rewrite <- Nat.pow_add_r; rewrite EN at 1; f_equal; lia).
  assert (Q : (N / 2 ^ i = 2 ^ (Nat.log2 N - i))%nat) by (rewrite E at 1; apply Nat.div_mul; assumption). rewrite Q. split; [reflexivity|]. lia.
Qed.
Lemma trace_exp_odd N i : is_pow2 N = true -> (1 <= i <= Nat.log2 N)%nat -> Nat.odd (trace_exp N i) = true.
Proof.
  intros HP Hi. unfold trace_exp. destruct (pow2_div N (i - 1) HP ltac:(lia)) as (-> & _).
  replace (Nat.log2 N - (i - 1))%nat with (S (Nat.log2 N - i)) by lia. rewrite Nat.add_1_r, Nat.odd_succ, Nat.pow_succ_r'. apply Nat.even_mul.
Qed.

Section P.
Context (N : nat) (w : Z).
Notation "f == g" := (peq N (2 ^ w) f g) (at level 70).
Notation pn := (pnear N w).
Add Ring poly_ring_tr2 : (poly_ring N (2 ^ w)) (setoid (peq_equiv N (2 ^ w)) (poly_ring_ext N (2 ^ w))).

Lemma glev_enc_peq k log E sk m m' row : m == m' -> glev_enc N k w log E sk m row -> glev_enc N k w log E sk m' row.
Proof.
  intros H He j c Hc. destruct (He j c Hc) as (S0 & P). split; [assumption|]. eapply pnear_peq; [reflexivity| |exact P]. apply pscale_mor; [reflexivity|assumption].
Qed.

Lemma ak_loop_ok pr log count k sk E : word w -> is_pow2 N = true -> 1 <= log -> (1 <= count)%nat -> log * Z.of_nat count <= w -> polys_shape N k sk -> binary_polys sk -> 0 <= E ->
  forall ak i sc rnd, (1 <= i)%nat -> (i + length ak = S (Nat.log2 N))%nat -> polys_shape N k sc ->
  Forall (fun ksk => length ksk = k /\ Forall (fun r => length r = count /\ Forall (glwe_fresh N k) r) ksk) ak ->
  (forall j, length (rnd j) = k /\ Forall (fun r => length r = count /\ Forall (glwe_rnd_ok N k w E) r) (rnd j)) ->
  exists ak', ak_loop pr w log N sk sc ak i rnd = Ok ak' /\ length ak' = length ak /\
    forall j ksk, nth_error ak' j = Some ksk ->
      length ksk = k /\ Forall (fun r => length r = count /\ Forall (glwe_shape N k) r) ksk /\
      forall t s row, nth_error sk t = Some s -> nth_error ksk t = Some row -> glev_enc N k w log E sk (psubst N (trace_exp N (i + j)) (coef s)) row.
Proof.
  intros Hw HP Hl Hc Hs Hsk Hb HE. induction ak as [|ksk ak IH]; intros i sc rnd Hi Hlen Hsc Hf Hr; cbn [ak_loop length] in *.
  - exists []. split; [reflexivity|]. split; [reflexivity|]. intros [|j]; discriminate.
  - apply Forall_cons_iff in Hf as [(Lk & Fk) Hf].
    pose proof (word_pos w Hw) as Hwp. pose proof (pow_pos' w ltac:(lia)) as Hpw.
    destruct (polys_pow_k_ok N w k (umul pr w) (trace_exp N i) Hw HP (trace_exp_odd N i HP ltac:(lia)) sk sc Hsk Hsc) as (sk' & E1 & S1 & T1 & P1).
    { intros x t s Hx Ht Hsg. assert (Hbit : nth t x 0 = 0 \/ nth t x 0 = 1).
      { apply (proj1 (Forall_forall _ _) (proj1 (Forall_forall _ _) Hb x Hx)). apply nth_In. rewrite (proj1 (Forall_forall _ _) (proj2 Hsk) x Hx). assumption. }
      assert (2 <= 2 ^ w). { replace 2 with (2 ^ 1) at 1 by reflexivity. apply Z.pow_le_mono_r; lia. }
      rewrite umul_ok by (destruct Hbit as [-> | ->], Hsg as [-> | ->]; lia). rewrite Z.mod_small; [reflexivity|]. destruct Hbit as [-> | ->], Hsg as [-> | ->]; lia. }
    rewrite E1. cbn [bind]. destruct (Hr i) as (Lri & Fri).
    destruct (gksk_loop_ok N w pr log count k sk E Hw HP Hl Hs Hsk HE sk' ksk (rnd i)) as (g & E2 & L2 & W2 & P2); try assumption.
    { apply S1. } { rewrite (proj1 S1), Lk. reflexivity. } { congruence. }
    rewrite E2. cbn [bind]. destruct (IH (S i) sk' rnd ltac:(lia) ltac:(lia) S1 Hf Hr) as (ak' & E3 & L3 & P3). rewrite E3. cbn [bind].
    exists (g :: ak'). split; [reflexivity|]. split; [cbn; lia|]. intros [|j] ksk' Hj; cbn [nth_error] in Hj.
    + injection Hj as <-. split; [congruence|]. split.
      * apply Forall_forall. intros r Hin. destruct (proj1 (Forall_forall _ _) W2 r Hin) as (A & B). split; [assumption|]. eapply Forall_impl; [|exact B]. intros a Ha. apply Ha.
      * intros t s row Hs' Hrow. rewrite Nat.add_0_r. destruct (nth_error sk' t) as [s'|] eqn:Hs1.
        2:{ exfalso. apply nth_error_None in Hs1. assert (t < length sk)%nat by (apply nth_error_Some; congruence). destruct S1 as (S1 & _), Hsk as (S2 & _). lia. }
        destruct (Forall2_nth_r _ _ _ t s' row P2 Hs1 Hrow) as (_ & En).
        pose proof (Forall2_nth_r _ _ _ t s s' P1 Hs' Hs1) as Q. cbv beta in Q.
        eapply glev_enc_peq; [exact Q|exact En].
    + replace (i + S j)%nat with (S i + j)%nat by lia. apply P3. assumption.
Qed.

(** ** The trace *)

(** The exact effect of the first i steps: coefficients whose index 2^i divides are multiplied by 2^i, the
    others vanish. *)
Definition tr (i : nat) (f : poly) : poly := fun j => if (j mod 2 ^ i =? 0)%nat then 2 ^ Z.of_nat i * f j else 0.

Lemma tr_step i f : is_pow2 N = true -> (i < Nat.log2 N)%nat -> forall j, (j < N)%nat -> tr i f j + psubst N (N / 2 ^ i + 1) (tr i f) j = tr (S i) f j.
Proof.
  intros HP Hi j Hj. pose proof (trace_exp_odd N (S i) HP ltac:(lia)) as Ho. unfold trace_exp in Ho. replace (S i - 1)%nat with i in Ho by lia.
  destruct (pow2_div N i HP ltac:(lia)) as (EM & EN). set (M := (N / 2 ^ i)%nat) in *. set (k := (M + 1)%nat) in *.
  pose proof (Nat.pow_nonzero 2 i ltac:(lia)) as Hp.
  assert (Fix : forall t, (t < N)%nat -> (t mod 2 ^ i = 0)%nat -> (t * k mod N = t /\ t * k / N = t / 2 ^ i)%nat).
  { intros t Ht Hm. pose proof (Nat.div_mod t (2 ^ i) Hp) as D. rewrite Hm in D. set (m := (t / 2 ^ i)%nat) in *.
    assert (E : (t * k = t + m * N)%nat) by (unfold k; rewrite EN; nia). rewrite E. split.
    - rewrite Nat.mod_add by lia. now apply Nat.mod_small.
    - rewrite Nat.div_add by lia. rewrite Nat.div_small by assumption. reflexivity. }
  destruct (idx_surj N k j HP Ho Hj) as (t & Ht & Ej). pose proof (psubst_at N k (tr i f) t HP Ho Ht) as Q. rewrite Ej in Q. rewrite Q. clear Q.
  assert (ES : (2 ^ S i = 2 ^ i * 2)%nat) by (cbn; lia).
  assert (PS : 2 ^ Z.of_nat (S i) = 2 * 2 ^ Z.of_nat i) by (rewrite Nat2Z.inj_succ, Z.pow_succ_r by lia; reflexivity).
  destruct (Nat.eqb_spec (t mod 2 ^ i) 0) as [Hm|Hm].
  - destruct (Fix t Ht Hm) as (F1 & F2). rewrite F1 in Ej. subst t. unfold tr, sgn. rewrite F2. rewrite (proj2 (Nat.eqb_eq _ _) Hm).
    rewrite ES, Nat.mod_mul_r by lia. rewrite Hm. rewrite PS. cbn [Nat.add].
    rewrite <- Nat.bit0_mod by lia. 
    destruct (Nat.even (j / 2 ^ i)) eqn:Ev.
    + apply Nat.even_spec in Ev as (m & Em). rewrite Em. replace (Nat.testbit (2 * m) 0) with false by (symmetry; apply Nat.testbit_even_0). cbn [Nat.b2n]. rewrite Nat.mul_0_r. cbn [Nat.eqb]. ring.
    + assert (Od : Nat.odd (j / 2 ^ i) = true) by (unfold Nat.odd; now rewrite Ev). apply Nat.odd_spec in Od as (m & Em). rewrite Em, Nat.testbit_odd_0. cbn [Nat.b2n]. rewrite Nat.mul_1_r.
      rewrite (proj2 (Nat.eqb_neq _ _) Hp). ring.
  - assert (Hjm : (j mod 2 ^ i <> 0)%nat). { intros C. destruct (Fix j Hj C) as (F1 & _). rewrite <- F1 in Ej at 1. apply (idx_inj N k t j) in Ej; try assumption. subst t. contradiction. }
    unfold tr. rewrite (proj2 (Nat.eqb_neq _ _) Hm), (proj2 (Nat.eqb_neq _ _) Hjm). rewrite ES, Nat.mod_mul_r by lia.
    rewrite (proj2 (Nat.eqb_neq _ _)); [ring|]. intros C. apply Hjm. lia.
Qed.

Lemma tr_0 f : forall j, tr 0 f j = f j.
Proof. intros j. unfold tr. cbn [Nat.pow]. rewrite Nat.mod_1_r. cbn [Nat.eqb]. change (2 ^ Z.of_nat 0) with 1. ring. Qed.

Lemma psubst_l1 k f M : is_pow2 N = true -> Nat.odd k = true -> (forall j, (j < N)%nat -> Z.abs (f j) <= M) -> l1bnd N (Z.of_nat N * M) (psubst N k f).
Proof. intros HP Hk H. apply pbnd_l1. now apply psubst_bnd. Qed.

Lemma trace_loop_ok h pr log count k D sk E : word w -> glwe_dim_valid N k = true -> sub_exact h pr w -> 1 <= log -> (1 <= count)%nat -> log * Z.of_nat count < w ->
  0 <= D -> 0 <= E -> polys_shape N k sk -> binary_polys sk -> 
  forall ak i out ks gk ds, (i + length ak = Nat.log2 N)%nat -> glwe_wf w N k out -> glwe_shape N k ks -> glwe_shape N k gk -> (forall j, fft_err N k D (ds j)) ->
  (forall j ksk, nth_error ak j = Some ksk ->
      length ksk = k /\ Forall (fun r => length r = count /\ Forall (glwe_shape N k) r) ksk /\
      forall t s row, nth_error sk t = Some s -> nth_error ksk t = Some row -> glev_enc N k w log E sk (psubst N (N / 2 ^ (i + j) + 1) (coef s)) row) ->
  exists r, trace_loop h pr w log count N k out ks gk ak (S i) ds = Ok r /\ glwe_wf w N k r /\
    forall f, pn ((2 ^ Z.of_nat i - 1) * fft_ks_noise N k count w log E D) (glwe_phase N sk out) (tr i f) ->
      pn ((2 ^ Z.of_nat (Nat.log2 N) - 1) * fft_ks_noise N k count w log E D) (glwe_phase N sk r) (tr (Nat.log2 N) f).
Proof.
  intros Hw Hdim Hx Hl Hc Hs HD HE Hsk Hb. destruct (dim_valid N k Hdim) as (HP & HN0 & Hk).
  induction ak as [|ksk ak IH]; intros i out ks gk ds Hlen Ho Hks Hgk Hds Hak; cbn [trace_loop length] in *.
  - exists out. split; [reflexivity|]. split; [assumption|]. intros f. replace (Nat.log2 N) with i by lia. auto.
  - assert (Hodd : Nat.odd (trace_exp N (S i)) = true) by (apply trace_exp_odd; [assumption|lia]).
    assert (Ek : trace_exp N (S i) = (N / 2 ^ i + 1)%nat) by (unfold trace_exp; do 3 f_equal; lia).
    destruct (Hak O ksk eq_refl) as (Lk & Fk & Ek1). rewrite Nat.add_0_r in Ek1. rewrite Ek in *. set (kk := (N / 2 ^ i + 1)%nat) in *.
    destruct Ho as ((Sa & Lb) & Ta & Tb). destruct Hgk as (Sg & Lg).
    destruct (polys_pow_k_ok N w k (mul_torus w) kk Hw HP Hodd (ga out) (ga gk) Sa Sg) as (a & E1 & S1 & T1 & P1). { intros. now apply mul_torus_ok. }
    destruct (poly_pow_k_ok N w (mul_torus w) (gb gk) (gb out) kk Hw HP Hodd Lb Lg) as (b & E2 & (L2 & T2) & P2). { intros. now apply mul_torus_ok. }
    rewrite E1. cbn [bind]. rewrite E2. cbn [bind]. cbv zeta. set (gk' := {| ga := a; gb := b |}).
    assert (Wg : glwe_wf w N k gk') by (split; [split; assumption|split; assumption]).
    destruct (keyswitch_fft_ok N w h pr log count k ks gk' ksk (ds (S i)) D Hw HP Hx Hl Hc Hs Hks Wg Lk Fk HD (Hds (S i))) as (ks' & E3 & W3 & P3).
    rewrite E3. cbn [bind].
    destruct (glwe_add_assign_ok N w k out ks' Hw Hdim) as (out' & E4 & S4 & W4 & P4). { split; assumption. } { apply W3. }
    rewrite E4. cbn [bind].
    assert (Wo : glwe_wf w N k out') by (apply W4; split; [split; assumption|split; assumption]).
    destruct (IH (S i) out' ks' gk' ds ltac:(lia) Wo (proj1 W3) (proj1 Wg) Hds) as (r & E5 & W5 & P5).
    { intros j ksk' Hj. replace (S i + j)%nat with (i + S j)%nat by lia. apply Hak. assumption. }
    exists r. split; [assumption|]. split; [assumption|]. intros f Hf. apply P5. set (K := fft_ks_noise N k count w log E D) in *.
    assert (Hms : Forall (l1bnd N (Z.of_nat N)) (map (fun s => psubst N kk (coef s)) sk)).
    { apply Forall_forall. intros y Hy. apply in_map_iff in Hy as (s & <- & Hs'). replace (Z.of_nat N) with (Z.of_nat N * 1) by ring. apply psubst_l1; try assumption.
      intros j Hj. unfold coef. pose proof (proj1 (Forall_forall _ _) (proj1 (Forall_forall _ _) Hb s Hs') (nth j s 0)) as Q.
      destruct Q as [-> | ->]; [apply nth_In; rewrite (proj1 (Forall_forall _ _) (proj2 Hsk) s Hs'); assumption|lia|lia]. }
    assert (Henc : Forall2 (glev_enc N k w log E sk) (map (fun s => psubst N kk (coef s)) sk) ksk).
    { clear - Ek1 Lk Hsk. destruct Hsk as (Ls & _). assert (L : length sk = length ksk) by congruence.
      assert (G : forall sk' ksk', length sk' = length ksk' -> (forall t s row, nth_error sk' t = Some s -> nth_error ksk' t = Some row -> glev_enc N k w log E sk (psubst N kk (coef s)) row) -> Forall2 (glev_enc N k w log E sk) (map (fun s => psubst N kk (coef s)) sk') ksk').
      { induction sk' as [|s sk' IH]; intros [|r ksk'] L' H; try discriminate; constructor; [apply (H O); reflexivity|]. apply IH; [cbn in L'; lia|]. intros t. apply (H (S t)). }
      apply G; assumption. }
    specialize (P3 sk _ (Z.of_nat N) E HE Hms Henc Hsk Hb). fold (fft_ks_noise N k count w log E D) in P3. fold K in P3. cbn [ga gb gk'] in P3.
    assert (P3' : pn K (glwe_phase N sk ks') (psubst N kk (glwe_phase N sk out))).
    { eapply pnear_peq; [reflexivity| |exact P3]. unfold glwe_phase. etransitivity; [|apply peq_exact; intros j Hj; symmetry; apply psubst_sub].
      cbn [ga gb]. rewrite P2. rewrite (pdotp_subst N w kk HN0 Hodd (ga out) a sk P1). reflexivity. }
    pose proof (psubst_pnear N w kk _ _ _ HP Hodd Hf) as Hf'.
    eapply pnear_peq; [symmetry; apply P4|apply peq_exact; exact (tr_step i f HP ltac:(lia))|].
    eapply pnear_weaken; [|apply pnear_add; [exact Hf|eapply pnear_trans; [exact P3'|exact Hf']]].
    rewrite Nat2Z.inj_succ, Z.pow_succ_r by lia. lia.
Qed.

(** ** Power-of-two modulus switch *)

Lemma shr_round_ok pr x n : word w -> torus w x -> 1 <= n < w -> exists y, shr_round pr w x n = Ok y /\ torus w y /\ Z.abs (2 ^ n * y - x) <= 2 ^ (n - 1).
Proof.
  intros Hw (Hx & Hx') Hn. pose proof (near_word_pow w Hw) as Hw64. unfold shr_round. assert (H64 : 64 < 2 ^ 32) by reflexivity. rewrite usub_ok by lia. cbn [bind].
  rewrite !ushr_ok by lia. cbn [bind]. rewrite land_1. eexists. split; [reflexivity|].
  assert (EP : 2 ^ n = 2 * 2 ^ (n - 1)) by (rewrite <- Z.pow_succ_r by lia; f_equal; lia).
  pose proof (pow_pos' (n - 1) ltac:(lia)) as PH. set (H := 2 ^ (n - 1)) in *.
  pose proof (Z.div_mod x H ltac:(lia)) as D. pose proof (Z.mod_pos_bound x H ltac:(lia)) as B. set (q := x / H) in *. set (r := x mod H) in *.
  pose proof (Z.div_mod q 2 ltac:(lia)) as D2. pose proof (Z.mod_pos_bound q 2 ltac:(lia)) as B2.
  assert (EQ : x / 2 ^ n = q / 2) by (rewrite EP, (Z.mul_comm 2 H), <- Z.div_div by lia; reflexivity). rewrite EQ.
  assert (Hq : 0 <= q) by (apply Z.div_pos; lia).
  assert (S1 : q / 2 + q mod 2 <= q) by lia. assert (S2 : q <= x) by (unfold q; apply Z.div_le_upper_bound; nia).
  assert (S3 : 0 <= q / 2) by (apply Z.div_pos; lia).
  unfold tadd, uwrap. rewrite Z.mod_small by lia. split; [unfold torus; lia|]. rewrite EP. set (a := q / 2) in *. set (b := q mod 2) in *. clearbody a b q r H.
  assert (HX : x = H * (2 * a + b) + r) by (clear - D D2; nia). apply Z.abs_le. clear - HX B B2 PH. assert (b = 0 \/ b = 1) as [-> | ->] by lia; nia.
Qed.
Lemma poly_shr_ok pr p n : word w -> poly_wf w N p -> 1 <= n < w ->
  exists r d, poly_shr_round pr w p n = Ok r /\ poly_wf w N r /\ length d = N /\ Forall (fun x => Z.abs x <= 2 ^ (n - 1)) d /\
    forall j, 2 ^ n * nth j r 0 = nth j p 0 + nth j d 0.
Proof.
  intros Hw (Lp & Tp) Hn. unfold poly_shr_round. assert (G : forall p, toruses w p -> exists r d, mapM (fun x => shr_round pr w x n) p = Ok r /\ length r = length p /\ toruses w r /\
    length d = length p /\ Forall (fun x => Z.abs x <= 2 ^ (n - 1)) d /\ forall j, 2 ^ n * nth j r 0 = nth j p 0 + nth j d 0).
  { clear p Lp Tp. induction p as [|x p IH]; intros T; cbn [mapM].
    - exists [], []. split; [reflexivity|]. split; [reflexivity|]. split; [constructor|]. split; [reflexivity|]. split; [constructor|]. intros [|j]; cbn [nth]; ring.
    - apply Forall_cons_iff in T as [Tx T]. destruct (shr_round_ok pr x n Hw Tx Hn) as (y & E & Ty & B). destruct (IH T) as (r & d & E' & L & Tr & Ld & Fd & Q).
      rewrite E. cbn [bind]. rewrite E'. cbn [bind]. exists (y :: r), (2 ^ n * y - x :: d). split; [reflexivity|]. split; [cbn [length]; lia|]. split; [constructor; assumption|].
      split; [cbn [length]; lia|]. split; [constructor; assumption|]. intros [|j]; cbn [nth]; [ring|apply Q]. }
  destruct (G p Tp) as (r & d & E & L & Tr & Ld & Fd & Q). exists r, d. split; [assumption|]. split; [split; [congruence|assumption]|]. split; [congruence|]. split; assumption.
Qed.
Lemma glwe_shr_ok pr k c n : word w -> glwe_wf w N k c -> 1 <= n < w ->
  exists r, glwe_shr_round pr w c n = Ok r /\ glwe_wf w N k r /\
    forall sk, polys_shape N k sk -> binary_polys sk ->
      pn (2 ^ (n - 1) * (1 + Z.of_nat k * Z.of_nat N)) (pscale (2 ^ n) (glwe_phase N sk r)) (glwe_phase N sk c).
Proof.
  intros Hw ((Sa & Lb) & Ta & Tb) Hn. unfold glwe_shr_round.
  assert (G : forall l k, polys_shape N k l -> Forall (toruses w) l -> exists r d, mapM (fun p => poly_shr_round pr w p n) l = Ok r /\ polys_shape N k r /\ Forall (toruses w) r /\
    polys_shape N k d /\ Forall (Forall (fun x => Z.abs x <= 2 ^ (n - 1))) d /\
    forall sk, pscale (2 ^ n) (pdots N r sk) == padd (pdots N l sk) (pdots N d sk)).
  { clear Sa Ta. induction l as [|p l IH]; intros k0 (L & F) T; cbn [mapM].
    - exists [], []. split; [reflexivity|]. split; [split; assumption|]. split; [constructor|]. split; [split; assumption|]. split; [constructor|].
      intros sk. cbn [pdots]. apply peq_exact. intros. unfold pscale, padd, p0. ring.
    - apply Forall_cons_iff in F as [F1 F]. apply Forall_cons_iff in T as [T1 T]. destruct k0 as [|k0]; [discriminate|].
      destruct (poly_shr_ok pr p n Hw (conj F1 T1) Hn) as (r1 & d1 & E1 & (L1 & Tr1) & Ld1 & Fd1 & Q1).
      destruct (IH k0) as (r & d & E & (Lr & Fr) & Tr & (Ld & Fd) & Bd & Q). { split; [cbn in L; lia|assumption]. } { assumption. }
      rewrite E1. cbn [bind]. rewrite E. cbn [bind]. exists (r1 :: r), (d1 :: d). split; [reflexivity|]. split; [split; [cbn; lia|constructor; assumption]|].
      split; [constructor; assumption|]. split; [split; [cbn; lia|constructor; assumption]|]. split; [constructor; assumption|].
      intros [|s sk]; cbn [pdots]; [apply peq_exact; intros; unfold pscale, padd, p0; ring|].
      rewrite pscale_add, Q, <- pmul_scale_l. assert (Q1' : pscale (2 ^ n) (coef r1) == padd (coef p) (coef d1)) by (apply peq_exact; intros j _; apply Q1).
      rewrite Q1'. ring. }
  destruct (G (ga c) k Sa Ta) as (a & da & E1 & S1 & T1 & Sd & Bd & Q1). rewrite E1. cbn [bind].
  destruct (poly_shr_ok pr (gb c) n Hw (conj Lb Tb) Hn) as (b & db & E2 & (L2 & T2) & Ld & Bd2 & Q2). rewrite E2. cbn [bind].
  eexists. split; [reflexivity|]. split; [split; [split; assumption|split; assumption]|]. intros sk Hs Hb.
  pose proof (fft_err_phase N w k (2 ^ (n - 1)) {| ga := da; gb := db |} sk) as P. cbn [ga gb] in P.
  assert (0 < 2 ^ (n - 1)) by (apply pow_pos'; lia).
  specialize (P ltac:(lia) ltac:(split; [split; assumption|split; assumption]) Hs Hb). replace (2 ^ (n - 1) * (1 + Z.of_nat k * Z.of_nat N)) with (0 + 2 ^ (n - 1) * (1 + Z.of_nat k * Z.of_nat N)) by ring.
  eapply pnear_peq; [| |apply pnear_add; [apply (pnear_refl N w (glwe_phase N sk c)); reflexivity|exact P]].
  - unfold glwe_phase. cbn [ga gb]. rewrite (pscale_as_mul N (2 ^ w) (2 ^ n)).
    assert (Q2' : pscale (2 ^ n) (coef b) == padd (coef (gb c)) (coef db)) by (apply peq_exact; intros j _; apply Q2).
    specialize (Q1 sk). rewrite pscale_as_mul in Q1, Q2'.
    transitivity (psub (pmul N (pscale (2 ^ n) p1) (coef b)) (pmul N (pscale (2 ^ n) p1) (pdots N a sk))); [|ring]. rewrite Q1, Q2'. ring.
  - ring.
Qed.
End P.
