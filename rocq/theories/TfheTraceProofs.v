(** Lemmas about X -> X^k, automorphism keys and the trace. *)
From Coq Require Import Znumtheory Zpow_facts Logic.FinFun.
From Verif Require Import Base Alu AluProofs MuxGraph MuxGraphProofs PolyRing Tfhe TfheGlwe TfheBoot TfheTrace SpecTfhe SpecGlwe SpecBoot SpecTrace FluentIntProofs TfheProofs TfheProofs2 TfheProofs3 TfheGlweProofs TfheGlweProofs2 TfheGlweProofs3 TfheGlweProofs4 TfheBootProofs TfheBootProofs2 TfheBootProofs3 TfheBootProofs4.
Ltac Zify.zify_post_hook ::= idtac.
Open Scope Z_scope.

(** ** Index arithmetic: i -> i k mod N permutes 0..N-1 for odd k and N a power of two *)

Lemma pow_odd_gauss a x k : Z.odd k = true -> 0 <= a -> (2 ^ a | x * k) -> (2 ^ a | x).
Proof.
  intros Ho Ha H. apply (Gauss (2 ^ a) k x); [now rewrite Z.mul_comm|].
  apply rel_prime_sym, rel_prime_Zpower_r; [assumption|]. apply rel_prime_sym. apply Zgcd_1_rel_prime.
  destruct (Z.odd_spec k) as [Q _]. destruct (Q Ho) as (m & ->).
  pose proof (Z.gcd_nonneg 2 (2 * m + 1)). assert (G : (Z.gcd 2 (2 * m + 1) | 1)).
  { assert (E : (Z.gcd 2 (2 * m + 1) | (2 * m + 1) - 2 * m)) by (apply Z.divide_sub_r; [apply Z.gcd_divide_r|apply Z.divide_mul_l, Z.gcd_divide_l]).
    replace (2 * m + 1 - 2 * m) with 1 in E by ring. exact E. }
  apply Z.divide_1_r_nonneg in G; assumption.
Qed.
Lemma even_Z n : Z.even (Z.of_nat n) = Nat.even n.
Proof.
  induction n as [|n IH]; [reflexivity|]. rewrite Nat2Z.inj_succ, Z.even_succ, Nat.even_succ, <- Z.negb_even, <- Nat.negb_even, IH. reflexivity.
Qed.
Lemma idx_inj N k i j : is_pow2 N = true -> Nat.odd k = true -> (i < N)%nat -> (j < N)%nat -> (i * k mod N = j * k mod N)%nat -> i = j.
Proof.
  intros HP Hk Hi Hj E. destruct (pow2_log2 N HP) as (EN & _).
  assert (EZ : Z.of_nat N = 2 ^ Z.of_nat (Nat.log2 N)) by (rewrite EN at 1; apply pow2_Z).
  assert (D : (Z.of_nat N | (Z.of_nat i - Z.of_nat j) * Z.of_nat k)).
  { pose proof (Nat.div_mod (i * k) N ltac:(lia)) as D1. pose proof (Nat.div_mod (j * k) N ltac:(lia)) as D2. rewrite E in D1.
    exists (Z.of_nat (i * k / N) - Z.of_nat (j * k / N)). nia. }
  rewrite EZ in D. apply pow_odd_gauss in D; [|rewrite <- Z.negb_even, even_Z; exact Hk|lia].
  rewrite <- EZ in D. destruct D as (t & Dt). assert (t = 0) by nia. nia.
Qed.
Lemma idx_surj N k j : is_pow2 N = true -> Nat.odd k = true -> (j < N)%nat -> exists i, (i < N)%nat /\ (i * k mod N = j)%nat.
Proof.
  intros HP Hk Hj. assert (HN : (0 < N)%nat) by lia.
  assert (B : bFun N (fun i => (i * k mod N)%nat)) by (intros i _; apply Nat.mod_upper_bound; lia).
  destruct (proj1 (bInjective_bSurjective B)) with (y := j) as (i & Hi & E); [intros x y Hx Hy E; now apply (idx_inj N k)|assumption|].
  exists i. auto.
Qed.

(** ** Closed form of f(X^k) *)

Definition sgn (N k i : nat) : Z := if Nat.even (i * k / N) then 1 else -1.
Lemma pmono_p1 N n j : (j < N)%nat -> pmono N (Z.of_nat n) p1 j = if (j =? n mod N)%nat then (if Nat.even (n / N) then 1 else -1) else 0.
Proof.
  intros Hj. pose proof (Nat.div_mod n N ltac:(lia)) as D. pose proof (Nat.mod_upper_bound n N ltac:(lia)) as B.
  destruct (Nat.eqb_spec j (n mod N)) as [->|Hne].
  - rewrite (pmono_at N _ p1 _ (- Z.of_nat (n / N)) 0) by (try lia; nia). rewrite Z.even_opp, even_Z. unfold p1. cbn [Nat.eqb]. reflexivity.
  - destruct (Nat.lt_ge_cases j (n mod N)) as [C|C].
    + rewrite (pmono_at N _ p1 _ (- Z.of_nat (n / N) - 1) (N + j - n mod N)) by (try lia; nia). unfold p1.
      rewrite (proj2 (Nat.eqb_neq _ _)) by lia. destruct (Z.even _); reflexivity.
    + rewrite (pmono_at N _ p1 _ (- Z.of_nat (n / N)) (j - n mod N)) by (try lia; nia). unfold p1.
      rewrite (proj2 (Nat.eqb_neq _ _)) by lia. destruct (Z.even _); reflexivity.
Qed.
Lemma psubst_at N k f i : is_pow2 N = true -> Nat.odd k = true -> (i < N)%nat -> psubst N k f (i * k mod N)%nat = sgn N k i * f i.
Proof.
  intros HP Hk Hi. unfold psubst, psum, pscale. assert (B : (i * k mod N < N)%nat) by (apply Nat.mod_upper_bound; lia).
  rewrite (zsum_single N i _ Hi).
  - rewrite pmono_p1, Nat.eqb_refl by assumption. unfold sgn. ring.
  - intros j Hj Hne. rewrite pmono_p1 by assumption. rewrite (proj2 (Nat.eqb_neq _ _)); [ring|]. intros E. apply Hne. symmetry. now apply (idx_inj N k).
Qed.
Lemma psubst_bnd N k E f : is_pow2 N = true -> Nat.odd k = true -> pbnd N E f -> pbnd N E (psubst N k f).
Proof.
  intros HP Hk H j Hj. destruct (idx_surj N k j HP Hk Hj) as (i & Hi & <-). rewrite psubst_at by assumption. specialize (H i Hi). unfold sgn.
  destruct (Nat.even _); [now rewrite Z.mul_1_l|]. replace (-1 * f i) with (- f i) by ring. now rewrite Z.abs_opp.
Qed.
Lemma psubst_mor N q k f g : peq N q f g -> peq N q (psubst N k f) (psubst N k g).
Proof. intros H. unfold psubst. apply psum_mor. intros i Hi. apply pscale_mor; [now apply H|reflexivity]. Qed.
Lemma psubst_add N k f g j : psubst N k (padd f g) j = padd (psubst N k f) (psubst N k g) j.
Proof. unfold psubst, psum, padd, pscale. rewrite <- zsum_add. apply zsum_ext. intros. ring. Qed.
Lemma psubst_sub N k f g j : psubst N k (psub f g) j = psub (psubst N k f) (psubst N k g) j.
Proof. unfold psubst, psum, psub, pscale. rewrite <- zsum_sub. apply zsum_ext. intros. ring. Qed.
Lemma psubst_scale N k c f j : psubst N k (pscale c f) j = pscale c (psubst N k f) j.
Proof. unfold psubst, psum, pscale. rewrite <- zsum_mull. apply zsum_ext. intros. ring. Qed.
Lemma psubst_0 N k j : psubst N k p0 j = 0.
Proof. unfold psubst, psum, pscale, p0. apply zsum_0. intros. ring. Qed.
Lemma psubst_sum N k n F j : psubst N k (psum n F) j = psum n (fun i => psubst N k (F i)) j.
Proof.
  unfold psum. induction n as [|n IH]; cbn [zsum]; [apply psubst_0|]. rewrite <- IH. exact (psubst_add N k (fun x => zsum n (fun i => F i x)) (F n) j).
Qed.

(** Multiplying by X becomes multiplying by X^k. *)
Lemma psubst_px N k f j : (0 < N)%nat -> Nat.odd k = true -> (j < N)%nat -> psubst N k (px N f) j = pmono N (Z.of_nat k) (psubst N k f) j.
Proof.
  intros HN Hk Hj. unfold psubst.
  assert (L : forall F c, pmono N c (psum N F) j = psum N (fun i => pmono N c (F i)) j).
  { intros F c. unfold psum, pmono. rewrite <- zsum_mull. reflexivity. }
  rewrite L. assert (L2 : forall c a g, pmono N c (pscale a g) j = a * pmono N c g j) by (intros; unfold pmono, pscale; ring).
  unfold psum, pscale at 1.
  erewrite (zsum_ext N (fun i => pmono N _ _ j)) by (intros i _; rewrite L2, pmono_add by assumption; reflexivity).
  destruct N as [|n]; [lia|]. rewrite zsum_S_l. cbn [zsum]. cbn [px]. replace (S n - 1)%nat with n by lia.
  erewrite zsum_ext with (g := fun i => f i * pmono (S n) (Z.of_nat k + Z.of_nat (i * k)) p1 j).
  2:{ intros i Hi. cbn [px]. do 2 f_equal. lia. }
  enough (Q : - f n * pmono (S n) (Z.of_nat (0 * k)) p1 j = f n * pmono (S n) (Z.of_nat k + Z.of_nat (n * k)) p1 j) by (rewrite Q; ring).
  replace (Z.of_nat k + Z.of_nat (n * k)) with (Z.of_nat (S n * k)) by lia. rewrite !pmono_p1 by assumption.
  rewrite (Nat.mul_comm (S n) k), Nat.mod_mul, Nat.div_mul by lia. cbn [Nat.mul]. rewrite Nat.mod_0_l, Nat.div_0_l by lia.
  unfold Nat.odd in Hk. destruct (Nat.even k); [discriminate|]. destruct (j =? 0)%nat; cbn [Nat.even]; ring.
Qed.
Lemma psubst_pxn N k n f j : (0 < N)%nat -> Nat.odd k = true -> (j < N)%nat -> psubst N k (pxn N n f) j = pmono N (Z.of_nat (n * k)) (psubst N k f) j.
Proof.
  intros HN Hk. revert f j. induction n as [|n IH]; intros f j Hj; [cbn [pxn Nat.mul]; now rewrite pmono_0|].
  cbn [pxn]. rewrite psubst_px by assumption.
  assert (E : forall i, (i < N)%nat -> pmono N (Z.of_nat k) (psubst N k (pxn N n f)) i = pmono N (Z.of_nat k) (pmono N (Z.of_nat (n * k)) (psubst N k f)) i).
  { intros i Hi. unfold pmono at 1 2. rewrite IH; [reflexivity|]. pose proof (Z.mod_pos_bound (Z.of_nat i - Z.of_nat k) (Z.of_nat N) ltac:(lia)). lia. }
  rewrite E, pmono_add by assumption. f_equal. lia.
Qed.
Lemma psubst_mul N q k f g : (0 < N)%nat -> Nat.odd k = true -> peq N q (psubst N k (pmul N f g)) (pmul N (psubst N k f) (psubst N k g)).
Proof.
  intros HN Hk. transitivity (psum N (fun i => pscale (f i) (pmono N (Z.of_nat (i * k)) (psubst N k g)))).
  { apply peq_exact. intros j Hj. unfold pmul. rewrite psubst_sum. unfold psum. apply zsum_ext. intros i Hi. rewrite psubst_scale. unfold pscale.
    rewrite psubst_pxn by assumption. reflexivity. }
  transitivity (psum N (fun i => pmul N (pscale (f i) (pmono N (Z.of_nat (i * k)) p1)) (psubst N k g))).
  { apply psum_mor. intros i Hi. rewrite pmul_scale_l. apply pscale_mor; [reflexivity|]. rewrite pmono_mul_l by assumption. apply pmono_mor. symmetry. apply pmul_1_l. }
  symmetry. unfold psubst at 1. apply pmul_sum_l.
Qed.
Lemma psubst_pnear N w k E f g : is_pow2 N = true -> Nat.odd k = true -> pnear N w E f g -> pnear N w E (psubst N k f) (psubst N k g).
Proof.
  intros HP Hk (e & He & H). exists (psubst N k e). split; [now apply psubst_bnd|].
  etransitivity; [apply psubst_mor; exact H|]. apply peq_exact. intros j Hj. apply psubst_add.
Qed.

(** ** The code *)

Lemma foldM_upd_ok (f : list Z -> nat -> res (list Z)) (idx : nat -> nat) (val : nat -> Z) N :
  (forall acc i, (i < N)%nat -> f acc i = Ok (upd acc (idx i) (fun _ => val i))) -> (forall i, (i < N)%nat -> (idx i < N)%nat) ->
  forall n, (n <= N)%nat -> forall out, length out = N ->
  exists r, foldM f (seq 0 n) out = Ok r /\ length r = N /\
    (forall j, (forall i, (i < n)%nat -> idx i <> j) -> nth j r 0 = nth j out 0) /\
    ((forall i j, (i < N)%nat -> (j < N)%nat -> idx i = idx j -> i = j) -> forall i, (i < n)%nat -> nth (idx i) r 0 = val i).
Proof.
  intros Hf Hidx. induction n as [|n IH]; intros Hn out Ho.
  - exists out. split; [reflexivity|]. split; [assumption|]. split; [auto|]. intros. lia.
  - destruct (IH ltac:(lia) out Ho) as (r & E & L & P1 & P2). rewrite seq_S, foldM_app, E. cbn [bind foldM]. rewrite Hf by lia. cbn [bind].
    exists (upd r (idx (0 + n)%nat) (fun _ => val (0 + n)%nat)). split; [reflexivity|]. split; [now rewrite upd_len|]. cbn [Nat.add]. split.
    + intros j Hj. rewrite upd_nth by (rewrite L; apply Hidx; lia). rewrite (proj2 (Nat.eqb_neq _ _)) by (intros ->; apply (Hj n); lia). apply P1. intros i Hi. apply Hj. lia.
    + intros Hinj i Hi. rewrite upd_nth by (rewrite L; apply Hidx; lia). destruct (Nat.eqb_spec (idx i) (idx n)) as [Q|Q].
      * apply Hinj in Q; [now subst|lia|lia].
      * apply P2; [assumption|]. assert (i <> n) by (intros ->; auto). lia.
Qed.
Lemma poly_pow_k_ok N w mul out p k : word w -> is_pow2 N = true -> Nat.odd k = true -> length p = N -> length out = N ->
  (forall i s, (i < N)%nat -> s = 1 \/ s = 2 ^ w - 1 -> mul (nth i p 0) s = Ok ((nth i p 0 * s) mod 2 ^ w)) ->
  exists r, poly_pow_k w mul out p k = Ok r /\ poly_wf w N r /\ peq N (2 ^ w) (coef r) (psubst N k (coef p)).
Proof.
  intros Hw HP Hk Lp Lo Hm. pose proof (word_pos w Hw). pose proof (pow_pos' w ltac:(lia)). unfold poly_pow_k. rewrite Lp, Lo, Nat.eqb_refl, HP. cbn [andb].
  set (val := fun i => (nth i p 0 * (if Nat.even (i * k / N) then 1 else 2 ^ w - 1)) mod 2 ^ w).
  assert (HN : (0 < N)%nat). { destruct (pow2_log2 N HP) as (-> & _). pose proof (Nat.pow_nonzero 2 (Nat.log2 N)). lia. }
  destruct (foldM_upd_ok (fun acc i => x <- mul (nth i p 0) (if Nat.even (i * k / N) then 1 else 2 ^ w - 1);; Ok (upd acc (i * k mod N) (fun _ => x)))
    (fun i => (i * k mod N)%nat) val N) with (n := N) (out := out) as (r & E & L & P1 & P2).
  { intros acc i Hi. rewrite Hm; [reflexivity|assumption|]. destruct (Nat.even _); auto. }
  { intros i Hi. apply Nat.mod_upper_bound. lia. }
  { lia. } { assumption. }
  exists r. split; [exact E|]. assert (Inj : forall i j, (i < N)%nat -> (j < N)%nat -> (i * k mod N = j * k mod N)%nat -> i = j) by (intros; now apply (idx_inj N k)).
  specialize (P2 Inj). split; [split; [assumption|]|].
  - apply Forall_forall. intros x Hx. apply (In_nth _ _ 0) in Hx as (j & Hj & <-). rewrite L in Hj. destruct (idx_surj N k j HP Hk Hj) as (i & Hi & <-).
    rewrite (P2 i Hi). apply Z.mod_pos_bound. lia.
  - intros j Hj. destruct (idx_surj N k j HP Hk Hj) as (i & Hi & <-). rewrite psubst_at by assumption. unfold coef at 1. rewrite (P2 i Hi).
    unfold val, sgn, coef. etransitivity; [apply zeq_mod|]. destruct (Nat.even _); [apply zeq_refl'; ring|].
    apply zeq_iff; [lia|]. exists (nth i p 0). ring.
Qed.
Lemma mul_torus_ok w x s : word w -> mul_torus w x s = Ok ((x * s) mod 2 ^ w).
Proof. intros. reflexivity. Qed.
Lemma polys_pow_k_ok N w k mul kk : word w -> is_pow2 N = true -> Nat.odd kk = true ->
  forall p out, polys_shape N k p -> polys_shape N k out ->
  (forall x i s, In x p -> (i < N)%nat -> s = 1 \/ s = 2 ^ w - 1 -> mul (nth i x 0) s = Ok ((nth i x 0 * s) mod 2 ^ w)) ->
  exists r, polys_pow_k w mul out p kk = Ok r /\ polys_shape N k r /\ Forall (toruses w) r /\
    Forall2 (fun x y => peq N (2 ^ w) (coef y) (psubst N kk (coef x))) p r.
Proof.
  intros Hw HP Hk p out. revert k out. induction p as [|x p IH]; intros k [|o out] [Lp Fp] [Lo Fo] Hm; cbn [length] in *; try lia; cbn [polys_pow_k].
  - exists []. split; [reflexivity|]. split; [split; [assumption|constructor]|]. split; constructor.
  - apply Forall_cons_iff in Fp as [Fp1 Fp]. apply Forall_cons_iff in Fo as [Fo1 Fo]. destruct k as [|k]; [lia|].
    destruct (poly_pow_k_ok N w mul o x kk Hw HP Hk Fp1 Fo1) as (r & E & [L T] & P). { intros. apply Hm; [now left|assumption|assumption]. }
    destruct (IH k out) as (rs & E' & [L' F'] & T' & P'). { split; [lia|assumption]. } { split; [lia|assumption]. } { intros. apply Hm; [now right|assumption|assumption]. }
    rewrite E. cbn [bind]. rewrite E'. cbn [bind]. exists (r :: rs). split; [reflexivity|]. split; [split; [cbn; lia|constructor; assumption]|].
    split; constructor; assumption.
Qed.

Section P.
Context (N : nat) (w : Z).
Notation "f == g" := (peq N (2 ^ w) f g) (at level 70).
Notation pn := (pnear N w).
Add Ring poly_ring_tr : (poly_ring N (2 ^ w)) (setoid (peq_equiv N (2 ^ w)) (poly_ring_ext N (2 ^ w))).

Lemma pdotp_subst kk : (0 < N)%nat -> Nat.odd kk = true -> forall a a' sk, Forall2 (fun x y => coef y == psubst N kk (coef x)) a a' ->
  pdotp N a' (map (fun s => psubst N kk (coef s)) sk) == psubst N kk (pdots N a sk).
Proof.
  intros HN Hk a a' sk H. revert sk. induction H as [|x y a a' Hxy H IH]; intros [|s sk]; cbn [pdotp pdots map]; try (intros j Hj; rewrite psubst_0; reflexivity).
  transitivity (padd (psubst N kk (pmul N (coef x) (coef s))) (psubst N kk (pdots N a sk))).
  - rewrite IH, Hxy. rewrite (psubst_mul N (2 ^ w) kk (coef x) (coef s)) by assumption. reflexivity.
  - intros j Hj. rewrite psubst_add. reflexivity.
Qed.

Lemma keyswitch_fft_ok h pr log count k out ct ksk d D : word w -> is_pow2 N = true -> sub_exact h pr w -> 1 <= log -> (1 <= count)%nat -> log * Z.of_nat count < w ->
  glwe_shape N k out -> glwe_wf w N k ct -> length ksk = k -> Forall (fun r => length r = count /\ Forall (glwe_shape N k) r) ksk -> 0 <= D -> fft_err N k D d ->
  exists c', keyswitch_fft h pr w log count N k out ct ksk d = Ok c' /\ glwe_wf w N k c' /\
    forall newsk ms M E, 0 <= E -> Forall (l1bnd N M) ms -> Forall2 (glev_enc N k w log E newsk) ms ksk -> polys_shape N k newsk -> binary_polys newsk ->
      pn (Z.of_nat k * gadget_bound N count w log M E + D * (1 + Z.of_nat k * Z.of_nat N)) (glwe_phase N newsk c') (psub (coef (gb ct)) (pdotp N (ga ct) ms)).
Proof.
  intros Hw HP Hx Hl Hc Hs So ([Sa La] & Fa & Ta) Lk Hk HD Hd. pose proof (word_pos w Hw). unfold keyswitch_fft. destruct Sa as [Lga Fga].
  destruct (rows_mad_ok N w pr log count k (ga ct) ksk HP Hw Hl Hc Hs) with (c := glwe_new N k) as (c1 & E1 & S1 & T1 & P1); try assumption.
  { apply Forall_forall. intros x Hx'. split; [apply (proj1 (Forall_forall _ _) Fga x Hx')|apply (proj1 (Forall_forall _ _) Fa x Hx')]. }
  { congruence. } { apply glwe_new_shape. }
  rewrite E1. cbn [bind]. destruct (glwe_trivial_ok N w k (glwe_new N k) (gb ct) (glwe_new_shape N k) La) as (St & _ & Tt & Pt).
  destruct (glwe_perturb_ok N w k c1 d Hw) as (W1 & Q1). { apply T1, glwe_new_wf. lia. } { apply Hd. }
  destruct (glwe_sub_ok N w k h pr out (glwe_trivial (glwe_new N k) (gb ct)) (glwe_perturb w c1 d) Hw Hx So) as (c' & E2 & W2 & P2).
  { apply Tt; [lia|assumption]. } { assumption. }
  exists c'. split; [assumption|]. split; [assumption|].
  intros newsk ms M E HE HS Henc Hn Hb.
  assert (Lm : length ms = k) by (apply Forall2_len in Henc; congruence).
  specialize (P1 newsk ms (repeat M (length ms)) E HE).
  assert (F2 : Forall2 (l1bnd N) (repeat M (length ms)) ms). { clear - HS. induction HS; cbn [repeat length]; constructor; assumption. }
  specialize (P1 F2 Henc).
  assert (Bd : fold_right Z.add 0 (map (fun M => gadget_bound N count w log M E) (repeat M (length ms))) = Z.of_nat k * gadget_bound N count w log M E).
  { rewrite Lm. clear. induction k as [|n IH]; [reflexivity|]. cbn [repeat map fold_right]. rewrite IH. lia. }
  rewrite Bd in P1.
  eapply pnear_peq; [symmetry; apply P2| |eapply pnear_weaken; [|apply pnear_sub; [apply pnear_refl; apply Pt|eapply pnear_peq; [symmetry; apply Q1|reflexivity|apply pnear_add; [exact P1|exact (fft_err_phase N w k D d newsk HD Hd Hn Hb)]]]]].
  - rewrite (glwe_phase_new N w k newsk). ring.
  - lia.
Qed.
End P.
