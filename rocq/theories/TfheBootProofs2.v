(** Bootstrapping: blind rotation, keys, lookup tables. *)
From Verif Require Import Base Alu AluProofs PolyRing Tfhe TfheGlwe TfheBoot SpecTfhe SpecGlwe SpecBoot FluentIntProofs TfheProofs TfheProofs2 TfheProofs3 TfheGlweProofs TfheGlweProofs2 TfheGlweProofs3 TfheGlweProofs4 TfheBootProofs.
Require Import Setoid Morphisms Ring.
Ltac Zify.zify_post_hook ::= idtac.
Open Scope Z_scope.

Section P.
Context (N : nat) (w : Z).
Local Notation "f == g" := (peq N (2 ^ w) f g) (at level 70).
Add Ring poly_ring_w6 : (poly_ring N (2 ^ w)) (setoid (peq_equiv N (2 ^ w)) (poly_ring_ext N (2 ^ w))).
Local Notation pn := (pnear N w).

Lemma pmono_0' f : pmono N 0 f == f.
Proof. intros k Hk. apply zeq_refl'. now apply pmono_0. Qed.
Lemma pmono_add' a b f : pmono N a (pmono N b f) == pmono N (a + b) f.
Proof. intros k Hk. apply zeq_refl'. now apply pmono_add. Qed.
Lemma pmono_ext a b f : a = b -> pmono N a f == pmono N b f. Proof. now intros ->. Qed.

Lemma cmux_noise_nonneg k count log E D : 0 <= E -> 0 <= D -> 1 <= log -> 0 <= w - log * Z.of_nat count - 1 -> 0 <= cmux_noise N k count w log E D.
Proof.
  intros HE HD Hlog Hlc. unfold cmux_noise, gadget_bound.
  pose proof (pow_pos' (w - log * Z.of_nat count - 1) ltac:(lia)). pose proof (pow_pos' (log - 1) ltac:(lia)).
  assert (0 <= Z.of_nat N * E) by nia. assert (0 <= 2 ^ (log - 1) * (Z.of_nat N * E)) by nia.
  assert (0 <= Z.of_nat count * (2 ^ (log - 1) * (Z.of_nat N * E))) by nia.
  assert (0 <= 2 ^ (w - log * Z.of_nat count - 1) * Z.of_nat N) by nia.
  assert (0 <= Z.of_nat k * Z.of_nat N) by nia. nia.
Qed.

Section L.
Context (h : hw) (pr : profile) (log : Z) (count k : nat) (D : Z).
Context (Hw : word w).
Context (Hdim : glwe_dim_valid N k = true).
Context (Hadd : add_exact h pr w).
Context (Hsub : sub_exact h pr w).
Context (Hlog : 1 <= log).
Context (Hcnt : (1 <= count)%nat).
Context (Hlc : log * Z.of_nat count < w).
Context (HD : 0 <= D).

Lemma HN : (0 < N)%nat. Proof. apply (dim_valid N k Hdim). Qed.

(** Selecting between a ciphertext and its rotation rotates by bit * amount. *)
Lemma cmux_rot_ok out x g d : glwe_wf w N k out -> ggsw_valid N k count g = true -> fft_err N k D d ->
  exists r, cmux h pr w log count N k out out (glwe_rot w (glwe_new N k) out x) g d = Ok r /\ glwe_wf w N k r /\
    forall sk b E, polys_shape N k sk -> binary_polys sk -> (b = 0 \/ b = 1) -> 0 <= E ->
      ggsw_enc N k count w log E sk (pconst b) g ->
      pn (cmux_noise N k count w log E D) (glwe_phase N sk r) (pmono N (b * x) (glwe_phase N sk out)).
Proof.
  intros Ho Hg Hd. destruct (glwe_rot_ok N w k (glwe_new N k) out x Hw HN (glwe_new_shape N k) Ho) as (Wr & Pr).
  destruct (cmux_ok N w h pr log count k out out _ g d D Hw Hdim Hadd Hsub Hlog Hcnt Hlc (proj1 Ho) Ho Wr Hg HD Hd) as (r & Er & Wr' & Pr').
  exists r. split; [assumption|]. split; [assumption|]. intros sk b E Hs Hbin Hb HE Henc.
  eapply pnear_peq; [reflexivity| |exact (Pr' sk b E Hs Hbin Hb HE Henc)].
  destruct Hb as [-> | ->].
  - change (0 =? 1) with false. cbv iota. symmetry. apply pmono_0'.
  - change (1 =? 1) with true. cbv iota. rewrite (Pr sk). apply pmono_ext. ring.
Qed.

Lemma pbs_loop_ok : forall a bsk ds out, length a = length bsk -> glwe_wf w N k out ->
  Forall (fun g => ggsw_valid N k count g = true) bsk -> (forall i, fft_err N k D (ds i)) ->
  exists r, pbs_loop h pr w log count N k out a bsk ds = Ok r /\ glwe_wf w N k r /\
    forall sk s E, polys_shape N k sk -> binary_polys sk -> binary s -> 0 <= E -> bsk_enc N k count w log E sk s bsk ->
      pn (Z.of_nat (length a) * cmux_noise N k count w log E D) (glwe_phase N sk r) (pmono N (dotz a s) (glwe_phase N sk out)).
Proof.
  induction a as [|x a IH]; intros bsk ds out Hl Ho Hv Hds.
  - destruct bsk; [|discriminate]. exists out. cbn [pbs_loop length dotz]. split; [reflexivity|]. split; [assumption|].
    intros. apply pnear_refl. symmetry. apply pmono_0'.
  - destruct bsk as [|g bsk]; [discriminate|]. cbn [length] in Hl. apply Forall_cons_iff in Hv as [Hg Hv]. cbn [pbs_loop].
    destruct (cmux_rot_ok out x g (ds O) Ho Hg (Hds O)) as (out' & E1 & W1 & P1). rewrite E1. cbn [bind].
    destruct (IH bsk (fun i => ds (S i)) out' ltac:(lia) W1 Hv (fun i => Hds (S i))) as (r & E2 & W2 & P2).
    exists r. split; [assumption|]. split; [assumption|]. intros sk s E Hs Hbin Hbs HE Henc.
    inversion Henc as [|y g' s' bsk' (_ & Hy) Henc' Eq1 Eq2]; subst. apply Forall_cons_iff in Hbs as [Hby Hbs].
    specialize (P1 sk y E Hs Hbin Hby HE Hy). specialize (P2 sk s' E Hs Hbin Hbs HE Henc').
    cbn [dotz length]. rewrite Nat2Z.inj_succ.
    replace (Z.succ (Z.of_nat (length a)) * cmux_noise N k count w log E D)
      with (Z.of_nat (length a) * cmux_noise N k count w log E D + cmux_noise N k count w log E D) by ring.
    eapply pnear_trans; [exact P2|]. eapply pnear_peq; [reflexivity| |apply (pnear_mono N w _ (dotz a s') _ _ P1)].
    rewrite pmono_add'. apply pmono_ext. ring.
Qed.

(** Blind rotation by an encrypted amount given bit by bit. *)
Lemma blind_rotation_loop_ok : forall rows i ds out, glwe_wf w N k out ->
  Forall (fun g => ggsw_valid N k count g = true) rows -> (forall j, fft_err N k D (ds j)) ->
  exists r, blind_rotation_loop h pr w log count N k out rows i ds = Ok r /\ glwe_wf w N k r /\
    forall sk bits E, polys_shape N k sk -> binary_polys sk -> binary bits -> 0 <= E -> bsk_enc N k count w log E sk bits rows ->
      pn (Z.of_nat (length rows) * cmux_noise N k count w log E D) (glwe_phase N sk r)
         (pmono N (- (2 ^ Z.of_nat i * radix_value 1 bits)) (glwe_phase N sk out)).
Proof.
  induction rows as [|g rows IH]; intros i ds out Ho Hv Hds.
  - exists out. cbn [blind_rotation_loop length]. split; [reflexivity|]. split; [assumption|].
    intros sk bits E _ _ _ _ Henc. inversion Henc; subst. apply pnear_refl. symmetry. cbn [radix_value]. rewrite Z.mul_0_r. apply pmono_0'.
  - apply Forall_cons_iff in Hv as [Hg Hv]. cbn [blind_rotation_loop].
    destruct (cmux_rot_ok out (- 2 ^ Z.of_nat i) g (ds i) Ho Hg (Hds i)) as (out' & E1 & W1 & P1). rewrite E1. cbn [bind].
    destruct (IH (S i) ds out' W1 Hv Hds) as (r & E2 & W2 & P2).
    exists r. split; [assumption|]. split; [assumption|]. intros sk bits E Hs Hbin Hbs HE Henc.
    inversion Henc as [|y g' s' bsk' (_ & Hy) Henc' Eq1 Eq2]; subst. apply Forall_cons_iff in Hbs as [Hby Hbs].
    specialize (P1 sk y E Hs Hbin Hby HE Hy). specialize (P2 sk s' E Hs Hbin Hbs HE Henc').
    cbn [radix_value length]. rewrite Nat2Z.inj_succ.
    replace (Z.succ (Z.of_nat (length rows)) * cmux_noise N k count w log E D)
      with (Z.of_nat (length rows) * cmux_noise N k count w log E D + cmux_noise N k count w log E D) by ring.
    eapply pnear_trans; [exact P2|]. eapply pnear_peq; [reflexivity| |apply (pnear_mono N w _ _ _ _ P1)].
    rewrite pmono_add'. apply pmono_ext. rewrite Nat2Z.inj_succ, Z.pow_succ_r by lia. change (2 ^ 1) with 2. ring.
Qed.

(** ** Keys *)

Lemma scalar_coef b : (0 < N)%nat -> coef (b :: repeat 0 (N - 1)) == pconst b.
Proof.
  intros H [|i] Hi; apply zeq_refl'; unfold coef, pconst; cbn [nth Nat.eqb]; [reflexivity|]. apply nth_repeat.
Qed.
Lemma ggsw_enc_peq E sk m m' g : m == m' -> ggsw_enc N k count w log E sk m g -> ggsw_enc N k count w log E sk m' g.
Proof.
  intros Hm (L1 & L2 & R1 & R2). split; [assumption|]. split; [assumption|]. split.
  - intros i s r Hs Hr j c Hc. destruct (R1 i s r Hs Hr j c Hc) as (Sc & Pc). split; [assumption|].
    eapply pnear_peq; [reflexivity| |exact Pc]. now rewrite Hm.
  - intros r Hr j c Hc. destruct (R2 r Hr j c Hc) as (Sc & Pc). split; [assumption|].
    eapply pnear_peq; [reflexivity| |exact Pc]. now rewrite Hm.
Qed.

Lemma ggsw_scalar_ok E sk b p g rnd : polys_shape N k sk -> 0 <= E -> 0 <= p < w -> 0 <= b < 2 ^ p ->
  length g = S k -> Forall (fun r => length r = count /\ Forall (glwe_fresh N k) r) g -> ggsw_rnd_ok N k count w E rnd ->
  exists g', ggsw_encrypt_scalar pr w log count N k g b sk p rnd = Ok g' /\ ggsw_valid N k count g' = true /\
    ggsw_enc N k count w log E sk (pconst b) g'.
Proof.
  intros Hs HE Hp Hb Lg Fg (Lr & Fr). pose proof HN as HN'. destruct (dim_valid N k Hdim) as (HP & _ & _).
  unfold ggsw_encrypt_scalar. destruct (Nat.eqb_spec N 0); [lia|].
  destruct (ggsw_encrypt_ok N w pr log count k sk (b :: repeat 0 (N - 1)) E g p rnd) as (g' & E1 & F1 & P1); try assumption; try lia.
  - cbn [length]. rewrite repeat_length. lia.
  - constructor; [assumption|]. apply Forall_forall. intros x Hx. apply repeat_spec in Hx. subst. pose proof (pow_pos' p ltac:(lia)). lia.
  - exists g'. split; [assumption|]. split.
    + apply ggsw_valid_iff. split; [apply P1|]. eapply Forall_impl; [|exact F1]. intros r (A & B). split; [assumption|]. eapply Forall_impl; [|exact B]. intros c Hc. apply Hc.
    + eapply ggsw_enc_peq; [|exact P1]. now apply scalar_coef.
Qed.

Lemma bsk_loop_ok E sk : polys_shape N k sk -> 0 <= E -> forall s bsk rnd, binary s -> length s = length bsk ->
  Forall (fun g => length g = S k /\ Forall (fun r => length r = count /\ Forall (glwe_fresh N k) r) g) bsk ->
  (forall i, ggsw_rnd_ok N k count w E (rnd i)) ->
  exists bsk', bsk_loop pr w log count N k bsk s sk rnd = Ok bsk' /\ bsk_enc N k count w log E sk s bsk'.
Proof.
  intros Hs HE. pose proof (word_pos w Hw). induction s as [|x s IH]; intros bsk rnd Hb Hl Hf Hr.
  - destruct bsk; [|discriminate]. exists []. split; [reflexivity|constructor].
  - destruct bsk as [|g bsk]; [discriminate|]. cbn [length] in Hl. apply Forall_cons_iff in Hb as [Hx Hb]. apply Forall_cons_iff in Hf as [(Lg & Fg) Hf].
    cbn [bsk_loop]. assert (B1 : 0 <= 1 < w) by (destruct Hw; lia). assert (B2 : 0 <= x < 2 ^ 1) by (change (2 ^ 1) with 2; lia).
    destruct (ggsw_scalar_ok E sk x 1 g (rnd O) Hs HE B1 B2 Lg Fg (Hr O)) as (g' & E1 & V1 & P1).
    rewrite E1. cbn [bind]. destruct (IH bsk (fun i => rnd (S i)) Hb ltac:(lia) Hf (fun i => Hr (S i))) as (gs & E2 & P2).
    rewrite E2. cbn [bind]. eexists. split; [reflexivity|]. constructor; [split; assumption|assumption].
Qed.

Fixpoint bits_of (rows : nat) (x : Z) (i : nat) : list Z :=
  match rows with O => [] | S rows => (x / 2 ^ Z.of_nat i) mod 2 :: bits_of rows x (S i) end.
Lemma bits_of_binary rows x i : binary (bits_of rows x i).
Proof. revert i. induction rows; intros i; cbn [bits_of]; constructor; [|apply IHrows]. pose proof (Z.mod_pos_bound (x / 2 ^ Z.of_nat i) 2 ltac:(lia)). lia. Qed.
Lemma bits_of_value rows x i : 0 <= x -> radix_value 1 (bits_of rows x i) = (x / 2 ^ Z.of_nat i) mod 2 ^ Z.of_nat rows.
Proof.
  intros Hx. revert i. induction rows as [|rows IH]; intros i; cbn [bits_of radix_value].
  - now rewrite Z.mod_1_r.
  - rewrite IH. rewrite !Nat2Z.inj_succ, !Z.pow_succ_r by lia. change (2 ^ 1) with 2.
    rewrite (Z.mul_comm 2 (2 ^ Z.of_nat i)), <- Z.div_div by lia.
    rewrite (Z.rem_mul_r (x / 2 ^ Z.of_nat i)) by lia. ring.
Qed.
Lemma rotation_shift_loop_ok E sk p rot : polys_shape N k sk -> 0 <= E -> 1 <= p < w -> 0 <= rot -> forall rows i rnd,
  (forall i, ggsw_rnd_ok N k count w E (rnd i)) ->
  exists gs, rotation_shift_loop pr w log count N k rows sk p rot i rnd = Ok gs /\ bsk_enc N k count w log E sk (bits_of rows rot i) gs.
Proof.
  intros Hs HE Hp Hrot. induction rows as [|rows IH]; intros i rnd Hr; cbn [rotation_shift_loop bits_of].
  - exists []. split; [reflexivity|constructor].
  - rewrite land_1, Z.shiftr_div_pow2 by lia.
    assert (2 <= 2 ^ p) by (change 2 with (2 ^ 1) at 1; apply Z.pow_le_mono_r; lia).
    pose proof (Z.mod_pos_bound (rot / 2 ^ Z.of_nat i) 2 ltac:(lia)).
    assert (Lg : length (ggsw_new N k count) = S k) by (unfold ggsw_new; rewrite repeat_length; lia).
    assert (Fg : Forall (fun r => length r = count /\ Forall (glwe_fresh N k) r) (ggsw_new N k count)).
    { apply Forall_forall. intros r Hr'. apply repeat_spec in Hr'. subst. split; [apply repeat_length|]. apply Forall_forall. intros c Hc. apply repeat_spec in Hc. subst. apply glwe_new_fresh. }
    destruct (ggsw_scalar_ok E sk ((rot / 2 ^ Z.of_nat i) mod 2) p (ggsw_new N k count) (rnd i) Hs HE ltac:(lia) ltac:(lia) Lg Fg (Hr i)) as (g' & E1 & V1 & P1).
    rewrite E1. cbn [bind]. destruct (IH (S i) rnd Hr) as (gs & E2 & P2). rewrite E2. cbn [bind].
      eexists. split; [reflexivity|]. constructor; [split; assumption|assumption].
Qed.
End L.
End P.
