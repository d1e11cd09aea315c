(** Public-key encryption. *)
From Verif Require Import Base Alu AluProofs Graph MuxGraph MuxGraphProofs FheGraph SpecFhe PolyRing Eval SpecTfhe SpecGlwe SpecBoot SpecTrace SpecSwitch SpecCbs SpecEval FluentIntProofs TfheProofs TfheProofs2 TfheProofs3 TfheGlweProofs TfheGlweProofs2 TfheGlweProofs3 TfheGlweProofs4 TfheBootProofs EvalProofs EvalProofs2 EvalProofs3.
Ltac Zify.zify_post_hook ::= idtac.
Open Scope Z_scope.
Local Hint Resolve word64 : core.

Section S.
Context (P : params) (sk : secret_key).
Context (HP : params_ok P) (Hsk : secret_ok P sk) (Hk1 : p_k P = 1%nat).
Local Notation N := (p_N P).
Local Notation enc := (encrypts P sk).

Lemma pk_generate_ok masks e E : 0 <= E -> glwe_rnd_ok N (p_k P) 64 E (masks, e) -> exists pk, pk_generate P sk masks e = Ok pk /\ pk_ok P sk E pk.
Proof.
  intros HE Hr. destruct (N_facts P HP) as (H2 & HN & Hk & H64). unfold pk_generate, rlwe_gen_pk. rewrite (proj2 (Nat.eqb_eq _ _) Hk1).
  destruct (glwe_encrypt_fresh N 64 (p_k P) (glwe_new N (p_k P)) (zpoly N) (s_glwe1 sk) (masks, e) E word64 H2 (glwe_new_fresh N _) (zpoly_len N)) as (pk & E1 & W1 & P1); try assumption; [apply Hsk|].
  exists pk. split; [exact E1|]. split; [assumption|]. eapply pnear_peq; [reflexivity|apply zpoly_coef|exact P1].
Qed.

Lemma public_near msg pk u e0 e1 Ep E ct : length msg = N -> glwe_shape N (p_k P) ct -> pk_ok P sk Ep pk -> 0 <= Ep -> 0 <= E -> pub_rnd_ok N E (u, e0, e1) ->
  exists c, rlwe_encrypt_public 64 N (p_k P) ct msg pk u e0 e1 = Ok c /\ glwe_wf 64 N (p_k P) c /\
    pnear N 64 (Ep * Z.of_nat N + E * (Z.of_nat N + 1)) (glwe_phase N (s_glwe1 sk) c) (coef msg).
Proof.
  intros Lm Sc (Wp & Np) HEp HE (Lu & Bu & L0 & L1 & H0 & H1). destruct (N_facts P HP) as (H2 & HN & Hk & H64).
  destruct (so_glwe _ _ Hsk) as (Ls & Fs). pose proof (so_glweb _ _ Hsk) as Hb. destruct (s_glwe1 sk) as [|s [|s' l]] eqn:Es; cbn [length] in Ls; try lia. rewrite Hk1 in *.
  apply Forall_cons_iff in Fs as [Lss _]. apply Forall_cons_iff in Hb as [Bs _].
  destruct (rlwe_public_ok N 64 ct msg pk u e0 e1 s word64 H2) as (c & E2 & W2 & P2); try assumption.
  exists c. split; [assumption|]. split; [assumption|].
  apply (pnear_weaken N 64 (0 + (Ep * Z.of_nat N + (E + E * Z.of_nat N)))); [lia|].
  eapply pnear_peq; [intros i Hi; symmetry; apply (P2 i Hi)| |apply pnear_add; [apply (pnear_refl N 64 (coef msg)); reflexivity|apply pnear_add; [|apply pnear_sub; [exact H1|]]]].
  + instantiate (1 := p0). instantiate (1 := p0). intros i Hi. unfold padd, psub, p0. apply zeq_refl'. ring.
  + eapply pnear_peq; [intros i Hi; apply (pmul_comm N (2 ^ 64) _ _ i Hi)| |apply (pnear_mul_l1 N 64 (Z.of_nat N) Ep (coef u)); [assumption|now apply l1bnd_binary|exact Np]].
    intros i Hi. unfold pmul, psum, pscale, p0. apply zeq_refl'. apply zsum_0. intros. ring.
  + eapply pnear_peq; [reflexivity| |apply (pnear_mul_l1 N 64 (Z.of_nat N) E (coef s)); [assumption|now apply l1bnd_binary|exact H0]].
    intros i Hi. unfold pmul, psum, pscale, p0. apply zeq_refl'. apply zsum_0. intros. ring.
Qed.

Lemma enc_rlwe1_ok p pk u e0 e1 Ep E : length p = N -> pk_ok P sk Ep pk -> 0 <= Ep -> 0 <= E -> pub_rnd_ok N E (u, e0, e1) ->
  exists c, enc_rlwe1 P pk p u e0 e1 = Ok c /\ enc (Ep * Z.of_nat N + E * (Z.of_nat N + 1)) (CGlwe1 p) (KGlwe1 c).
Proof.
  intros Lp Hpk HEp HE Hr. unfold enc_rlwe1, rlwe_encode_encrypt_public. rewrite (encodes_ok 64) by (auto; lia). cbn [bind].
  destruct (public_near (map (fun x => (x * 2 ^ (64 - 1)) mod 2 ^ 64) (map Z.b2z p)) pk u e0 e1 Ep E (glwe_new N (p_k P))) as (c & Ec & Wc & Nc); try assumption.
  { now rewrite !map_length. } { apply glwe_new_shape. }
  exists c. split; [exact Ec|]. split; [assumption|]. split; [assumption|]. eapply pnear_peq; [reflexivity|apply (penc_coef N 64 1)|exact Nc].
Qed.

Lemma rlev_loop_ok pr log msg pk Ep E : length msg = N -> (16 <= N)%nat -> 1 <= log -> pk_ok P sk Ep pk -> 0 <= Ep -> 0 <= E ->
  forall rlev rnd j, log * (Z.of_nat j + Z.of_nat (length rlev)) <= 64 -> Forall (glwe_shape N (p_k P)) rlev -> length rnd = length rlev -> Forall (pub_rnd_ok N E) rnd ->
  exists r, rlev_loop pr log N (p_k P) msg pk j rlev rnd = Ok r /\ length r = length rlev /\ Forall (glwe_wf 64 N (p_k P)) r /\
    forall i c, nth_error r i = Some c ->
      pnear N 64 (Ep * Z.of_nat N + E * (Z.of_nat N + 1)) (glwe_phase N (s_glwe1 sk) c) (pscale (2 ^ (64 - log * (Z.of_nat (j + i) + 1))) (coef msg)).
Proof.
  intros Lm HN16 Hl Hpk HEp HE. induction rlev as [|c rlev IH]; intros rnd j Hj Hs Lr Fr; cbn [rlev_loop].
  - exists []. split; [reflexivity|]. split; [reflexivity|]. split; [constructor|]. intros [|i]; discriminate.
  - destruct rnd as [|[[u e0] e1] rnd]; [discriminate|]. apply Forall_cons_iff in Hs as [Hc Hs]. apply Forall_cons_iff in Fr as [Hr Fr]. cbn [length] in Hj, Lr.
    destruct (scale_msg_ok N 64 pr log msg j word64 Hl ltac:(nia) Lm) as (m & Em & L & Pm). rewrite Em. cbn [bind]. rewrite L, (proj2 (Nat.leb_le _ _) HN16).
    destruct (public_near m pk u e0 e1 Ep E c L Hc Hpk HEp HE Hr) as (c' & -> & Wc & Nc). cbn [bind].
    destruct (IH rnd (S j) ltac:(nia) Hs ltac:(lia) Fr) as (r & -> & Lr' & Wr & Pr). cbn [bind]. eexists. split; [reflexivity|]. split; [cbn [length]; lia|]. split; [constructor; assumption|].
    intros [|i] x Hx; cbn [nth_error] in Hx.
    + injection Hx as <-. rewrite Nat.add_0_r. eapply pnear_peq; [reflexivity|exact Pm|exact Nc].
    + replace (j + S i)%nat with (S j + i)%nat by lia. now apply Pr.
Qed.
Lemma enc_rlev1_ok pr b pk rnd Ep E : (16 <= N)%nat -> pk_ok P sk Ep pk -> 0 <= Ep -> 0 <= E -> length rnd = r_count (p_cbs P) -> Forall (pub_rnd_ok N E) rnd ->
  exists c, enc_rlev1 pr P pk (FheGraph.pconst N b) rnd = Ok c /\ enc (Ep * Z.of_nat N + E * (Z.of_nat N + 1)) (CGlev1 b) (KGlev1 c).
Proof.
  intros HN16 Hpk HEp HE Lr Fr. destruct (po_cbs P HP) as (Hl & Hc & Hlc). unfold enc_rlev1.
  rewrite (proj2 (radix_valid_iff _ _ _)) by lia. rewrite pconst_len, Nat.eqb_refl. rewrite (proj2 (glwe_valid_iff N (p_k P) pk) (proj1 (proj1 Hpk))). cbn [andb].
  destruct (rlev_loop_ok pr (r_log (p_cbs P)) (map Z.b2z (FheGraph.pconst N b)) pk Ep E ltac:(now rewrite map_length, pconst_len) HN16 Hl Hpk HEp HE (repeat (glwe_new N (p_k P)) (r_count (p_cbs P))) rnd 0%nat) as (r & -> & L & W & Pr).
  { rewrite repeat_length. lia. } { apply Forall_forall. intros c Hi. apply repeat_spec in Hi. subst. apply glwe_new_shape. } { now rewrite repeat_length. } { assumption. }
  rewrite repeat_length in L. eexists. split; [reflexivity|]. split; [assumption|]. split; [assumption|]. intros j c Hj. split; [apply (proj1 (Forall_forall _ _) W c (nth_error_In _ _ Hj))|].
  eapply pnear_peq; [reflexivity| |exact (Pr j c Hj)]. rewrite Nat.add_0_l. intros i Hi. unfold pscale. apply zeq_mul; [reflexivity|]. apply zeq_refl'. now apply (bpoly_pconst N b).
Qed.
End S.

(** With fewer than 16 coefficients, the debugging output aborts. *)
Lemma enc_rlev1_small pr P pk m rnd : params_ok P -> (p_N P < 16)%nat -> enc_rlev1 pr P pk m rnd = Panic.
Proof.
  intros HP HN. destruct (po_cbs P HP) as (Hl & Hc & Hlc). unfold enc_rlev1. destruct (_ && _) eqn:C; [|reflexivity]. apply andb_true_iff in C as (C & _). apply andb_true_iff in C as (_ & Lm). apply Nat.eqb_eq in Lm.
  destruct (r_count (p_cbs P)) as [|n]; [lia|]. cbn [repeat rlev_loop]. destruct rnd as [|[[u e0] e1] rnd]; [reflexivity|].
  destruct (scale_msg_ok (p_N P) 64 pr (r_log (p_cbs P)) (map Z.b2z m) 0 word64 Hl ltac:(nia) ltac:(now rewrite map_length)) as (x & -> & Lx & _). cbn [bind].
  destruct (Nat.leb_spec 16 (length x)); [lia|reflexivity].
Qed.
