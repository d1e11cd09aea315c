(** Circuits, decryption, key generation, the processor's constants and fresh ciphertexts. *)
From Verif Require Import Base Alu AluProofs Graph MuxGraph MuxGraphProofs FheGraph SpecFhe FheProofs PolyRing Eval SpecTfhe SpecGlwe SpecBoot SpecTrace SpecSwitch SpecCbs SpecEval FluentIntProofs TfheProofs TfheProofs2 TfheProofs3 TfheGlweProofs TfheGlweProofs2 TfheGlweProofs3 TfheGlweProofs4 TfheBootProofs TfheBootProofs2 TfheBootProofs3 TfheBootProofs4 TfheTraceProofs TfheTraceProofs2 TfheSwitchProofs Props_Boot Props_Trace Props_Switch TfheCbsProofs Props_Cbs Props_Glwe Props_Tfhe EvalProofs EvalProofs2.
Ltac Zify.zify_post_hook ::= idtac.
Open Scope Z_scope.
Local Hint Resolve word64 : core.

(** ** Circuits *)
Scheme kvalue_min := Minimality for kvalue Sort Prop
with kinputs_min := Minimality for kinputs Sort Prop.
Combined Scheme kvalue_kinputs_min from kvalue_min, kinputs_min.

Lemma kvalue_fun pc fp cells g :
  (forall n o, kvalue pc fp cells g n o -> forall o', kvalue pc fp cells g n o' -> o' = o) /\
  (forall es ins, kinputs pc fp cells g es ins -> forall ins', kinputs pc fp cells g es ins' -> ins' = ins).
Proof.
  apply kvalue_kinputs_min.
  - intros n op ins o Hn _ IH He o' H'. inversion H' as [n' op' ins' o'' Hn' Hi' He']; subst. rewrite Hn in Hn'. injection Hn' as <-.
    apply IH in Hi'. subst ins'. congruence.
  - intros ins' H'. now inversion H'.
  - intros s t l es c w ins _ IHv _ IHi ins' H'. inversion H' as [|s' t' l' es' c' w' ins'' Hv Hi]; subst. apply IHi in Hi. apply IHv in Hv. congruence.
Qed.

Section S.
Context (P : params) (B : bounds) (sk : secret_key).
Context (HP : params_ok P) (HB : bounds_ok B) (Hsk : secret_ok P sk).
Local Notation N := (p_N P). Local Notation k := (p_k P).
Local Notation enc := (encrypts P sk).

Lemma circuit_refines pc fp cells kcells cell g E : proc_ok P B sk pc -> (forall n, fenv_ok P B (fp n)) ->
  (forall t r, enc (cell t r) (cells t r) (kcells t r)) -> noise_ok P B cell g E ->
  (forall n o, fvalue N cells g n o -> exists co, kvalue pc fp kcells g n co /\ encrypts_out P sk (E n) o co) /\
  (forall es ins, finputs N cells g es ins -> exists kins, kinputs pc fp kcells g es kins /\
     matched P sk ins kins (map (fun e => (snd e, E (fst (fst e)))) es)).
Proof.
  intros Hpc Hf Hcells Hn. apply fvalue_finputs_min.
  - intros n op ins o Hop _ (kins & Hk & Hm) He. destruct (Hn n op Hop) as (Hc & Hle).
    destruct (op_refines P B sk pc (fp n) HP HB Hsk Hpc (Hf n) cells kcells cell op ins kins _ o Hcells Hm Hc He) as (co & Eco & Henc).
    exists co. split; [econstructor; eassumption|]. eapply encrypts_out_weaken; eassumption.
  - exists []. split; constructor.
  - intros s t l es c w ins _ (co & Hv & He) _ (kins & Hi & Hm). destruct co as [kc kw]. exists ((l, kc) :: kins). split.
    + econstructor; eassumption.
    + cbn [map fst snd]. constructor; [|assumption]. apply He.
Qed.

(** ** Decryption *)
Lemma dec_lwe_ok pr n s c b E : (1 <= n)%nat -> length s = n -> lwe_wf 64 n c -> near 64 E (lwe_phase s c) (Z.b2z b * 2 ^ 63) -> E < 2 ^ 62 ->
  lwe_decrypt pr 64 n s c 1 = Ok (Z.b2z b).
Proof.
  intros Hn Ls (Lc & Wc) (z & Hz & Hcg) HE. unfold lwe_decrypt, lwe_dim_valid, lwe_valid. rewrite Lc, Nat.eqb_refl, (proj2 (Nat.eqb_neq n 0)) by lia.
  cbn [negb andb]. change (1 <? 64) with true. cbv iota. rewrite lwe_decrypt_raw_ok by (try assumption; lia). cbn [bind].
  rewrite t_decode_ok; [|auto|lia|lia|apply uwrap_torus; lia]. f_equal.
  rewrite (decode_near 64 1 (Z.b2z b) z); [destruct b; reflexivity|auto|lia|cbn [Z.sub Z.pos_sub]; lia|exact Hcg].
Qed.
Lemma map_mod_bits l p : 1 <= l -> map (fun x => x mod 2 ^ l) (map Z.b2z p) = map Z.b2z p.
Proof.
  intros Hl. rewrite map_map. apply map_ext. intros b. apply Z.mod_small. assert (2 ^ 1 <= 2 ^ l) by (apply Z.pow_le_mono_r; lia). destruct b; cbn [Z.b2z]; lia.
Qed.
Lemma concat_len (l : list (list Z)) (M : nat) : Forall (fun p => length p = M) l -> length (concat l) = (length l * M)%nat.
Proof. induction 1 as [|a l H F IH]; cbn [concat length]; [reflexivity|]. rewrite app_length, IH, H. lia. Qed.
Lemma decrypts_ok pr E m c : enc E m c -> E < decrypt_bound P (ty_of m) -> decrypts_to pr P sk m c.
Proof.
  destruct (N_facts P HP) as (H2 & HN & Hk & H64). pose proof (so_glwe _ _ Hsk) as Hs. destruct (po_cbs P HP) as (Hl & Hc & Hlc).
  assert (Hlog : r_log (p_cbs P) < 64) by nia.
  destruct m, c; cbn [encrypts decrypts_to ty_of decrypt_bound]; try tauto.
  - intros (W & Hn) HE. unfold dec_lwe0. rewrite (dec_lwe_ok _ _ _ _ b E (po_n P HP) (so_lwe _ _ Hsk) W Hn HE). cbn [bind]. now destruct b.
  - intros (W & Hn) HE. unfold dec_lwe1, to_lwe_sk. rewrite (dec_lwe_ok _ _ _ _ b E); try assumption; [cbn [bind]; now destruct b|nia|].
    destruct Hs as (Ls & Fs). rewrite (concat_len _ _ Fs). congruence.
  - intros (W & Lp & Hn) HE. unfold dec_glwe1. rewrite (glwe_decode_ok N 64 pr k (s_glwe1 sk) c 1 (map Z.b2z p) E); try assumption; auto; try lia.
    + f_equal. apply (map_mod_bits 1). lia.
    + apply (po_dim P HP).
    + now rewrite map_length.
  - intros (V & W & Hn) HE. unfold dec_ggsw1.
    rewrite (ggsw_decrypt_correct pr N k 64 _ _ (s_glwe1 sk) _ c (map Z.b2z (FheGraph.pconst N b)) E); try assumption; auto; try lia.
    + cbn [bind]. rewrite map_mod_bits by lia. destruct N as [|d]; [lia|]. cbn [FheGraph.pconst map]. now destruct b.
    + apply (po_dim P HP).
    + apply repeat_length.
    + now rewrite map_length, pconst_len.
    + intros r Hr. apply (proj1 (Forall_forall _ _) W). now apply nth_error_In in Hr.
    + replace (64 - r_log (p_cbs P) - 1) with (63 - r_log (p_cbs P)) by ring. exact HE.
    + assert (Q : peq N (2 ^ 64) (pconst (Z.b2z b)) (coef (map Z.b2z (FheGraph.pconst N b)))).
      { intros i Hi. apply zeq_refl'. symmetry. now apply bpoly_pconst. }
      destruct Hn as (A1 & A2 & A3 & A4). split; [assumption|]. split; [assumption|]. split.
      * intros i s r Hs' Hr. eapply glev_enc_peq; [|eapply A3; eassumption]. apply popp_mor. apply pmul_mor; [exact Q|reflexivity].
      * intros r Hr. eapply glev_enc_peq; [exact Q|]. now apply A4.
  - intros (L & W & Hn) HE. unfold dec_glev1. destruct c as [|c0 c]; [cbn in L; lia|]. destruct (Hn O c0 eq_refl) as (_ & Hp).
    rewrite (glev_decrypt_at_ok N 64 pr (r_log (p_cbs P)) (r_count (p_cbs P)) k (repeat 0 N) (c0 :: c) (s_glwe1 sk) 0 (map Z.b2z (FheGraph.pconst N b)) E c0); try assumption; auto; try lia.
    + f_equal. now apply map_mod_bits.
    + apply (po_dim P HP).
    + apply repeat_length.
    + eapply Forall_impl; [|exact W]. intros a Ha. apply Ha.
    + now rewrite map_length, pconst_len.
    + apply Forall_cons_iff in W as [Wa _]. apply Wa.
    + change (Z.of_nat 0 + 1) with 1. rewrite Z.mul_1_r. replace (64 - r_log (p_cbs P) - 1) with (63 - r_log (p_cbs P)) by ring. exact HE.
    + eapply pnear_peq; [reflexivity| |exact Hp]. intros i Hi. unfold pscale. apply zeq_mul; [reflexivity|]. apply zeq_refl'. symmetry. now apply bpoly_pconst.
Qed.

(** ** Keys *)
Lemma fresh_rows cnt : Forall (glwe_fresh N k) (repeat (glwe_new N k) cnt).
Proof. apply Forall_forall. intros c Hc. apply repeat_spec in Hc. subst. apply glwe_new_fresh. Qed.
Lemma fresh_ggsw cnt : length (ggsw_new N k cnt) = S k /\ Forall (fun r => length r = cnt /\ Forall (glwe_fresh N k) r) (ggsw_new N k cnt).
Proof.
  unfold ggsw_new. rewrite repeat_length. split; [lia|]. apply Forall_forall. intros r Hr. apply repeat_spec in Hr. subst. split; [apply repeat_length|apply fresh_rows].
Qed.
Lemma keys_ok pr r : key_rnd_ok P B sk r -> exists ck, key_generate pr P sk r = Ok ck /\ key_ok P B sk ck.
Proof.
  intros Hr. destruct HB as (B1 & B2 & B3 & B4 & HD & _). destruct (N_facts P HP) as (H2 & HN & Hk & H64).
  destruct (po_pbs P HP) as (Hl1 & Hc1 & Hlc1), (po_tr P HP) as (Hl2 & Hc2 & Hlc2), (po_ss P HP) as (Hl3 & Hc3 & Hlc3), (po_ks P HP) as (Hl4 & Hc4 & Hlc4).
  pose proof (po_dim P HP) as Hdim. pose proof (so_glwe _ _ Hsk) as Hs. pose proof (so_glweb _ _ Hsk) as Hbin. pose proof (so_lwe _ _ Hsk) as Ln. pose proof (po_n P HP) as Hn.
  unfold key_generate. cbv zeta.
  destruct (generate_bsk_ok N 64 pr (r_log (p_pbs P)) (r_count (p_pbs P)) k word64 Hdim Hl1 Hc1 Hlc1 (p_n P) (repeat (ggsw_new N k (r_count (p_pbs P))) (p_n P)) (s_lwe0 sk) (s_glwe1 sk) (b_bs B) (kr_bs r))
    as (bs & -> & Ebs); try assumption; [apply Hsk|apply repeat_length| |apply Hr|].
  { apply Forall_forall. intros g Hg. apply repeat_spec in Hg. subst. apply fresh_ggsw. }
  cbn [bind]. assert (Lc : length (concat (s_glwe1 sk)) = (k * N)%nat) by (destruct Hs as (Ls & Fs); rewrite (concat_len _ _ Fs); congruence).
  destruct (keyswitch_key_correct pr 64 (r_log (p_ks P)) (r_count (p_ks P)) (concat (s_glwe1 sk)) (s_lwe0 sk) (kr_ks r) (b_ks B) (ksk_new (k * N) (p_n P) (r_count (p_ks P)))) as (ks & Eks & Vks & Pks);
    try assumption; auto; try lia.
  { intros E0. rewrite E0 in Lc. cbn in Lc. nia. } { intros E0. rewrite E0 in Ln. cbn in Ln. lia. }
  { rewrite Lc, Ln. unfold ksk_valid, ksk_new. rewrite repeat_length, Nat.eqb_refl. cbn [andb]. apply forallb_forall. intros lev Hlev. apply repeat_spec in Hlev. subst lev.
    rewrite repeat_length, Nat.eqb_refl. cbn [andb]. apply forallb_forall. intros c Hc. apply repeat_spec in Hc. subst c. unfold lwe_valid, lwe_new. cbn [lwe_a]. rewrite repeat_length. apply Nat.eqb_refl. }
  { clear - Hbin Hl4. assert (H2 : 2 ^ 1 <= 2 ^ r_log (p_ks P)) by (apply Z.pow_le_mono_r; lia). induction Hbin as [|a l Ha Hb IH]; cbn [concat]; [constructor|]. apply Forall_app. split; [|exact IH].
    eapply Forall_impl; [|exact Ha]. intros z [-> | ->]; lia. }
  { rewrite Lc. apply Hr. } { rewrite Ln. apply Hr. }
  rewrite Lc, Ln in *. unfold to_lwe_sk. rewrite Eks. cbn [bind].
  destruct (scheme_switch_key_correct pr 64 (r_log (p_ss P)) (r_count (p_ss P)) N k (repeat (repeat (glwe_new N k) (r_count (p_ss P))) (tri_count k)) (s_glwe1 sk) (kr_mul r) (kr_ss r) (b_ss B)) as (ss & -> & Ess);
    try assumption; auto; try lia; try apply repeat_length; try apply Hr.
  { apply Forall_forall. intros g Hg. apply repeat_spec in Hg. subst. split; [apply repeat_length|apply fresh_rows]. }
  cbn [bind].
  destruct (automorphism_key_correct pr 64 (r_log (p_tr P)) (r_count (p_tr P)) N k (repeat (repeat (repeat (glwe_new N k) (r_count (p_tr P))) k) (Nat.log2 N)) (s_glwe1 sk) (kr_scratch r) (kr_auto r) (b_auto B)) as (au & -> & Eau);
    try assumption; auto; try lia; try apply repeat_length; try apply Hr.
  { apply Forall_forall. intros g Hg. apply repeat_spec in Hg. subst. split; [apply repeat_length|]. apply Forall_forall. intros c Hc. apply repeat_spec in Hc. subst. split; [apply repeat_length|apply fresh_rows]. }
  cbn [bind]. eexists. split; [reflexivity|]. constructor; assumption.
Qed.

(** ** Constants *)
Lemma map_repeat' {X Y} (g : X -> Y) x n : map g (repeat x n) = repeat (g x) n.
Proof. induction n; cbn [repeat map]; congruence. Qed.
Lemma triv_lwe_ok dim b : (1 <= dim)%nat -> exists c, triv_lwe dim b = Ok c /\ lwe_wf 64 dim c /\ forall s, near 64 0 (lwe_phase s c) (Z.b2z b * 2 ^ 63).
Proof.
  intros Hd. unfold triv_lwe. rewrite t_encode_ok by (auto; lia). cbn [bind]. set (m := _ mod _).
  destruct (lwe_trivial_ok dim (lwe_new dim) m ltac:(lia) ltac:(apply repeat_length)) as (c & E & L & Eb & Ea & Ph).
  exists c. split; [assumption|]. split.
  - split; [assumption|]. split; [|rewrite Eb; apply uwrap_torus; lia]. eapply Forall_impl; [|exact Ea]. intros x <-. unfold torus. lia.
  - intros s. rewrite Ph. apply near_0. unfold m. change (64 - 1) with 63. apply zeq_mod.
Qed.
Lemma bit_poly_ok b : bit_poly N b = Ok (map Z.b2z (FheGraph.pconst N b)).
Proof.
  destruct (N_facts P HP) as (_ & HN & _ & _). unfold bit_poly. destruct N as [|d]; [lia|]. cbn [FheGraph.pconst map].
  assert (E : map Z.b2z (repeat false d) = repeat 0 d) by (clear; induction d; cbn [repeat map Z.b2z]; congruence). rewrite E. destruct b; reflexivity.
Qed.
Lemma zpolys_shape : polys_shape N k (repeat (zpoly N) k).
Proof. split; [apply repeat_length|]. apply Forall_forall. intros x Hx. apply repeat_spec in Hx. subst. apply repeat_length. Qed.
Lemma triv_glwe_ok b : exists c, triv_glwe P b = Ok c /\ enc 0 (CGlwe1 (FheGraph.pconst N b)) (KGlwe1 c).
Proof.
  unfold triv_glwe. rewrite bit_poly_ok. cbn [bind]. unfold triv_glwe_poly. rewrite (po_dim P HP), map_length, pconst_len, Nat.eqb_refl. cbn [andb].
  rewrite (encodes_ok 64) by (auto; lia). cbn [bind]. eexists. split; [reflexivity|].
  set (m := map _ (map _ _)).
  assert (Lm : length m = N) by (unfold m; now rewrite !map_length, pconst_len).
  assert (Em : {| ga := repeat (zpoly N) k; gb := m |} = glwe_trivial (glwe_new N k) m).
  { unfold glwe_trivial, glwe_new. cbn [ga gb]. rewrite zip_copy by (rewrite Lm; apply repeat_length). f_equal.
    rewrite map_repeat'. unfold zpoly. now rewrite map_repeat'. }
  rewrite Em. destruct (glwe_trivial_ok N 64 k (glwe_new N k) m (glwe_new_shape N k) Lm) as (_ & _ & W & Ph).
  split; [apply W; [lia|]|].
  - unfold m. apply Forall_forall. intros x Hx. apply in_map_iff in Hx as (y & <- & _). apply uwrap_torus. lia.
  - split; [apply pconst_len|]. apply pnear_refl. transitivity (coef m); [apply Ph|]. unfold m. change (2 ^ 63) with (2 ^ (64 - 1)). apply (penc_coef N 64 1).
Qed.
Lemma triv_glev_loop_ok pr log msg : length msg = N -> toruses 64 msg -> 1 <= log -> forall glev j, log * (Z.of_nat j + Z.of_nat (length glev)) <= 64 -> Forall (glwe_shape N k) glev ->
  exists r, triv_glev_loop pr log msg j glev = Ok r /\ length r = length glev /\ Forall (glwe_wf 64 N k) r /\
    forall i c, nth_error r i = Some c -> pnear N 64 0 (glwe_phase N (s_glwe1 sk) c) (pscale (2 ^ (64 - log * (Z.of_nat (j + i) + 1))) (coef msg)).
Proof.
  intros Lm Tm Hl. induction glev as [|c glev IH]; intros j Hj Hs; cbn [triv_glev_loop].
  - exists []. split; [reflexivity|]. split; [reflexivity|]. split; [constructor|]. intros [|i]; discriminate.
  - apply Forall_cons_iff in Hs as [Hc Hs]. cbn [length] in Hj.
    destruct (scale_msg_ok N 64 pr log msg j word64 Hl ltac:(nia) Lm) as (m & Em & L & Pm). rewrite Em. cbn [bind].
    destruct (IH (S j) ltac:(nia) Hs) as (r & Er & Lr & Wr & Pr). rewrite Er. cbn [bind]. eexists. split; [reflexivity|]. split; [cbn [length]; lia|].
    destruct (glwe_trivial_ok N 64 k c m Hc L) as (_ & _ & W & Ph). split.
    + constructor; [|assumption]. apply W; [lia|]. clear - Em Tm. unfold scale_msg in Em. destruct (gadget_factor _ _ _ _); try discriminate. injection Em as <-.
      unfold poly_scalar_mul. apply toruses_zip; [|assumption]. intros. apply uwrap_torus. lia.
    + intros [|i] x Hx; cbn [nth_error] in Hx.
      * injection Hx as <-. rewrite Nat.add_0_r. apply pnear_refl. transitivity (coef m); [apply Ph|exact Pm].
      * replace (j + S i)%nat with (S j + i)%nat by lia. now apply Pr.
Qed.
Lemma bits_torus p : toruses 64 (map Z.b2z p).
Proof. apply toruses_map. intros []; unfold torus; cbn [Z.b2z]; lia. Qed.
Lemma triv_glev_ok pr b : exists c, triv_glev pr P b = Ok c /\ enc 0 (CGlev1 b) (KGlev1 c).
Proof.
  destruct (po_cbs P HP) as (Hl & Hc & Hlc). unfold triv_glev. cbv zeta. set (new := repeat _ _).
  assert (Ln : length new = r_count (p_cbs P)) by apply repeat_length.
  assert (Sn : Forall (glwe_shape N k) new) by (apply Forall_forall; intros c Hi; apply repeat_spec in Hi; subst; apply glwe_new_shape).
  destruct b.
  - rewrite bit_poly_ok. cbn [bind]. rewrite (proj2 (radix_valid_iff _ _ _)) by lia.
    destruct (triv_glev_loop_ok pr (r_log (p_cbs P)) (map Z.b2z (FheGraph.pconst N true)) ltac:(now rewrite map_length, pconst_len) (bits_torus _) Hl new 0%nat) as (r & -> & Lr & Wr & Pr);
      [rewrite Ln; lia|assumption|].
    eexists. split; [reflexivity|]. split; [lia|]. split; [assumption|]. intros j c Hj. split; [apply (proj1 (Forall_forall _ _) Wr c (nth_error_In _ _ Hj))|].
    eapply pnear_peq; [reflexivity| |exact (Pr j c Hj)]. rewrite Nat.add_0_l. intros i Hi. unfold pscale. apply zeq_mul; [reflexivity|]. apply zeq_refl'. now apply (bpoly_pconst N true).
  - eexists. split; [reflexivity|]. split; [assumption|]. split.
    + apply Forall_forall. intros c Hi. apply repeat_spec in Hi. subst. apply glwe_new_wf. lia.
    + intros j c Hj. apply nth_error_In, repeat_spec in Hj. subst c. split; [apply glwe_new_shape|]. apply pnear_refl.
      transitivity p0; [apply (glwe_phase_new N 64 k)|]. intros i Hi. apply zeq_refl'. unfold p0, pscale, pconst. cbn [Z.b2z]. destruct (_ =? _)%nat; ring.
Qed.

Lemma proc_new_ok h pr ck f0 f1 : add_exact h pr 64 -> sub_exact h pr 64 -> key_ok P B sk ck -> fenv_ok P B f0 -> fenv_ok P B f1 -> boot_margin P 0 ->
  exists pc, proc_new h pr P ck f0 f1 = Ok pc /\ pc_hw pc = h /\ pc_pr pc = pr /\ pc_key pc = ck /\ proc_ok P B sk pc.
Proof.
  intros Ha Hs K F0 F1 Hm. unfold proc_new.
  destruct (triv_lwe_ok (p_n P) false (po_n P HP)) as (z & -> & Wz & Nz). cbn [bind].
  assert (Ez : enc 0 (CLwe0 false) (KLwe0 z)) by (split; [assumption|apply Nz]).
  destruct (cbs_enc_raw P B sk f0 HP HB Hsk F0 h pr ck 0 false z Ha Hs K Hm Ez) as (g0 & -> & E0). cbn [bind].
  destruct (triv_lwe_ok (p_n P) true (po_n P HP)) as (o & -> & Wo & No). cbn [bind].
  assert (Eo : enc 0 (CLwe0 true) (KLwe0 o)) by (split; [assumption|apply No]).
  destruct (cbs_enc_raw P B sk f1 HP HB Hsk F1 h pr ck 0 true o Ha Hs K Hm Eo) as (g1 & -> & E1). cbn [bind].
  destruct (triv_glwe_ok false) as (zg & -> & Ezg). cbn [bind]. destruct (triv_glwe_ok true) as (og & -> & Eog). cbn [bind].
  destruct (triv_glev_ok pr false) as (zl & -> & Ezl). cbn [bind]. destruct (triv_glev_ok pr true) as (ol & -> & Eol). cbn [bind].
  eexists. split; [reflexivity|]. cbn [pc_hw pc_pr pc_key]. repeat (split; [reflexivity|]). constructor; cbn [pc_params pc_hw pc_pr pc_key pc_zero_lwe0 pc_one_lwe0 pc_zero_glwe1 pc_one_glwe1 pc_zero_ggsw1 pc_one_ggsw1 pc_zero_glev1 pc_one_glev1]; assumption || reflexivity.
Qed.

(** ** Fresh ciphertexts *)
Lemma enc_lwe0_ok b mask e E : length mask = p_n P -> toruses 64 mask -> near 64 E e 0 -> exists c, enc_lwe0 P sk b mask e = Ok c /\ enc E (CLwe0 b) (KLwe0 c).
Proof. intros Lm Tm He. destruct (lwe_sk_encrypt_near 64 (p_n P) (s_lwe0 sk) (Z.b2z b) 1 mask e E) as (c & Ec & Wc & Nc); auto; try lia; try apply HP; try apply Hsk. exists c. split; [exact Ec|]. split; assumption. Qed.
Lemma enc_lwe1_ok b mask e E : length mask = (k * N)%nat -> toruses 64 mask -> near 64 E e 0 -> exists c, enc_lwe1 P sk b mask e = Ok c /\ enc E (CLwe1 b) (KLwe1 c).
Proof.
  intros Lm Tm He. destruct (N_facts P HP) as (H2 & HN & Hk & H64).
  destruct (lwe_sk_encrypt_near 64 (k * N) (to_lwe_sk (s_glwe1 sk)) (Z.b2z b) 1 mask e E) as (c & Ec & Wc & Nc); auto; try lia; try nia.
  { destruct (so_glwe _ _ Hsk) as (Ls & Fs). unfold to_lwe_sk. rewrite (concat_len _ _ Fs). congruence. }
  exists c. split; [exact Ec|]. split; assumption.
Qed.
Lemma enc_glwe1_ok p masks e E : length p = N -> 0 <= E -> glwe_rnd_ok N k 64 E (masks, e) -> exists c, enc_glwe1 P sk p masks e = Ok c /\ enc E (CGlwe1 p) (KGlwe1 c).
Proof.
  intros Lp HE Hr. destruct (N_facts P HP) as (H2 & HN & Hk & H64). unfold enc_glwe1, glwe_encode_encrypt. rewrite (po_dim P HP), (encodes_ok 64) by (auto; lia). cbn [bind].
  destruct (glwe_encrypt_fresh N 64 k (glwe_new N k) (map (fun x => (x * 2 ^ (64 - 1)) mod 2 ^ 64) (map Z.b2z p)) (s_glwe1 sk) (masks, e) E word64 H2 (glwe_new_fresh N k)) as (c & E1 & W & Ph); try assumption; [now rewrite !map_length|apply Hsk|].
  exists c. split; [exact E1|]. split; [exact W|]. split; [assumption|]. eapply pnear_peq; [reflexivity|apply (penc_coef N 64 1)|exact Ph].
Qed.
Lemma enc_glev1_ok pr b rnd E : 0 <= E -> length rnd = r_count (p_cbs P) -> Forall (glwe_rnd_ok N k 64 E) rnd ->
  exists c, enc_glev1 pr P sk (FheGraph.pconst N b) rnd = Ok c /\ enc E (CGlev1 b) (KGlev1 c).
Proof.
  intros HE Lr Fr. destruct (N_facts P HP) as (H2 & HN & Hk & H64). destruct (po_cbs P HP) as (Hl & Hc & Hlc).
  destruct (glev_encrypt_ok N 64 pr (r_log (p_cbs P)) (r_count (p_cbs P)) k (s_glwe1 sk) (map Z.b2z (FheGraph.pconst N b)) E (repeat (glwe_new N k) (r_count (p_cbs P))) rnd) as (c & Ec & Lc & Wc & Pc);
    auto; try lia; try apply Hsk; try apply repeat_length; try apply fresh_rows; [now rewrite map_length, pconst_len|].
  exists c. split; [exact Ec|]. split; [assumption|]. split; [assumption|]. eapply glev_enc_peq; [|exact Pc]. intros i Hi. apply zeq_refl'. now apply (bpoly_pconst N b).
Qed.
Lemma enc_ggsw1_ok pr b rnd E : 0 <= E -> ggsw_rnd_ok N k (r_count (p_cbs P)) 64 E rnd -> exists c, enc_ggsw1 pr P sk b rnd = Ok c /\ enc E (CGgsw1 b) (KGgsw1 c).
Proof.
  intros HE (Lr & Fr). destruct (N_facts P HP) as (H2 & HN & Hk & H64). destruct (po_cbs P HP) as (Hl & Hc & Hlc).
  assert (Em : upd (repeat 0 N) 0 (fun _ => Z.b2z b) = map Z.b2z (FheGraph.pconst N b)).
  { destruct N as [|d]; [lia|]. cbn [repeat upd FheGraph.pconst map]. f_equal. symmetry. apply map_repeat'. }
  destruct (fresh_ggsw (r_count (p_cbs P))) as (Lg & Fg).
  destruct (ggsw_encrypt_ok N 64 pr (r_log (p_cbs P)) (r_count (p_cbs P)) k (s_glwe1 sk) (map Z.b2z (FheGraph.pconst N b)) E (ggsw_new N k (r_count (p_cbs P))) 1 rnd) as (c & Ec & Wc & Pc);
    auto; try lia; try apply Hsk.
  { now rewrite map_length, pconst_len. }
  { apply Forall_forall. intros x Hx. apply in_map_iff in Hx as ([] & <- & _); cbn [Z.b2z]; lia. }
  exists c. unfold enc_ggsw1. rewrite Em. split; [exact Ec|].
  assert (Q : peq N (2 ^ 64) (coef (map Z.b2z (FheGraph.pconst N b))) (pconst (Z.b2z b))) by (intros i Hi; apply zeq_refl'; now apply (bpoly_pconst N b)).
  destruct Pc as (A1 & A2 & A3 & A4). split.
  { apply ggsw_valid_iff. split; [assumption|]. eapply Forall_impl; [|exact Wc]. intros r (Y1 & Y2). split; [assumption|]. eapply Forall_impl; [|exact Y2]. intros a Ha. apply Ha. }
  split; [eapply Forall_impl; [|exact Wc]; intros r Hr; apply Hr|].
  split; [assumption|]. split; [assumption|]. split.
  * intros i s r Hs' Hr. eapply glev_enc_peq; [|eapply A3; eassumption]. apply popp_mor. apply pmul_mor; [exact Q|reflexivity].
  * intros r Hr. eapply glev_enc_peq; [exact Q|]. now apply A4.
Qed.
End S.
