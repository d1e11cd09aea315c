(** Theorems about the checked deserialisation of keys, ciphertexts and one-time pads. *)
From Coq Require Import ArithRing.
From Verif Require Import Base Alu FluentInt FluentIntProofs2 Tfhe TfheGlwe TfheBoot SpecTfhe SpecGlwe SpecBoot SpecTrace SpecSwitch Eval SpecEval TfheProofs TfheProofs2 TfheGlweProofs TfheGlweProofs2 TfheGlweProofs3 TfheSwitchProofs Serde SpecSerde SerdeProofs.
Ltac Zify.zify_post_hook ::= idtac.
Open Scope Z_scope.

(** * C112: [safe_bincode::deserialize] *)

(** ** What a codec gives its users *)

(** A serialised object is read back, whatever follows it. *)
Theorem deserialize_roundtrip {A} (de : list Z -> res A) ser ok n x rest : codec de ser ok n -> ok x -> bytes rest -> de (ser x ++ rest) = Ok x.
Proof.
  intros [H1 H2] O B. destruct (H2 x O) as [Bx _]. destruct (H1 (ser x ++ rest)) as [H _]; [apply Forall_app; auto|]. apply H. eauto.
Qed.
Print Assumptions deserialize_roundtrip.
(** Fewer bytes than an object needs are refused with an error, whatever they are. *)
Theorem deserialize_truncated {A} (de : list Z -> res A) ser ok n data : codec de ser ok n -> bytes data -> Z.of_nat (length data) < n -> exists e, de data = Err e.
Proof.
  intros [H1 H2] B L. destruct (H1 data B) as [H Hn]. destruct (de data) as [x|e|] eqn:E; [|eauto|contradiction].
  destruct (proj1 (H x) eq_refl) as (O & rest & D). destruct (H2 x O) as [_ Lx]. rewrite D, app_length in L. lia.
Qed.
Print Assumptions deserialize_truncated.
(** Two inputs that agree on the first [n] bytes give the same object. *)
Theorem deserialize_prefix {A} (de : list Z -> res A) ser ok n data rest rest' x : codec de ser ok n -> bytes (data ++ rest) -> bytes rest' -> Z.of_nat (length data) = n ->
  de (data ++ rest) = Ok x -> de (data ++ rest') = Ok x.
Proof.
  intros [H1 H2] B B' L E. apply (proj1 (H1 _ B)) in E as (O & r & D). destruct (H2 x O) as [_ Lx].
  assert (D1 : data = ser x). { rewrite <- (firstn_len_app data rest (length data) eq_refl), D. apply firstn_len_app. lia. }
  apply (proj1 (H1 (data ++ rest') ltac:(apply Forall_app in B; apply Forall_app; tauto))). split; [assumption|]. exists rest'. now rewrite D1.
Qed.
Print Assumptions deserialize_prefix.

(** ** The types *)
Theorem public_key_codec P : fits ((p_k P + 1) * p_N P) ->
  codec (de_public_key P) ser_public_key (glwe_wf 64 (p_N P) (p_k P)) (8 * (1 + Z.of_nat ((p_k P + 1) * p_N P))).
Proof.
  intros F. assert (E : sz_glwe (p_N P) (p_k P) = ((p_k P + 1) * p_N P)%nat) by (unfold sz_glwe, sz_glwe_sk; lia).
  replace (8 * (1 + Z.of_nat ((p_k P + 1) * p_N P))) with (8 + 8 * Z.of_nat (sz_glwe (p_N P) (p_k P))) by (rewrite E; lia).
  eapply codec_one; [apply lay_glwe|reflexivity|reflexivity|now rewrite E|lia].
Qed.
Print Assumptions public_key_codec.
Theorem glwe_codec P : fits ((p_k P + 1) * p_N P) -> codec (de_glwe1 P) ser_glwe (glwe_wf 64 (p_N P) (p_k P)) (8 * (1 + Z.of_nat ((p_k P + 1) * p_N P))).
Proof. exact (public_key_codec P). Qed.
Print Assumptions glwe_codec.
Theorem public_pad_codec P : fits ((p_k P + 1) * p_N P) -> codec (de_public_pad P) ser_glwe (glwe_wf 64 (p_N P) (p_k P)) (8 * (1 + Z.of_nat ((p_k P + 1) * p_N P))).
Proof. exact (public_key_codec P). Qed.
Print Assumptions public_pad_codec.
Theorem lwe_codec P : (fits (p_n P + 1) -> codec (de_lwe0 P) ser_lwe (lwe_wf 64 (p_n P)) (8 * (1 + Z.of_nat (p_n P + 1)))) /\
  (fits (p_k P * p_N P + 1) -> codec (de_lwe1 P) ser_lwe (lwe_wf 64 (p_k P * p_N P)) (8 * (1 + Z.of_nat (p_k P * p_N P + 1)))).
Proof.
  assert (H : forall n, fits (n + 1) -> codec (de_lwe n) ser_lwe (lwe_wf 64 n) (8 * (1 + Z.of_nat (n + 1)))).
  { intros n F. replace (8 * (1 + Z.of_nat (n + 1))) with (8 + 8 * Z.of_nat (sz_lwe n)) by (unfold sz_lwe; lia). eapply codec_one; [apply lay_lwe|reflexivity|reflexivity|exact F|lia]. }
  split; apply H.
Qed.
Print Assumptions lwe_codec.
Theorem glev_codec P : fits (r_count (p_cbs P) * ((p_k P + 1) * p_N P)) ->
  codec (de_glev1 P) ser_glev (glev_ok P (r_count (p_cbs P))) (8 * (1 + Z.of_nat (r_count (p_cbs P) * ((p_k P + 1) * p_N P)))).
Proof.
  intros F. assert (E : sz_glev (p_N P) (p_k P) (r_count (p_cbs P)) = (r_count (p_cbs P) * ((p_k P + 1) * p_N P))%nat) by (unfold sz_glev, sz_glwe, sz_glwe_sk; lia).
  rewrite <- E in *. replace (8 * (1 + Z.of_nat (sz_glev (p_N P) (p_k P) (r_count (p_cbs P))))) with (8 + 8 * Z.of_nat (sz_glev (p_N P) (p_k P) (r_count (p_cbs P)))) by lia.
  eapply codec_one; [apply lay_glev|reflexivity|reflexivity|exact F|lia].
Qed.
Print Assumptions glev_codec.
(** GGSW ciphertexts, in Fourier form. *)
Theorem ggsw_codec P : let n := ((p_k P + 1) * (r_count (p_cbs P) * ((p_k P + 1) * (p_N P / 2))))%nat in fits n ->
  codec (de_ggsw1 P) ser_ggsw (complex_words n) (8 * (1 + 2 * Z.of_nat n)).
Proof.
  intros n F. assert (E : fsz_ggsw (p_N P) (p_k P) (r_count (p_cbs P)) = n) by (unfold fsz_ggsw, fsz_glwe, n; ring).
  replace (8 * (1 + 2 * Z.of_nat n)) with (fields_size [(2, n)]%nat) by (cbn [fields_size]; lia).
  apply (codec_fields _ _ _ (Z.of_nat ((sz_ggsw (p_N P) (p_k P) (r_count (p_cbs P)) + 1) * 8)) [(2, n)]%nat (fun x => [x]) (fun xs => match xs with [x] => Ok x | _ => Panic end)).
  - intros data. unfold de_ggsw1. cbv zeta. rewrite E. reflexivity.
  - reflexivity.
  - repeat constructor; exact F.
  - cbn [fields_size]. unfold sz_ggsw, sz_glev, sz_glwe, sz_glwe_sk, n. pose proof (Nat.div_mod (p_N P) 2 ltac:(lia)).
    assert (H1 : (2 * (p_N P / 2) <= p_N P)%nat) by lia. assert (H2 : (2 * ((p_k P + 1) * (r_count (p_cbs P) * ((p_k P + 1) * (p_N P / 2)))) <= (p_N P * p_k P + p_N P) * r_count (p_cbs P) * (p_k P + 1))%nat).
    { replace (2 * ((p_k P + 1) * (r_count (p_cbs P) * ((p_k P + 1) * (p_N P / 2)))))%nat with ((p_k P + 1) * (r_count (p_cbs P) * (p_k P + 1)) * (2 * (p_N P / 2)))%nat by ring.
      replace ((p_N P * p_k P + p_N P) * r_count (p_cbs P) * (p_k P + 1))%nat with ((p_k P + 1) * (r_count (p_cbs P) * (p_k P + 1)) * p_N P)%nat by ring. now apply Nat.mul_le_mono_l. }
    lia.
  - intros x [L T]. split; [|reflexivity]. constructor; [split; assumption|constructor].
  - intros xs Hx. inversion Hx as [|? x ? l [Lx Tx] Hl]; subst. inversion Hl; subst. exists x. split; [reflexivity|]. split; [split; assumption|reflexivity].
Qed.
Print Assumptions ggsw_codec.
Theorem secret_key_codec P : fits (p_n P) -> fits (p_k P * p_N P) ->
  codec (de_secret_key P) ser_secret_key (secret_key_ok P) (8 * (2 + Z.of_nat (p_n P + p_k P * p_N P))).
Proof.
  intros F1 F2. destruct (lay_polys (p_N P) (p_k P)) as [H1 H2].
  replace (8 * (2 + Z.of_nat (p_n P + p_k P * p_N P))) with (fields_size [(1, p_n P); (1, sz_glwe_sk (p_N P) (p_k P))]%nat) by (cbn [fields_size]; unfold sz_glwe_sk; lia).
  apply (codec_fields _ _ _ (Z.of_nat ((p_n P + sz_glwe_sk (p_N P) (p_k P) + 3) * 8)) [(1, p_n P); (1, sz_glwe_sk (p_N P) (p_k P))]%nat (fun sk => [s_lwe0 sk; concat (s_glwe1 sk)])
    (fun xs => match xs with [x; y] => Ok {| s_lwe0 := x; s_glwe1 := chunks (p_k P) (p_N P) y |} | _ => Panic end)).
  - reflexivity.
  - reflexivity.
  - repeat constructor; cbn [snd]; [exact F1|]. unfold sz_glwe_sk. now rewrite Nat.mul_comm.
  - cbn [fields_size]. lia.
  - intros [x y] [[L T] O]. cbn [s_lwe0 s_glwe1] in *. destruct (H1 y O) as (Ly & Ty & E). split; [|now rewrite E].
    repeat constructor; cbn [fst snd]; unfold sz_glwe_sk; (assumption || lia).
  - intros xs Hx. inversion Hx as [|? x ? l [Lx Tx] Hl]; subst. inversion Hl as [|? y ? l' [Ly Ty] Hl']; subst. inversion Hl'; subst. cbn [fst snd] in *. unfold sz_glwe_sk in Ly.
    destruct (H2 y ltac:(lia) Ty) as [O E]. exists {| s_lwe0 := x; s_glwe1 := chunks (p_k P) (p_N P) y |}. split; [reflexivity|]. split; [|cbn [s_lwe0 s_glwe1]; now rewrite E].
    split; [cbn [s_lwe0]; split; [lia|assumption]|exact O].
Qed.
Print Assumptions secret_key_codec.
Theorem secret_pad_codec P : fits (p_N P) -> codec (de_secret_pad P) ser_secret_pad (fun key => length key = p_N P /\ toruses 64 key) (8 * (1 + Z.of_nat (p_N P))).
Proof.
  intros F. replace (8 * (1 + Z.of_nat (p_N P))) with (8 + 8 * Z.of_nat (p_N P)) by lia.
  apply (codec_one _ _ _ (Z.of_nat ((p_N P + 1) * 8)) (p_N P) (fun x => x) (fun x => x)); [split; [intros x [L T]; auto|intros l L T; auto]|reflexivity|reflexivity|exact F|lia].
Qed.
Print Assumptions secret_pad_codec.
Theorem compute_key_codec P : key_fits P ->
  codec (de_compute_key P) ser_compute_key (compute_key_ok P) (8 * (4 + Z.of_nat (bs_size P (p_N P) + ks_size P + ss_size P (p_N P) + auto_size P (p_N P)))).
Proof.
  intros (F1 & F2 & F3 & F4).
  assert (E1 : sz_bs P = bs_size P (p_N P)) by (unfold sz_bs, sz_ggsw, sz_glev, sz_glwe, sz_glwe_sk, bs_size; ring).
  assert (E2 : sz_ks P = ks_size P) by (unfold sz_ks, sz_lev, sz_lwe, ks_size; ring).
  assert (E3 : sz_ss P = ss_size P (p_N P)) by (unfold sz_ss, sz_glwe, sz_glwe_sk, ss_size; ring).
  assert (E4 : sz_auto P = auto_size P (p_N P)) by (unfold sz_auto, sz_glev, sz_glwe, sz_glwe_sk, auto_size; ring).
  rewrite <- E1, <- E2, <- E3, <- E4 in *.
  replace (8 * (4 + Z.of_nat (sz_bs P + sz_ks P + sz_ss P + sz_auto P))) with (fields_size [(1, sz_bs P); (1, sz_ks P); (1, sz_auto P); (1, sz_ss P)]%nat) by (cbn [fields_size]; lia).
  destruct (lay_bs P) as [A1 A2]. destruct (lay_ks P) as [B1 B2]. destruct (lay_ss P) as [C1 C2]. destruct (lay_auto P) as [D1 D2].
  apply (codec_fields _ _ _ (Z.of_nat ((sz_bs P + sz_ks P + sz_ss P + sz_auto P + 4) * 8)) [(1, sz_bs P); (1, sz_ks P); (1, sz_auto P); (1, sz_ss P)]%nat
    (fun ck => [flat_bs (k_bs ck); flat_ks (k_ks ck); flat_auto (k_auto ck); flat_ss (k_ss ck)])
    (fun xs => match xs with [bs; ks; auto; ss] => Ok {| k_bs := un_bs P bs; k_ks := un_ks P ks; k_ss := un_ss P ss; k_auto := un_auto P auto |} | _ => Panic end)).
  - reflexivity.
  - reflexivity.
  - repeat constructor; assumption.
  - cbn [fields_size]. lia.
  - intros [bs ks ss auto] (O1 & O2 & O3 & O4). cbn [k_bs k_ks k_ss k_auto] in *.
    destruct (A1 bs O1) as (La & Ta & Ea). destruct (B1 ks O2) as (Lb & Tb & Eb). destruct (C1 ss O3) as (Lc & Tc & Ec). destruct (D1 auto O4) as (Ld & Td & Ed).
    split; [|now rewrite Ea, Eb, Ec, Ed]. repeat (constructor; [cbn [fst snd]; split; [lia|assumption]|]). constructor.
  - intros xs Hx. inversion Hx as [|? x1 ? l [L1 T1] Hl]; subst. inversion Hl as [|? x2 ? l2 [L2 T2] Hl2]; subst. inversion Hl2 as [|? x3 ? l3 [L3 T3] Hl3]; subst. inversion Hl3 as [|? x4 ? l4 [L4 T4] Hl4]; subst.
    inversion Hl4; subst. cbn [fst snd] in *. rewrite Nat.mul_1_l in *.
    destruct (A2 x1 L1 T1) as [O1 G1]. destruct (B2 x2 L2 T2) as [O2 G2]. destruct (C2 x4 L4 T4) as [O3 G3]. destruct (D2 x3 L3 T3) as [O4 G4].
    eexists. split; [reflexivity|]. split; [split; [exact O1|split; [exact O2|split; [exact O3|exact O4]]]|]. cbn [k_bs k_ks k_ss k_auto]. now rewrite G1, G2, G3, G4.
Qed.
Print Assumptions compute_key_codec.
(** The compute key in Fourier form. *)
Definition fft_key_ok (P : params) (fk : fft_key) : Prop :=
  complex_words (bs_size P (p_N P / 2)) (fk_bs fk) /\ lwe_ksk_ok P (fk_ks fk) /\ complex_words (ss_size P (p_N P / 2)) (fk_ss fk) /\ complex_words (auto_size P (p_N P / 2)) (fk_auto fk).
Theorem fft_key_codec P : key_fits P ->
  codec (de_fft_key P) ser_fft_key (fft_key_ok P) (8 * (4 + Z.of_nat (2 * bs_size P (p_N P / 2) + ks_size P + 2 * ss_size P (p_N P / 2) + 2 * auto_size P (p_N P / 2)))).
Proof.
  intros (F1 & F2 & F3 & F4). assert (Hh : (p_N P / 2 <= p_N P)%nat) by (apply Nat.div_le_upper_bound; lia).
  assert (G1 : (bs_size P (p_N P / 2) <= bs_size P (p_N P))%nat) by (unfold bs_size; repeat apply Nat.mul_le_mono_l; exact Hh).
  assert (G3 : (ss_size P (p_N P / 2) <= ss_size P (p_N P))%nat) by (unfold ss_size; repeat apply Nat.mul_le_mono_l; exact Hh).
  assert (G4 : (auto_size P (p_N P / 2) <= auto_size P (p_N P))%nat) by (unfold auto_size; repeat apply Nat.mul_le_mono_l; exact Hh).
  assert (E1 : sz_bs P = bs_size P (p_N P)) by (unfold sz_bs, sz_ggsw, sz_glev, sz_glwe, sz_glwe_sk, bs_size; ring).
  assert (E2 : sz_ks P = ks_size P) by (unfold sz_ks, sz_lev, sz_lwe, ks_size; ring).
  assert (E3 : sz_ss P = ss_size P (p_N P)) by (unfold sz_ss, sz_glwe, sz_glwe_sk, ss_size; ring).
  assert (H1 : fsz_bs P = bs_size P (p_N P / 2)) by (unfold fsz_bs, fsz_ggsw, fsz_glwe, bs_size; ring).
  assert (H3 : fsz_ss P = ss_size P (p_N P / 2)) by (unfold fsz_ss, fsz_glwe, ss_size; ring).
  assert (H4 : fsz_auto P = auto_size P (p_N P / 2)) by (unfold fsz_auto, fsz_glwe, auto_size; ring).
  replace (8 * (4 + Z.of_nat (2 * bs_size P (p_N P / 2) + ks_size P + 2 * ss_size P (p_N P / 2) + 2 * auto_size P (p_N P / 2)))) with (fields_size [(2, fsz_bs P); (1, sz_ks P); (2, fsz_ss P); (2, fsz_auto P)]%nat)
    by (cbn [fields_size]; rewrite H1, E2, H3, H4; lia).
  destruct (lay_ks P) as [B1 B2].
  apply (codec_fields _ _ _ (Z.of_nat ((sz_bs P + sz_ks P + sz_ss P + fsz_auto P) * 16 + 4 * 8)) [(2, fsz_bs P); (1, sz_ks P); (2, fsz_ss P); (2, fsz_auto P)]%nat
    (fun fk => [fk_bs fk; flat_ks (fk_ks fk); fk_ss fk; fk_auto fk])
    (fun xs => match xs with [bs; ks; ss; auto] => Ok {| fk_bs := bs; fk_ks := un_ks P ks; fk_ss := ss; fk_auto := auto |} | _ => Panic end)).
  - reflexivity.
  - reflexivity.
  - repeat constructor; cbn [snd]; rewrite ?H1, ?E2, ?H3, ?H4; unfold fits in *; lia.
  - cbn [fields_size]. rewrite H1, H3, H4, E1, E2, E3. lia.
  - intros [bs ks ss auto] ((L1 & T1) & O2 & (L3 & T3) & (L4 & T4)). cbn [fk_bs fk_ks fk_ss fk_auto] in *. destruct (B1 ks O2) as (Lb & Tb & Eb).
    split; [|now rewrite Eb]. repeat (constructor; [cbn [fst snd]; split; [lia|assumption]|]). constructor.
  - intros xs Hx. inversion Hx as [|? x1 ? l [L1 T1] Hl]; subst. inversion Hl as [|? x2 ? l2 [L2 T2] Hl2]; subst. inversion Hl2 as [|? x3 ? l3 [L3 T3] Hl3]; subst. inversion Hl3 as [|? x4 ? l4 [L4 T4] Hl4]; subst.
    inversion Hl4; subst. cbn [fst snd] in *. rewrite Nat.mul_1_l in L2. destruct (B2 x2 L2 T2) as [O2 G2]. rewrite H1 in L1. rewrite H3 in L3. rewrite H4 in L4.
    eexists. split; [reflexivity|]. split; [split; [split; [exact L1|exact T1]|split; [exact O2|split; [split; [exact L3|exact T3]|split; [exact L4|exact T4]]]]|]. cbn [fk_bs fk_ks fk_ss fk_auto]. now rewrite G2.
Qed.
Print Assumptions fft_key_codec.

(** ** Generated compute keys can be sent *)

(** A compute key that holds the right encryptions (what key generation gives, C101) is well formed, so it is read back unchanged. *)
Theorem generated_key_transport P B sk ck rest : params_ok P -> secret_ok P sk -> key_ok P B sk ck -> key_words ck -> key_fits P -> bytes rest ->
  de_compute_key P (ser_compute_key ck ++ rest) = Ok ck.
Proof.
  intros HP Hsk [Kb Ka Ks Kv Kk] (W1 & W2 & W3 & W4) F B0. apply (deserialize_roundtrip _ _ _ _ _ _ (compute_key_codec P F)); [|assumption].
  assert (G : forall c, glwe_shape (p_N P) (p_k P) c -> glwe_words c -> glwe_wf 64 (p_N P) (p_k P) c) by (intros c H [H1 H2]; split; auto).
  assert (GL : forall l, Forall (glwe_shape (p_N P) (p_k P)) l -> Forall glwe_words l -> Forall (glwe_wf 64 (p_N P) (p_k P)) l).
  { intros l H1 H2. apply Forall_forall. intros c Hc. apply G; [exact (proj1 (Forall_forall _ _) H1 c Hc)|exact (proj1 (Forall_forall _ _) H2 c Hc)]. }
  split; [|split; [|split]].
  - unfold bsk_enc in Kb. split; [rewrite <- (so_lwe P sk Hsk); clear - Kb; induction Kb; cbn [length]; congruence|].
    clear - Kb W1 GL. induction Kb as [|x g s bs [V _] Kb IH]; constructor; apply Forall_cons_iff in W1 as [W W1]; [|now apply IH].
    apply ggsw_valid_iff in V as [Lg V]. split; [lia|]. apply Forall_forall. intros r Hr. destruct (proj1 (Forall_forall _ _) V r Hr) as [Lr Sr]. split; [exact Lr|]. apply GL; [exact Sr|exact (proj1 (Forall_forall _ _) W r Hr)].
  - apply ksk_valid_iff in Kv as [Lk V]. split; [exact Lk|]. apply Forall_forall. intros r Hr. destruct (proj1 (Forall_forall _ _) V r Hr) as [Lr Sr]. split; [exact Lr|].
    apply Forall_forall. intros c Hc. split; [exact (proj1 (Forall_forall _ _) Sr c Hc)|]. exact (proj1 (Forall_forall _ _) (proj1 (Forall_forall _ _) W2 r Hr) c Hc).
  - unfold ssk_enc in Ks. split; [rewrite <- (proj1 (so_glwe P sk Hsk)), <- tri_pairs_len; clear - Ks; induction Ks; cbn [length]; congruence|].
    clear - Ks W3 GL. induction Ks as [|p g ps ss [[Lg V] _] Ks IH]; constructor; apply Forall_cons_iff in W3 as [W W3]; [|now apply IH]. split; [exact Lg|now apply GL].
  - destruct Ka as [La Ka]. split; [exact La|]. apply Forall_forall. intros g Hg. destruct (In_nth_error _ _ Hg) as [i Hi]. destruct (Ka i g Hi) as (Lg & V & _). split; [exact Lg|].
    pose proof (proj1 (Forall_forall _ _) W4 g Hg) as Wg. apply Forall_forall. intros r Hr. destruct (proj1 (Forall_forall _ _) V r Hr) as [Lr Sr]. split; [exact Lr|]. apply GL; [exact Sr|exact (proj1 (Forall_forall _ _) Wg r Hr)].
Qed.
Print Assumptions generated_key_transport.

(** ** What the check does not establish *)

(** Nothing checks that a secret key is binary: every key of the right lengths is accepted. With a coefficient of 2 or more in its
    LWE part, generating a compute key from it aborts (in every build). *)
Theorem secret_key_not_binary_refuted pr P sk r : fits (p_n P) -> fits (p_k P * p_N P) -> secret_key_ok P sk -> Exists (fun x => 2 <= x) (s_lwe0 sk) ->
  de_secret_key P (ser_secret_key sk) = Ok sk /\ forall ck, key_generate pr P sk r <> Ok ck.
Proof.
  intros F1 F2 O H. split.
  - rewrite <- (app_nil_r (ser_secret_key sk)). apply (deserialize_roundtrip _ _ _ _ _ _ (secret_key_codec P F1 F2) O). constructor.
  - intros ck E. unfold key_generate in E. cbv zeta in E. destruct (generate_bsk _ _ _ _ _ _ _ _ _ _ _) as [bs|e|] eqn:Eb; cbn [bind] in E; try discriminate. clear E. unfold generate_bsk in Eb.
    destruct (lwe_dim_valid _ && _ && _ && _ && _ && _); [|discriminate]. assert (L : length (repeat (ggsw_new (p_N P) (p_k P) (r_count (p_pbs P))) (p_n P)) = length (s_lwe0 sk)) by (rewrite repeat_length; symmetry; apply O).
    revert L Eb. generalize (repeat (ggsw_new (p_N P) (p_k P) (r_count (p_pbs P))) (p_n P)) (kr_bs r). clear O. revert bs. induction H as [x s Hx|x s H IH]; intros bs [|g gs] rnd L E; try (cbn [length] in L; lia).
    + cbn [bsk_loop] in E. unfold ggsw_encrypt_scalar in E. destruct (p_N P =? 0)%nat; [discriminate|]. unfold ggsw_encrypt in E. change (ushl pr 64 1 1) with (Ok (A := Z) 2) in E. cbn [bind forallb] in E.
      change (uwrap 64 2) with 2 in E. destruct (Z.ltb_spec x 2); [lia|]. cbn [andb bind] in E. discriminate.
    + cbn [bsk_loop] in E. destruct (ggsw_encrypt_scalar _ _ _ _ _ _ _ _ _ _ _) as [g'|e|]; cbn [bind] in E; try discriminate.
      destruct (bsk_loop _ _ _ _ _ _ gs s _ _) as [gs'|e|] eqn:E2; cbn [bind] in E; try discriminate. apply (IH gs' gs (fun i => rnd (S i))); [cbn [length] in L; lia|exact E2].
Qed.
Print Assumptions secret_key_not_binary_refuted.

(** The same for the secret one-time pad: with a key word of 2^64 - 1 (accepted), decryption of a message bit 1 aborts in debug
    builds; in release builds only the parity of a word matters. *)
Theorem secret_pad_not_binary_refuted P key x : fits (p_N P) -> (1 <= p_N P)%nat -> key = repeat (2 ^ 64 - 1) (p_N P) -> x = repeat 1 (p_N P) ->
  de_secret_pad P (ser_secret_pad key) = Ok key /\ decrypt_pad Debug x key = Panic.
Proof.
  intros F H -> ->. split.
  - rewrite <- (app_nil_r (ser_secret_pad _)). apply (deserialize_roundtrip _ _ _ _ _ _ (secret_pad_codec P F)); [|constructor]. split; [apply repeat_length|].
    apply Forall_forall. intros y Hy. apply repeat_spec in Hy as ->. split; lia.
  - unfold decrypt_pad. rewrite !repeat_length, Nat.eqb_refl. destruct (p_N P) as [|n]; [lia|]. cbn [repeat pad_loop]. reflexivity.
Qed.
Print Assumptions secret_pad_not_binary_refuted.
(** Decryption of a one-time pad: the parity of the sum, for messages and pads of bits in every build, and for all pads in release
    builds; lengths must agree. *)
Theorem pad_decryption pr x key : toruses 64 x -> toruses 64 key -> pr = Release \/ binary x /\ binary key ->
  decrypt_pad pr x key = if (length key =? length x)%nat then Ok (map (fun p => (fst p + snd p) mod 2) (combine x key)) else Panic.
Proof.
  intros Hx Hk H. unfold decrypt_pad. destruct (length key =? length x)%nat; [|reflexivity].
  revert key Hk H. induction Hx as [|a x Ha Hx IH]; intros key Hk H; [reflexivity|]. destruct key as [|b key]; [reflexivity|]. cbn [pad_loop combine map fst snd].
  apply Forall_cons_iff in Hk as [Hb Hk]. rewrite (IH key Hk) by (destruct H as [H|[H1 H2]]; [now left|right; split; [now inversion H1|now inversion H2]]).
  assert (E : exists s, uadd pr 64 a b = Ok s /\ s mod 2 = (a + b) mod 2).
  { unfold uadd. destruct (Z.ltb_spec (a + b) (2 ^ 64)); [eauto|]. destruct H as [->|[H1 H2]].
    - eexists. split; [reflexivity|]. unfold uwrap. change (2 ^ 64) with (2 * 2 ^ 63). rewrite Z.rem_mul_r by lia. rewrite Z.mul_comm, Z.mod_add by lia. apply Z.mod_mod. lia.
    - inversion H1; inversion H2; subst. lia. }
  destruct E as (s & -> & Es). cbn [bind]. now rewrite Es.
Qed.
Print Assumptions pad_decryption.

(** ** Concrete cases: N = 4, one mask polynomial, LWE dimension 1 *)
Definition sd_P := {| p_n := 1; p_N := 4; p_k := 1; p_cbs := {| r_log := 7; r_count := 1 |}; p_pbs := {| r_log := 15; r_count := 2 |};
  p_ks := {| r_log := 15; r_count := 2 |}; p_ss := {| r_log := 15; r_count := 2 |}; p_tr := {| r_log := 15; r_count := 2 |} |}.
Example sd_fits : key_fits sd_P /\ fits (p_n sd_P) /\ fits (p_k sd_P * p_N sd_P) /\ fits ((p_k sd_P + 1) * p_N sd_P).
Proof. unfold key_fits, fits. repeat split; vm_compute; reflexivity. Qed.
(** A secret key, its 56 bytes, and what happens to damaged copies: a short one, one with a wrong length field, one with a huge
    length field, and one followed by other bytes. *)
Definition sd_sk := {| s_lwe0 := [1]; s_glwe1 := [[1; 0; 1; 300]] |}.
Definition sd_bytes : list Z := [1;0;0;0;0;0;0;0; 1;0;0;0;0;0;0;0; 4;0;0;0;0;0;0;0; 1;0;0;0;0;0;0;0; 0;0;0;0;0;0;0;0; 1;0;0;0;0;0;0;0; 44;1;0;0;0;0;0;0].
Example sd_secret_key : ser_secret_key sd_sk = sd_bytes /\ de_secret_key sd_P sd_bytes = Ok sd_sk /\ de_secret_key sd_P (sd_bytes ++ [7; 7]) = Ok sd_sk /\
  (exists e, de_secret_key sd_P (firstn 55 sd_bytes) = Err e) /\ (exists e, de_secret_key sd_P (2 :: tl sd_bytes) = Err e) /\
  (exists e, de_secret_key sd_P (repeat 255 8 ++ skipn 8 sd_bytes) = Err e).
Proof. repeat split; try (vm_compute; reflexivity); eexists; vm_compute; reflexivity. Qed.
Definition sd_glwe (z : Z) : glwe := {| ga := [[z; 1; 2; 3]]; gb := [4; 5; 6; z] |}.
Definition sd_lwe (z : Z) : lwe := {| lwe_a := [z]; lwe_b := 9 |}.
Definition sd_ck : compute_key := {| k_bs := [[[sd_glwe 1; sd_glwe 2]; [sd_glwe 3; sd_glwe 4]]]; k_ks := map (fun z => [sd_lwe z; sd_lwe (z + 1)]) [1; 2; 3; 4];
  k_ss := [[sd_glwe 5; sd_glwe 6]]; k_auto := [[[sd_glwe 7; sd_glwe 8]]; [[sd_glwe 9; sd_glwe 10]]] |}.
Example sd_compute_key : length (ser_compute_key sd_ck) = 800%nat /\ de_compute_key sd_P (ser_compute_key sd_ck) = Ok sd_ck /\ (exists e, de_compute_key sd_P (firstn 799 (ser_compute_key sd_ck)) = Err e).
Proof. split; [vm_compute; reflexivity|]. split; [vm_compute; reflexivity|]. eexists. vm_compute. reflexivity. Qed.
Example sd_pads : decrypt_pad Debug [1; 0; 1; 0] [1; 1; 0; 0] = Ok [0; 1; 1; 0] /\ decrypt_pad Release [1; 0] [2 ^ 64 - 1; 2] = Ok [0; 0] /\ decrypt_pad Debug [1] [1; 0] = Panic.
Proof. repeat split; vm_compute; reflexivity. Qed.
Example sd_not_binary : Exists (fun x => 2 <= x) (s_lwe0 {| s_lwe0 := [2]; s_glwe1 := [[1; 0; 1; 0]] |}) /\ secret_key_ok sd_P {| s_lwe0 := [2]; s_glwe1 := [[1; 0; 1; 0]] |}.
Proof. split; [left; cbn; lia|]. split; [split; [reflexivity|]|split; [reflexivity|]]; unfold toruses; repeat (constructor; auto); cbn; lia. Qed.
