(** Theorems about LWE public keys and one-time-pad recryption on ciphertexts. *)
From Verif Require Import Base Alu Graph MuxGraph FheGraph SpecFhe PolyRing Tfhe TfheGlwe SpecTfhe SpecGlwe SpecBoot Eval SpecEval TfheProofs TfheGlweProofs EvalProofs EvalProofs2 Serde SpecSerde Props_Serde Props_Eval PubKey.
Ltac Zify.zify_post_hook ::= idtac.
Open Scope Z_scope.

(** * C114: encryption under an LWE public key *)

(** The sum of the entries of [cs] selected by [rs], seen through the secret key. *)
Fixpoint selected (sk : list Z) (cs : list lwe) (rs : list Z) : Z :=
  match cs, rs with c :: cs, r :: rs => r * lwe_phase sk c + selected sk cs rs | _, _ => 0 end.

Lemma pk_select_ok w : forall pk rs acc, Forall (fun z => length (lwe_a z) = length (lwe_a acc)) pk -> length rs = length pk ->
  let '(acc', used) := pk_select w acc pk rs in
  used = rs /\ length (lwe_a acc') = length (lwe_a acc) /\ forall sk, congr w (lwe_phase sk acc') (lwe_phase sk acc + selected sk pk rs).
Proof.
  induction pk as [|z pk IH]; intros [|r rs] acc F L; try discriminate; cbn [pk_select selected].
  - split; [reflexivity|]. split; [reflexivity|]. intros sk. apply zeq_refl'. ring.
  - apply Forall_cons_iff in F as [Hz F]. destruct (lwe_scalar_mad_ok w acc r z (eq_sym Hz)) as (c' & E & Lc & _ & _ & Ph).
    unfold lwe_scalar_mad in E. rewrite Hz, Nat.eqb_refl in E. injection E as E. rewrite <- E in *. cbn [lwe_a lwe_b] in *. clear c' E.
    specialize (IH rs {| lwe_a := zip_assign (fun y x => tadd w y (tmul w x r)) (lwe_a acc) (lwe_a z); lwe_b := tadd w (lwe_b acc) (tmul w (lwe_b z) r) |}).
    destruct (pk_select _ _ pk rs) as [acc' used]. cbn [lwe_a] in IH. destruct IH as (-> & L1 & C1); [now rewrite Lc|cbn in L; congruence|].
    split; [reflexivity|]. split; [congruence|]. intros sk. rewrite C1, (Ph sk). apply zeq_refl'. ring.
Qed.

(** The ciphertext is exactly the encoded message plus the selected encryptions of zero plus the returned error: the randomness that
    is returned explains it. *)
Theorem lwe_public_encrypt_exact w dim pk msg p rs ea eb : word w -> dim <> O -> length pk = dim -> Forall (fun z => length (lwe_a z) = dim) pk -> 0 < p < w ->
  length rs = dim -> length ea = dim ->
  exists c rnd, lwe_pk_encrypt w dim pk msg p rs ea eb = Ok (c, rnd) /\ pr_r rnd = rs /\ lwe_a (pr_e rnd) = ea /\ lwe_b (pr_e rnd) = eb /\ length (lwe_a c) = dim /\
    forall sk, congr w (lwe_phase sk c) (msg * 2 ^ (w - p) + selected sk pk (pr_r rnd) + lwe_phase sk (pr_e rnd)).
Proof.
  intros Hw Hd Lp Fp Hp Lr Le. unfold lwe_pk_encrypt, lwe_dim_valid. rewrite (proj2 (Nat.eqb_neq _ _) Hd), (proj2 (Nat.eqb_eq _ _) Lp).
  assert (V : forallb (lwe_valid dim) pk = true). { apply forallb_forall. intros z Hz. apply Nat.eqb_eq. exact (proj1 (Forall_forall _ _) Fp z Hz). }
  rewrite V. destruct (Z.ltb_spec p w); [|lia]. cbn [negb andb]. rewrite t_encode_ok by assumption. cbn [bind].
  pose proof (pk_select_ok w pk rs (lwe_new dim)) as HS. destruct (pk_select w (lwe_new dim) pk rs) as [acc used].
  destruct HS as (-> & La & C); [cbn [lwe_a lwe_new]; rewrite repeat_length; exact Fp|congruence|]. cbn [lwe_a lwe_new] in La. rewrite repeat_length in La.
  assert (Hz : zip_assign (fun _ x => x) (repeat 0 dim) ea = ea).
  { clear - Le. revert ea Le. induction dim as [|n IH]; intros [|x ea] L; try discriminate; [reflexivity|]. cbn [repeat zip_assign]. f_equal. apply IH. cbn in L. congruence. }
  eexists _, _. split; [reflexivity|]. cbn [pr_r pr_e lwe_a lwe_b]. rewrite Hz. repeat split; [rewrite zip_assign_len; exact La|].
  intros sk. specialize (C sk). unfold lwe_phase in *. cbn [lwe_a lwe_b lwe_new] in *. rewrite (dotz_zip w (tadd w) 1 1 (lwe_a acc) ea sk); [|intros x y; rewrite tadd_congr; apply zeq_refl'; ring|congruence].
  rewrite !tadd_congr. rewrite (dotz_zeros (repeat 0 dim) sk (repeat_0 dim)) in C.
  assert (Em : congr w ((msg * 2 ^ (w - p)) mod 2 ^ w) (msg * 2 ^ (w - p))) by apply zeq_mod.
  replace (lwe_b acc + (msg * 2 ^ (w - p)) mod 2 ^ w + eb - (1 * dotz (lwe_a acc) sk + 1 * dotz ea sk)) with ((lwe_b acc - dotz (lwe_a acc) sk) + (msg * 2 ^ (w - p)) mod 2 ^ w + (eb - dotz ea sk)) by ring.
  rewrite C, Em. apply zeq_refl'. ring.
Qed.
Print Assumptions lwe_public_encrypt_exact.

Lemma pk_rows_ok w dim sk E : word w -> dim <> O -> length sk = dim -> forall n rnd, length rnd = n -> Forall (fun r => length (fst r) = dim /\ near w E (snd r) 0) rnd ->
  exists pk, pk_rows w dim n sk rnd = Ok pk /\ length pk = n /\ Forall (fun z => length (lwe_a z) = dim /\ near w E (lwe_phase sk z) 0) pk.
Proof.
  intros Hw Hd Ls. induction n as [|n IH]; intros rnd L F; cbn [pk_rows]; [exists []; repeat split; constructor|].
  destruct rnd as [|[mask e] rnd]; [discriminate|]. apply Forall_cons_iff in F as [[Lm He] F]. cbn [fst snd] in *. unfold lwe_encode_encrypt. rewrite (t_encode_ok w 0 1 Hw) by (destruct Hw; lia). cbn [bind].
  destruct (lwe_encrypt_ok w dim (lwe_new dim) sk ((0 * 2 ^ (w - 1)) mod 2 ^ w) mask e Hd ltac:(cbn; apply repeat_length) Ls Lm) as (c & Ec & A & _ & Ph). rewrite Ec. cbn [bind].
  destruct (IH rnd ltac:(cbn in L; lia) F) as (pk & Epk & Lp & Fp). rewrite Epk. cbn [bind]. exists (c :: pk). split; [reflexivity|]. split; [cbn [length]; congruence|]. constructor; [|exact Fp].
  split; [congruence|]. apply (near_congr w E e 0); [|apply zeq_refl'; reflexivity|exact He]. rewrite Ph. rewrite Z.mul_0_l. rewrite Zmod_0_l. apply zeq_refl'. ring.
Qed.
Lemma selected_bound w E sk : 0 <= E -> forall cs rs, Forall (fun z => near w E (lwe_phase sk z) 0) cs -> binary rs -> near w (Z.of_nat (length cs) * E) (selected sk cs rs) 0.
Proof.
  intros HE. induction cs as [|c cs IH]; intros rs F B; cbn [selected length].
  - apply near_weaken with 0; [lia|apply near_refl].
  - destruct rs as [|r rs]; [apply near_weaken with 0; [nia|apply near_refl]|]. apply Forall_cons_iff in F as [H F]. inversion B as [|? ? Hr B']; subst.
    apply near_weaken with (Z.abs r * E + Z.of_nat (length cs) * E); [destruct Hr as [-> | ->]; lia|]. replace 0 with (r * 0 + 0) by ring. apply near_add; [now apply near_mul|now apply IH].
Qed.
Lemma dot_bound w E : 0 <= E -> forall a sk, Forall (fun x => near w E x 0) a -> binary sk -> near w (Z.of_nat (length a) * E) (dotz a sk) 0.
Proof.
  intros HE. induction a as [|x a IH]; intros sk F B; cbn [dotz length].
  - apply near_weaken with 0; [lia|apply near_refl].
  - destruct sk as [|s sk]; [apply near_weaken with 0; [nia|apply near_refl]|]. apply Forall_cons_iff in F as [H F]. inversion B as [|? ? Hs B']; subst.
    apply near_weaken with (Z.abs s * E + Z.of_nat (length a) * E); [destruct Hs as [-> | ->]; lia|]. replace 0 with (s * 0 + 0) by ring. apply near_add; [|now apply IH].
    rewrite (Z.mul_comm x s). now apply near_mul.
Qed.

(** Generated keys encrypt: for every secret key with bits, every message and every error within the bounds, decryption returns the
    message as long as the total noise stays below half a message step. *)
Theorem lwe_public_encrypt_decrypt pr w dim sk rnd E m p rs ea eb Ea Eb : word w -> dim <> O -> length sk = dim -> binary sk -> 0 <= E -> 0 <= Ea ->
  length rnd = dim -> Forall (fun r => length (fst r) = dim /\ near w E (snd r) 0) rnd ->
  0 < p < w -> p < 32 -> 0 <= m < 2 ^ p -> length rs = dim -> binary rs -> length ea = dim -> Forall (fun x => near w Ea x 0) ea -> near w Eb eb 0 ->
  Z.of_nat dim * E + Z.of_nat dim * Ea + Eb <= 2 ^ (w - p - 1) - 1 ->
  exists pk c r, lwe_pk_generate w dim sk rnd = Ok pk /\ lwe_pk_encrypt w dim pk m p rs ea eb = Ok (c, r) /\ lwe_decrypt pr w dim sk c p = Ok m.
Proof.
  intros Hw Hd Ls Bs HE HEa Lr Fr Hp Hp' Hm Lrs Brs Le Fe He Hb. pose proof (word_pos w Hw) as Hw0.
  destruct (pk_rows_ok w dim sk E Hw Hd Ls dim rnd Lr Fr) as (pk & Epk & Lpk & Fpk). exists pk.
  destruct (lwe_public_encrypt_exact w dim pk m p rs ea eb Hw Hd Lpk) as (c & r & Ec & Er & Ea1 & Eb1 & Lc & Ph); [eapply Forall_impl; [|exact Fpk]; cbv beta; tauto|assumption..|].
  exists c, r. split; [unfold lwe_pk_generate, lwe_dim_valid; rewrite (proj2 (Nat.eqb_neq _ _) Hd), (proj2 (Nat.eqb_eq _ _) Ls); exact Epk|]. split; [exact Ec|].
  unfold lwe_decrypt, lwe_dim_valid, lwe_valid. rewrite (proj2 (Nat.eqb_neq _ _) Hd), (proj2 (Nat.eqb_eq _ _) Lc). destruct (Z.ltb_spec p w); [|lia]. cbn [negb andb].
  rewrite lwe_decrypt_raw_ok by assumption. cbn [bind]. pose proof (pow_pos' w ltac:(lia)) as Hpw. rewrite (t_decode_ok pr w _ p Hw Hp Hp') by (apply Z.mod_pos_bound; exact Hpw).
  assert (Hn : near w (2 ^ (w - p - 1) - 1) (lwe_phase sk c) (m * 2 ^ (w - p))).
  { apply near_weaken with (Z.of_nat dim * E + (Eb + Z.of_nat dim * Ea)); [lia|].
    apply (near_congr w _ (m * 2 ^ (w - p) + selected sk pk rs + (eb - dotz ea sk)) (m * 2 ^ (w - p))); [|apply zeq_refl'; reflexivity|].
    - rewrite (Ph sk), Er. unfold lwe_phase at 1. rewrite Ea1, Eb1. apply zeq_refl'. reflexivity.
    - replace (m * 2 ^ (w - p)) with (m * 2 ^ (w - p) + 0 + (0 - 0)) at 2 by ring. replace (Z.of_nat dim * E + (Eb + Z.of_nat dim * Ea)) with (0 + Z.of_nat dim * E + (Eb + Z.of_nat dim * Ea)) by ring.
      apply near_add; [apply near_add; [apply near_refl|]|apply near_sub; [exact He|]].
      + rewrite <- Lpk at 1. apply selected_bound; [assumption| |assumption]. eapply Forall_impl; [|exact Fpk]. cbv beta. tauto.
      + rewrite <- Le at 1. now apply dot_bound. }
  f_equal. destruct Hn as (z & Hz & Hc). rewrite (decode_near w p m z); [now apply Z.mod_small|assumption|lia|lia|]. exact Hc.
Qed.
Print Assumptions lwe_public_encrypt_decrypt.
(** Keys and ciphertexts of another dimension, and messages that do not fit the word, are refused. *)
Theorem lwe_public_encrypt_refused w dim pk msg p rs ea eb : length pk <> dim \/ Exists (fun z => length (lwe_a z) <> dim) pk \/ w <= p \/ dim = O -> lwe_pk_encrypt w dim pk msg p rs ea eb = Panic.
Proof.
  intros H. unfold lwe_pk_encrypt. destruct (lwe_dim_valid dim && _ && _ && _) eqn:G; [exfalso|reflexivity]. apply andb_true_iff in G as [G G1]. apply andb_true_iff in G as [G G2]. apply andb_true_iff in G as [G3 G4].
  apply Nat.eqb_eq in G4. apply Z.ltb_lt in G1. rewrite forallb_forall in G2. unfold lwe_dim_valid in G3. destruct H as [H|[H|[H|H]]]; [contradiction| |lia|subst; discriminate].
  apply Exists_exists in H as (z & Hz & H). apply H. now apply Nat.eqb_eq, G2.
Qed.
Print Assumptions lwe_public_encrypt_refused.
(** A concrete case: dimension 3, two plaintext bits. *)
Example lwe_public_ex : exists pk c r, lwe_pk_generate 64 3 [1; 0; 1] [([11; 22; 33], 5); ([44; 55; 66], 2 ^ 64 - 7); ([2 ^ 60; 2 ^ 61; 2 ^ 63], 9)] = Ok pk /\
  lwe_pk_encrypt 64 3 pk 3 2 [1; 0; 1] [4; 2 ^ 64 - 4; 2] 6 = Ok (c, r) /\ lwe_decrypt Debug 64 3 [1; 0; 1] c 2 = Ok 3 /\ pr_r r = [1; 0; 1].
Proof. eexists _, _, _. split; [vm_compute; reflexivity|]. split; [vm_compute; reflexivity|]. split; vm_compute; reflexivity. Qed.

(** * C115: one-time-pad recryption on ciphertexts *)

(** The client makes a pad under its public key and sends the public part; the server adds it to a ciphertext of [msg]; whoever
    decrypts the result sees only the exclusive or of message and pad, and the holder of the secret pad recovers the message. *)
Theorem recryption_end_to_end pr P sk Ep E Ex masks e key u e0 e1 msg x rest : params_ok P -> secret_ok P sk -> p_k P = 1%nat -> 0 <= Ep -> 0 <= E ->
  glwe_rnd_ok (p_N P) (p_k P) 64 Ep (masks, e) -> length key = p_N P -> pub_rnd_ok (p_N P) E (u, e0, e1) -> fits ((p_k P + 1) * p_N P) -> bytes rest ->
  encrypts P sk Ex (CGlwe1 msg) (KGlwe1 x) -> Ex + (Ep * Z.of_nat (p_N P) + E * (Z.of_nat (p_N P) + 1)) < 2 ^ 62 ->
  exists pk pub sec seen, pk_generate P sk masks e = Ok pk /\ generate_pad P pk key u e0 e1 = Ok (pub, sec) /\ de_public_pad P (ser_glwe pub ++ rest) = Ok pub /\
    dec_glwe1 pr P sk (recrypt_pad x pub) = Ok seen /\ seen = map Z.b2z (map (fun p => xorb (fst p) (snd p)) (combine msg key)) /\ decrypt_pad pr seen sec = Ok (map Z.b2z msg).
Proof.
  intros HP Hs Hk HEp HE Hr Lk Hu Hf Br Hx Hb. destruct (public_encryption_correct pr P sk Ep E masks e HP Hs Hk HEp HE Hr) as (pk & Epk & Henc & _).
  destruct (Henc key u e0 e1 Lk Hu) as (pub & Epub & Hpub). exists pk, pub, (map Z.b2z key), (map Z.b2z (pxor msg key)).
  assert (Hsum : encrypts P sk (Ex + (Ep * Z.of_nat (p_N P) + E * (Z.of_nat (p_N P) + 1))) (CGlwe1 (pxor msg key)) (KGlwe1 (recrypt_pad x pub))).
  { unfold recrypt_pad, ev_xor. apply (plus_ok P sk); [apply Hx|exact Lk|exact Hx|exact Hpub]. }
  split; [exact Epk|]. split; [unfold generate_pad; rewrite Epub; reflexivity|]. split; [|split; [|split]].
  - apply (deserialize_roundtrip _ _ _ _ _ _ (public_pad_codec P Hf)); [apply Hpub|exact Br].
  - exact (decryption_correct pr P sk _ _ _ HP Hs Hsum Hb).
  - f_equal. clear. revert key. induction msg as [|a msg IH]; intros [|b key]; cbn [pxor combine map fst snd]; [reflexivity..|]. now rewrite IH.
  - assert (Lm : length msg = p_N P) by apply Hx. rewrite pad_decryption.
    + rewrite !map_length. assert (Lx : length (pxor msg key) = p_N P) by (rewrite <- Lm; rewrite <- Lk in Lm; clear - Lm; revert key Lm; induction msg as [|a msg IH]; intros [|b key] L; try discriminate; [reflexivity|]; cbn [pxor length]; f_equal; apply IH; cbn in L; congruence).
      rewrite Lx, Lk, Nat.eqb_refl. f_equal. rewrite <- Lk in Lm. clear - Lm. revert key Lm. induction msg as [|a msg IH]; intros [|b key] L; try discriminate; [reflexivity|]. cbn [pxor map combine fst snd].
      rewrite IH by (cbn in L; congruence). f_equal. now destruct a, b.
    + apply Forall_forall. intros z Hz. apply in_map_iff in Hz as (b & <- & _). destruct b; split; cbn; lia.
    + apply Forall_forall. intros z Hz. apply in_map_iff in Hz as (b & <- & _). destruct b; split; cbn; lia.
    + right. split; apply Forall_forall; intros z Hz; apply in_map_iff in Hz as (b & <- & _); destruct b; auto.
Qed.
Print Assumptions recryption_end_to_end.

(** A concrete run: N = 4, one mask polynomial. *)
Definition rp_P := {| p_n := 1; p_N := 4; p_k := 1; p_cbs := {| r_log := 7; r_count := 1 |}; p_pbs := {| r_log := 15; r_count := 2 |};
  p_ks := {| r_log := 15; r_count := 2 |}; p_ss := {| r_log := 15; r_count := 2 |}; p_tr := {| r_log := 15; r_count := 2 |} |}.
Definition rp_sk := {| s_lwe0 := [1]; s_glwe1 := [[1; 0; 1; 1]] |}.
Example recryption_ex : exists pk pub sec x seen, pk_generate rp_P rp_sk [[11; 22; 33; 44]] (Some [1; 2 ^ 64 - 1; 0; 2]) = Ok pk /\
  generate_pad rp_P pk [true; false; true; true] [1; 1; 0; 1] [1; 0; 2; 1] [0; 3; 1; 1] = Ok (pub, sec) /\
  enc_glwe1 rp_P rp_sk [true; true; false; true] [[5; 6; 7; 8]] (Some [1; 1; 1; 1]) = Ok x /\
  dec_glwe1 Debug rp_P rp_sk (recrypt_pad x pub) = Ok seen /\ seen = [0; 1; 1; 0] /\ decrypt_pad Debug seen sec = Ok [1; 1; 0; 1].
Proof. eexists _, _, _, _, _. repeat (split; [vm_compute; reflexivity|]). vm_compute. reflexivity. Qed.
