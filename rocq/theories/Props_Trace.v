(** Theorems about the substitution X -> X^k, the homomorphic trace and the power-of-two modulus switch. *)
From Verif Require Import Base Alu AluProofs MuxGraph MuxGraphProofs PolyRing Tfhe TfheGlwe TfheBoot TfheTrace SpecTfhe SpecGlwe SpecBoot SpecTrace FluentIntProofs TfheProofs TfheProofs2 TfheProofs3 TfheGlweProofs TfheGlweProofs2 TfheGlweProofs3 TfheGlweProofs4 TfheBootProofs TfheBootProofs2 TfheBootProofs3 TfheBootProofs4 TfheTraceProofs TfheTraceProofs2 Props_Boot.
Ltac Zify.zify_post_hook ::= idtac.
Open Scope Z_scope.

(** * C94: P(X) -> P(X^k) *)

(** For odd k, [polynomial_pow_k] computes P(X^k) in the negacyclic ring, whatever the output buffer holds. *)
Theorem pow_k_substitutes N w out p k : word w -> is_pow2 N = true -> Nat.odd k = true -> length p = N -> length out = N ->
  exists r, poly_pow_k w (mul_torus w) out p k = Ok r /\ poly_wf w N r /\ peq N (2 ^ w) (coef r) (psubst N k (coef p)).
Proof. intros. apply poly_pow_k_ok; try assumption. intros. now apply mul_torus_ok. Qed.
Print Assumptions pow_k_substitutes.

(** The substitution is a ring homomorphism, so it commutes with the phase. *)
Theorem substitution_is_ring_hom N q k f g : (0 < N)%nat -> Nat.odd k = true ->
  peq N q (psubst N k (pmul N f g)) (pmul N (psubst N k f) (psubst N k g)) /\
  peq N q (psubst N k (padd f g)) (padd (psubst N k f) (psubst N k g)) /\
  peq N q (psubst N k p1) p1.
Proof.
  intros HN Hk. split; [now apply psubst_mul|]. split; [intros j Hj; apply zeq_refl'; apply psubst_add|].
  intros j Hj. apply zeq_refl'. unfold psubst. destruct N as [|N]; [lia|].
  assert (G : forall n j, (1 <= n)%nat -> psum n (fun i => pscale (p1 i) (pmono (S N) (Z.of_nat (i * k)) p1)) j = pmono (S N) 0 p1 j).
  { clear j Hj. induction n as [|n IH]; intros j Hn; [lia|]. destruct n as [|n].
    - unfold psum. cbn [zsum]. unfold pscale. change (0 * k)%nat with 0%nat. change (p1 0%nat) with 1. change (Z.of_nat 0) with 0. ring.
    - unfold psum in *. change (zsum (S (S n)) ?F) with (zsum (S n) F + F (S n)). rewrite IH by lia. unfold pscale. change (p1 (S n)) with 0. ring. }
  rewrite G by lia. change 0 with (Z.of_nat 0). rewrite pmono_p1 by assumption. rewrite Nat.mod_0_l, Nat.div_0_l by lia. unfold p1. now destruct (Nat.eqb_spec j 0).
Qed.
Print Assumptions substitution_is_ring_hom.

(** For even k the odd-indexed output coefficients are never written: they keep whatever the buffer held, so
    the result is not a function of the input. *)
Theorem pow_k_even_keeps_stale_refuted N w out p k : is_pow2 N = true -> (2 <= N)%nat -> Nat.even k = true -> length p = N -> length out = N ->
  exists r, poly_pow_k w (mul_torus w) out p k = Ok r /\ length r = N /\
    forall j, (j < N)%nat -> Nat.odd j = true -> nth j r 0 = nth j out 0.
Proof.
  intros HP HN Hk Lp Lo. unfold poly_pow_k. rewrite Lp, Lo, Nat.eqb_refl, HP. cbn [andb].
  destruct (foldM_upd_ok (fun acc i => x <- mul_torus w (nth i p 0) (if Nat.even (i * k / N) then 1 else 2 ^ w - 1);; Ok (upd acc (i * k mod N) (fun _ => x)))
    (fun i => (i * k mod N)%nat) (fun i => tmul w (nth i p 0) (if Nat.even (i * k / N) then 1 else 2 ^ w - 1)) N) with (n := N) (out := out) as (r & E & L & P1 & P2).
  { intros acc i Hi. reflexivity. } { intros i Hi. apply Nat.mod_upper_bound. lia. } { lia. } { assumption. }
  exists r. split; [exact E|]. split; [assumption|]. intros j Hj Ho. apply P1. intros i Hi C.
  destruct (pow2_log2 N HP) as (EN & _). apply Nat.even_spec in Hk as (k2 & ->).
  assert (HL : (1 <= Nat.log2 N)%nat) by (apply Nat.log2_le_pow2; cbn; lia).
  assert (EN2 : (N = 2 * 2 ^ (Nat.log2 N - 1))%nat). { rewrite EN at 1. rewrite <- Nat.pow_succ_r'. f_equal. lia. }
  set (H := (2 ^ (Nat.log2 N - 1))%nat) in *. pose proof (Nat.div_mod (i * (2 * k2)) N ltac:(lia)) as D. rewrite C in D.
  apply Nat.odd_spec in Ho as (m & ->). rewrite EN2 in D at 1. nia.
Qed.
Print Assumptions pow_k_even_keeps_stale_refuted.
Example pow_k_ex : poly_pow_k 32 (mul_torus 32) [7; 7; 7; 7] [1; 2; 3; 4] 3 = Ok [1; 4; 2 ^ 32 - 3; 2]
  /\ poly_pow_k 32 (mul_torus 32) [7; 7; 7; 7] [1; 2; 3; 4] 2 = Ok [2 ^ 32 - 3; 7; 2 ^ 32 - 4; 7].
Proof. vm_compute. auto. Qed.

(** * C87: the homomorphic trace *)

(** Key generation: from fresh buffers, a binary key and any scratch contents, the result is an automorphism
    key. *)
Theorem automorphism_key_correct pr w log count N k ak sk sc rnd E : word w -> glwe_dim_valid N k = true -> 1 <= log -> (1 <= count)%nat -> log * Z.of_nat count <= w ->
  polys_shape N k sk -> binary_polys sk -> 0 <= E -> polys_shape N k sc -> length ak = Nat.log2 N ->
  Forall (fun ksk => length ksk = k /\ Forall (fun r => length r = count /\ Forall (glwe_fresh N k) r) ksk) ak ->
  (forall j, length (rnd j) = k /\ Forall (fun r => length r = count /\ Forall (glwe_rnd_ok N k w E) r) (rnd j)) ->
  exists ak', generate_ak pr w log count N k ak sk sc rnd = Ok ak' /\ ak_enc N k count w log E sk ak'.
Proof.
  intros Hw Hdim Hl Hc Hs Hsk Hb HE Hsc La Fa Hr. destruct (dim_valid N k Hdim) as (HP & HN0 & Hk).
  unfold generate_ak. rewrite Hdim, (proj2 (radix_valid_iff _ _ _)) by auto. rewrite (proj2 (polys_valid_iff N k sk) Hsk).
  assert (Hv : ak_valid N k count ak = true).
  { unfold ak_valid. rewrite La, Nat.eqb_refl. cbn [andb]. apply forallb_forall. intros ksk Hin. destruct (proj1 (Forall_forall _ _) Fa ksk Hin) as (Lk & Fk).
    unfold gksk_valid. rewrite Lk, Nat.eqb_refl. cbn [andb]. apply forallb_forall. intros r Hr'. destruct (proj1 (Forall_forall _ _) Fk r Hr') as (Lr & Fr).
    apply glev_valid_iff. split; [assumption|]. eapply Forall_impl; [|exact Fr]. intros a Ha. apply Ha. }
  rewrite Hv. cbn [andb].
  destruct (ak_loop_ok N w pr log count k sk E Hw HP Hl Hc Hs Hsk Hb HE ak 1 sc rnd ltac:(lia) ltac:(lia) Hsc Fa Hr) as (ak' & E1 & L1 & P1).
  exists ak'. split; [assumption|]. split; [congruence|]. intros i ksk Hi. destruct (P1 i ksk Hi) as (A & B & C). split; [assumption|]. split; [assumption|].
  intros j s row H1 H2. specialize (C j s row H1 H2). unfold trace_exp in C. now replace (1 + i - 1)%nat with i in C by lia.
Qed.
Print Assumptions automorphism_key_correct.

(** The trace multiplies the constant coefficient of the phase by N and removes every other coefficient, with
    noise N - 1 times that of one key switch, whatever the output and the scratch ciphertexts hold. *)
Theorem trace_correct h pr w log count N k out x ks gk ak ds D sk E : word w -> glwe_dim_valid N k = true -> sub_exact h pr w ->
  1 <= log -> (1 <= count)%nat -> log * Z.of_nat count < w -> 0 <= D -> 0 <= E -> polys_shape N k sk -> binary_polys sk ->
  glwe_shape N k out -> glwe_wf w N k x -> glwe_shape N k ks -> glwe_shape N k gk -> (forall j, fft_err N k D (ds j)) ->
  ak_enc N k count w log E sk ak ->
  exists r, trace h pr w log count N k out x ks gk ak ds = Ok r /\ glwe_wf w N k r /\
    pnear N w ((Z.of_nat N - 1) * fft_ks_noise N k count w log E D) (glwe_phase N sk r) (pconst (Z.of_nat N * glwe_phase N sk x 0%nat)).
Proof.
  intros Hw Hdim Hx Hl Hc Hs HD HE Hsk Hb Ho Hxw Hks Hgk Hds (La & Hak). destruct (dim_valid N k Hdim) as (HP & HN0 & Hk). destruct (pow2_log2 N HP) as (EN & _).
  unfold trace. rewrite Hdim, (proj2 (radix_valid_iff _ _ _)) by (repeat split; lia || assumption). rewrite (proj2 (glwe_valid_iff N k out) Ho), (proj2 (glwe_valid_iff N k x) (proj1 Hxw)).
  assert (Hv : ak_valid N k count ak = true).
  { unfold ak_valid. rewrite La, Nat.eqb_refl. cbn [andb]. apply forallb_forall. intros ksk Hin. apply In_nth_error in Hin as (i & Hi). destruct (Hak i ksk Hi) as (Lk & Fk & _).
    unfold gksk_valid. rewrite Lk, Nat.eqb_refl. cbn [andb]. apply forallb_forall. intros r Hr'. destruct (proj1 (Forall_forall _ _) Fk r Hr') as (Lr & Fr).
    apply glev_valid_iff. split; assumption. }
  rewrite Hv. cbn [andb].
  destruct (trace_loop_ok N w h pr log count k D sk E Hw Hdim Hx Hl Hc Hs HD HE Hsk Hb ak 0 x ks gk ds ltac:(lia) Hxw Hks Hgk Hds) as (r & E1 & W1 & P1).
  { intros j ksk Hj. apply Hak. assumption. }
  exists r. split; [assumption|]. split; [assumption|]. specialize (P1 (glwe_phase N sk x)).
  assert (ENZ : 2 ^ Z.of_nat (Nat.log2 N) = Z.of_nat N) by (rewrite EN at 2; now rewrite pow2_Z).
  rewrite ENZ in P1. eapply pnear_peq; [reflexivity| |apply P1].
  - apply peq_exact. intros j Hj. unfold tr, pconst. rewrite <- EN, Nat.mod_small by assumption. destruct (Nat.eqb_spec j 0) as [->|]; [|reflexivity]. now rewrite ENZ.
  - change (2 ^ Z.of_nat 0 - 1) with 0. rewrite Z.mul_0_l. apply pnear_refl. apply peq_exact. intros j Hj. symmetry. apply tr_0.
Qed.
Print Assumptions trace_correct.

(** End to end: generate the key from fresh buffers, encrypt, take the trace, decrypt. *)
Theorem trace_end_to_end h pr w log count N k out ks gk ak ds D sk sc rnd E pt p masks e : word w -> glwe_dim_valid N k = true -> sub_exact h pr w ->
  1 <= log -> (1 <= count)%nat -> log * Z.of_nat count < w -> 0 <= D -> 0 <= E -> polys_shape N k sk -> binary_polys sk -> polys_shape N k sc ->
  length ak = Nat.log2 N -> Forall (fun ksk => length ksk = k /\ Forall (fun r => length r = count /\ Forall (glwe_fresh N k) r) ksk) ak ->
  (forall j, length (rnd j) = k /\ Forall (fun r => length r = count /\ Forall (glwe_rnd_ok N k w E) r) (rnd j)) ->
  glwe_shape N k out -> glwe_shape N k ks -> glwe_shape N k gk -> (forall j, fft_err N k D (ds j)) ->
  0 < p < w -> p < 32 -> length pt = N -> glwe_rnd_ok N k w E (masks, e) ->
  (Z.of_nat N - 1) * fft_ks_noise N k count w log E D + Z.of_nat N * E < 2 ^ (w - p - 1) ->
  exists ak' c r, generate_ak pr w log count N k ak sk sc rnd = Ok ak' /\ glwe_encode_encrypt w N k sk pt p masks e = Ok c /\
    trace h pr w log count N k out c ks gk ak' ds = Ok r /\
    glwe_decrypt_decode pr w N k sk r p = Ok ((Z.of_nat N * nth 0 pt 0) mod 2 ^ p :: repeat 0 (N - 1)).
Proof.
  intros Hw Hdim Hx Hl Hc Hs HD HE Hsk Hb Hsc La Fa Hr Ho Hks Hgk Hds Hp Hp' Lp Hrm Hnoise. destruct (dim_valid N k Hdim) as (HP & HN0 & Hk).
  destruct (automorphism_key_correct pr w log count N k ak sk sc rnd E Hw Hdim Hl Hc ltac:(lia) Hsk Hb HE Hsc La Fa Hr) as (ak' & E1 & A1).
  unfold glwe_encode_encrypt. rewrite Hdim, encodes_ok by assumption. cbn [bind].
  destruct (glwe_encrypt_fresh N w k (glwe_new N k) (map (fun x => (x * 2 ^ (w - p)) mod 2 ^ w) pt) sk (masks, e) E Hw HP (glwe_new_fresh N k)) as (c & E2 & W2 & P2); try assumption; try lia.
  { now rewrite map_length. }
  cbn [fst snd] in E2.
  destruct (trace_correct h pr w log count N k out c ks gk ak' ds D sk E Hw Hdim Hx Hl Hc Hs HD HE Hsk Hb Ho W2 Hks Hgk Hds A1) as (r & E3 & W3 & P3).
  exists ak', c, r. split; [assumption|]. split; [assumption|]. split; [assumption|].
  rewrite (glwe_decode_ok N w pr k sk r p (Z.of_nat N * nth 0 pt 0 :: repeat 0 (N - 1)) ((Z.of_nat N - 1) * fft_ks_noise N k count w log E D + Z.of_nat N * E)); try assumption; try lia.
  - cbn [map]. do 2 f_equal. generalize (N - 1)%nat. induction n as [|n IH]; cbn [repeat map]; [reflexivity|]. rewrite IH, Z.mod_0_l by (apply Z.pow_nonzero; lia). reflexivity.
  - cbn [length]. rewrite repeat_length. lia.
  - eapply pnear_trans; [exact P3|]. destruct P2 as (ee & B & Q). exists (fun j => if (j =? 0)%nat then Z.of_nat N * ee 0%nat else 0). split.
    + intros j Hj. destruct (j =? 0)%nat; [|lia]. specialize (B 0%nat ltac:(lia)). rewrite Z.abs_mul, (Z.abs_eq (Z.of_nat N)) by lia. nia.
    + intros j Hj. unfold pconst, padd, penc, pscale. destruct j as [|j]; cbn [Nat.eqb].
      * specialize (Q 0%nat ltac:(lia)). unfold coef at 1. cbn [nth].
        etransitivity; [apply zeq_mul; [reflexivity|exact Q]|]. unfold padd at 1. 
        etransitivity; [apply zeq_mul; [reflexivity|apply zeq_add; [apply (penc_coef N w p pt 0%nat ltac:(lia))|reflexivity]]|].
        apply zeq_refl'. unfold penc, pscale, coef. ring.
      * apply zeq_refl'. unfold coef. cbn [nth]. rewrite nth_repeat. ring.
Qed.
Print Assumptions trace_end_to_end.

(** * C95: the power-of-two modulus switch *)

(** Each coefficient is divided by 2^n and rounded to nearest, so 2^n times the new phase is the old phase up
    to the stated rounding error. *)
Theorem pow2_switch_rounds pr w x n : word w -> torus w x -> 1 <= n < w ->
  exists y, shr_round pr w x n = Ok y /\ torus w y /\ Z.abs (2 ^ n * y - x) <= 2 ^ (n - 1).
Proof. apply shr_round_ok. Qed.
Print Assumptions pow2_switch_rounds.
Theorem pow2_switch_phase pr w N k c n : word w -> glwe_wf w N k c -> 1 <= n < w ->
  exists r, glwe_shr_round pr w c n = Ok r /\ glwe_wf w N k r /\
    forall sk, polys_shape N k sk -> binary_polys sk ->
      pnear N w (2 ^ (n - 1) * (1 + Z.of_nat k * Z.of_nat N)) (pscale (2 ^ n) (glwe_phase N sk r)) (glwe_phase N sk c).
Proof. apply glwe_shr_ok. Qed.
Print Assumptions pow2_switch_phase.
(** A shift by 0 (degree 1) aborts a debug build. *)
Theorem pow2_switch_zero_refuted w x : shr_round Debug w x 0 = Panic.
Proof. reflexivity. Qed.
Print Assumptions pow2_switch_zero_refuted.
Example pow2_switch_ex : shr_round Debug 32 0x17F 8 = Ok 1 /\ shr_round Debug 32 0x180 8 = Ok 2 /\ shr_round Debug 32 0xFFFFFFFF 8 = Ok 0x1000000.
Proof. vm_compute. auto. Qed.

(** ** A concrete case: degree 8, 3-bit messages *)
Definition ex_trace : res (list Z) :=
  ak <- generate_ak Release 64 15 4 8 1 (repeat [repeat (glwe_new 8 1) 4] 3) ex_sk [repeat 99 8]
    (fun i => [map (fun c => ([map (fun j => (Z.of_nat (i + 7 * c + j + 1) * 0x9E3779B97F4A7C15) mod 2 ^ 64) (seq 0 8)],
       Some (map (fun j => (Z.of_nat ((i + c + j) mod 9) - 4) mod 2 ^ 64) (seq 0 8)))) (seq 0 4)]) ;;
  c <- glwe_encode_encrypt 64 8 1 ex_sk [3; 1; 2; 3; 4; 5; 6; 7] 6 [map (fun j => Z.of_nat j * 0x123456789ABCDEF) (seq 1 8)] (Some (repeat 3 8)) ;;
  r <- trace ex_hw Release 64 15 4 8 1 (glwe_new 8 1) c {| ga := [repeat 5 8]; gb := repeat 6 8 |} {| ga := [repeat 7 8]; gb := repeat 8 8 |} ak ex_err ;;
  glwe_decrypt_decode Release 64 8 1 ex_sk r 6.
Example trace_run : ex_trace = Ok (24 :: repeat 0 7).
Proof. vm_compute. reflexivity. Qed.
Example trace_noise_ok : (8 - 1) * fft_ks_noise 8 1 4 64 15 4 1 + 8 * 4 < 2 ^ (64 - 6 - 1).
Proof. vm_compute. reflexivity. Qed.
