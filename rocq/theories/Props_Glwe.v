(** Theorems about GLWE, GLEV and GGSW ciphertexts (C51 GLWE part, C53, C54, C79, C84, C86, C90, C91). *)
From Verif Require Import Base Alu AluProofs PolyRing Tfhe TfheGlwe SpecTfhe SpecGlwe FluentIntProofs TfheProofs TfheProofs2 TfheProofs3 TfheGlweProofs TfheGlweProofs2 TfheGlweProofs3 TfheGlweProofs4.
Ltac Zify.zify_post_hook ::= idtac.
Open Scope Z_scope.

(** ** C90: polynomial addition and subtraction on different machines *)

(** On every machine and build in [add_exact]/[sub_exact] they are the ring operations. *)
Theorem poly_add_exact N h pr w c a b : word w -> add_exact h pr w -> length c = N -> poly_wf w N a -> poly_wf w N b ->
  exists r, poly_add h pr w c a b = Ok r /\ poly_wf w N r /\ peq N (2 ^ w) (coef r) (padd (coef a) (coef b)).
Proof. apply poly_add_ok. Qed.
Print Assumptions poly_add_exact.
Theorem poly_sub_exact N h pr w c a b : word w -> sub_exact h pr w -> length c = N -> poly_wf w N a -> poly_wf w N b ->
  exists r, poly_sub h pr w c a b = Ok r /\ poly_wf w N r /\ peq N (2 ^ w) (coef r) (psub (coef a) (coef b)).
Proof. apply poly_sub_ok. Qed.
Print Assumptions poly_sub_exact.

Lemma mapM_panic {A B} (f : A -> res B) l x : In x l -> (forall y, In y l -> f y = Panic \/ exists z, f y = Ok z) -> f x = Panic -> mapM f l = Panic.
Proof.
  induction l as [|y l IH]; intros Hin Ha Hx; [destruct Hin|]. cbn [mapM]. destruct (Ha y (or_introl eq_refl)) as [E|[z E]]; rewrite E; [reflexivity|].
  cbn [bind]. destruct Hin as [->|Hin]; [congruence|]. rewrite IH; try assumption; [reflexivity|]. intros u Hu. apply Ha. now right.
Qed.
Lemma in_combine_nth (a b : list Z) k : length a = length b -> (k < length a)%nat -> In (nth k a 0, nth k b 0) (combine a b).
Proof. intros H Hk. rewrite <- (nth_combine0 a b k H). apply nth_In. rewrite combine_length. lia. Qed.

(** Debug builds on a CPU with AVX2 abort on 64-bit words as soon as one coefficient wraps around ... *)
Theorem poly_sub_debug_avx2_refuted h c a b k : hw_x86 h = true -> hw_avx2 h = true -> length c = length a -> length c = length b ->
  (k < length c)%nat -> nth k a 0 < nth k b 0 -> poly_sub h Debug 64 c a b = Panic.
Proof.
  intros Hx Ha La Lb Hk Hlt. unfold poly_sub. rewrite (proj2 (Nat.eqb_eq _ _) La), (proj2 (Nat.eqb_eq _ _) Lb). cbn [andb].
  apply (mapM_panic _ _ (nth k a 0, nth k b 0)); [apply in_combine_nth; congruence| |]; unfold vec_sub; rewrite Hx, Ha; change (64 =? 64) with true; cbn [andb fst snd]; unfold usub.
  - intros [x y] _. cbn [fst snd]. destruct (y <=? x); [right; eauto|left; reflexivity].
  - destruct (Z.leb_spec (nth k b 0) (nth k a 0)); [lia|reflexivity].
Qed.
Print Assumptions poly_sub_debug_avx2_refuted.
Theorem poly_add_debug_avx2_refuted h c a b k : hw_x86 h = true -> hw_avx2 h = true -> hw_fma h = true -> length c = length a -> length c = length b ->
  (k < length c)%nat -> 2 ^ 64 <= nth k a 0 + nth k b 0 -> poly_add h Debug 64 c a b = Panic.
Proof.
  intros Hx Ha Hf La Lb Hk Hlt. unfold poly_add. rewrite (proj2 (Nat.eqb_eq _ _) La), (proj2 (Nat.eqb_eq _ _) Lb). cbn [andb].
  apply (mapM_panic _ _ (nth k a 0, nth k b 0)); [apply in_combine_nth; congruence| |]; unfold vec_add; rewrite Hx, Ha, Hf; change (64 =? 64) with true; cbn [andb fst snd]; unfold uadd.
  - intros [x y] _. cbn [fst snd]. destruct (x + y <? 2 ^ 64); [right; eauto|left; reflexivity].
  - destruct (Z.ltb_spec (nth k a 0 + nth k b 0) (2 ^ 64)); [lia|reflexivity].
Qed.
Print Assumptions poly_add_debug_avx2_refuted.
(** ... and on an x86 CPU without AVX2 subtracting 64-bit polynomials adds them. *)
Theorem poly_sub_no_avx2_refuted h pr N c a b : hw_x86 h = true -> hw_avx2 h = false -> length c = N -> length a = N -> length b = N ->
  exists r, poly_sub h pr 64 c a b = Ok r /\ peq N (2 ^ 64) (coef r) (padd (coef a) (coef b)).
Proof.
  intros Hx Ha Lc La Lb. unfold poly_sub. rewrite Lc, La, Lb, Nat.eqb_refl. cbn [andb].
  rewrite (mapM_ok _ (fun xy => tadd 64 (fst xy) (snd xy))). 2:{ intros [x y] _. unfold vec_sub. rewrite Hx, Ha. reflexivity. }
  eexists. split; [reflexivity|]. intros k Hk. unfold coef at 1. rewrite nth_map_combine by lia. apply tadd_congr.
Qed.
Print Assumptions poly_sub_no_avx2_refuted.
Example poly_sub_machines :
  let old := {| hw_x86 := true; hw_avx2 := false; hw_fma := false; hw_512f := false; hw_512dq := false |} in
  let new := {| hw_x86 := true; hw_avx2 := true; hw_fma := true; hw_512f := false; hw_512dq := false |} in
  let arm := {| hw_x86 := false; hw_avx2 := false; hw_fma := false; hw_512f := false; hw_512dq := false |} in
  poly_sub arm Debug 64 [0; 0] [5; 1] [3; 2] = Ok [2; 2 ^ 64 - 1] /\ poly_sub new Release 64 [0; 0] [5; 1] [3; 2] = Ok [2; 2 ^ 64 - 1] /\
  poly_sub new Debug 64 [0; 0] [5; 1] [3; 2] = Panic /\ poly_sub old Release 64 [0; 0] [5; 1] [3; 2] = Ok [8; 3].
Proof. repeat split. Qed.

(** ** C51: GLWE operations act on the phase as their names say *)

Theorem glwe_add_phase N k w h pr c a b : word w -> add_exact h pr w -> glwe_shape N k c -> glwe_wf w N k a -> glwe_wf w N k b ->
  exists r, glwe_add h pr w c a b = Ok r /\ glwe_wf w N k r /\
    forall sk, peq N (2 ^ w) (glwe_phase N sk r) (padd (glwe_phase N sk a) (glwe_phase N sk b)).
Proof. apply glwe_add_ok. Qed.
Print Assumptions glwe_add_phase.
Theorem glwe_sub_phase N k w h pr c a b : word w -> sub_exact h pr w -> glwe_shape N k c -> glwe_wf w N k a -> glwe_wf w N k b ->
  exists r, glwe_sub h pr w c a b = Ok r /\ glwe_wf w N k r /\
    forall sk, peq N (2 ^ w) (glwe_phase N sk r) (psub (glwe_phase N sk a) (glwe_phase N sk b)).
Proof. apply glwe_sub_ok. Qed.
Print Assumptions glwe_sub_phase.
Theorem glwe_add_assign_phase N k w c a : word w -> glwe_dim_valid N k = true -> glwe_shape N k c -> glwe_shape N k a ->
  exists r, glwe_add_assign w N k c a = Ok r /\ glwe_shape N k r /\ (glwe_wf w N k c -> glwe_wf w N k r) /\
    forall sk, peq N (2 ^ w) (glwe_phase N sk r) (padd (glwe_phase N sk c) (glwe_phase N sk a)).
Proof. apply glwe_add_assign_ok. Qed.
Print Assumptions glwe_add_assign_phase.
Theorem glwe_negate_phase N k w c : word w -> glwe_shape N k c -> glwe_wf w N k (glwe_negate w c) /\
  forall sk, peq N (2 ^ w) (glwe_phase N sk (glwe_negate w c)) (popp (glwe_phase N sk c)).
Proof. apply glwe_negate_ok. Qed.
Print Assumptions glwe_negate_phase.
(** c += a * b for a plaintext polynomial b, and for a scalar. *)
Theorem glwe_poly_mad_phase N k w c a b : is_pow2 N = true -> glwe_shape N k c -> glwe_shape N k a -> length b = N ->
  exists c', glwe_poly_mad w k c a b = Ok c' /\ glwe_shape N k c' /\ (0 <= w -> glwe_wf w N k c -> glwe_wf w N k c') /\
    forall sk, peq N (2 ^ w) (glwe_phase N sk c') (padd (glwe_phase N sk c) (pmul N (coef b) (glwe_phase N sk a))).
Proof. apply glwe_poly_mad_ok. Qed.
Print Assumptions glwe_poly_mad_phase.
Theorem glwe_scalar_mad_phase h pr N k w c a s : word w -> smad_exact h pr w N -> glwe_shape N k c -> glwe_shape N k a ->
  exists c', glwe_scalar_mad h pr w c a s = Ok c' /\ glwe_shape N k c' /\ (glwe_wf w N k c -> glwe_wf w N k c') /\
    forall sk, peq N (2 ^ w) (glwe_phase N sk c') (padd (glwe_phase N sk c) (pscale s (glwe_phase N sk a))).
Proof. apply glwe_scalar_mad_ok. Qed.
Print Assumptions glwe_scalar_mad_phase.
(** [glwe_rotate] adds a constant to every coefficient of the message. *)
Theorem glwe_rotate_phase N k w y x r : word w -> glwe_shape N k y -> glwe_wf w N k x ->
  glwe_wf w N k (glwe_rotate w y x r) /\ forall sk, peq N (2 ^ w) (glwe_phase N sk (glwe_rotate w y x r)) (padd (glwe_phase N sk x) (fun _ => r)).
Proof. apply glwe_rotate_ok. Qed.
Print Assumptions glwe_rotate_phase.
(** A trivial encryption has the message as its phase under every key. *)
Theorem glwe_trivial_phase N k w c msg : glwe_shape N k c -> length msg = N ->
  glwe_shape N k (glwe_trivial c msg) /\ forall sk, peq N (2 ^ w) (glwe_phase N sk (glwe_trivial c msg)) (coef msg).
Proof. intros H1 H2. destruct (glwe_trivial_ok N w k c msg H1 H2) as (A & _ & _ & B). auto. Qed.
Print Assumptions glwe_trivial_phase.

(** ** C53: sample extraction *)

Theorem sample_extract_phase N k w out c h : word w -> (h < N)%nat -> glwe_wf w N k c -> length (lwe_a out) = (k * N)%nat ->
  exists r, sample_extract w N k out c h = Ok r /\ lwe_wf w (k * N) r /\
    forall sk, polys_shape N k sk -> congr w (lwe_phase (to_lwe_sk sk) r) (glwe_phase N sk c h).
Proof. apply sample_extract_ok. Qed.
Print Assumptions sample_extract_phase.
(** So decrypting and decoding the sample gives coefficient h of the message whenever the noise is below
    half an encoding step. *)
Theorem sample_extract_decrypts pr N k w out c h sk p pt B : word w -> glwe_dim_valid N k = true -> (h < N)%nat -> glwe_wf w N k c -> length (lwe_a out) = (k * N)%nat ->
  polys_shape N k sk -> 0 < p < w -> p < 32 -> length pt = N -> B < 2 ^ (w - p - 1) ->
  pnear N w B (glwe_phase N sk c) (pscale (2 ^ (w - p)) (coef pt)) ->
  exists r, sample_extract w N k out c h = Ok r /\ lwe_decrypt pr w (k * N) (to_lwe_sk sk) r p = Ok (nth h pt 0 mod 2 ^ p).
Proof.
  intros Hw Hd Hh Hc Ho Hs Hp Hp' Lp HB Hn. destruct (dim_valid N k Hd) as (_ & HN & Hk). pose proof (word_pos w Hw).
  destruct (sample_extract_ok N w k out c h Hw Hh Hc Ho) as (r & E & W & P). exists r. split; [assumption|]. specialize (P sk Hs).
  assert (D : (k * N)%nat <> 0%nat) by nia. destruct W as (L & _). unfold lwe_decrypt, lwe_dim_valid, lwe_valid. rewrite (proj2 (Nat.eqb_eq _ _) L), (proj2 (Nat.eqb_neq _ _) D).
  destruct (Z.ltb_spec p w); [|lia]. cbn [negb andb]. rewrite lwe_decrypt_raw_ok by assumption. cbn [bind].
  rewrite t_decode_ok; [|assumption|lia|lia|apply (uwrap_torus w); lia]. f_equal.
  destruct Hn as (e & He & Hc'). apply (decode_near w p (nth h pt 0) (e h)); try assumption; [specialize (He h Hh); lia|].
  change (congr w (lwe_phase (to_lwe_sk sk) r) (nth h pt 0 * 2 ^ (w - p) + e h)).
  rewrite P, (Hc' h Hh). unfold padd, pscale, coef. apply zeq_refl'. ring.
Qed.
Print Assumptions sample_extract_decrypts.
Example sample_extract_ex :
  let c := {| ga := [[5; 7]]; gb := [100; 200] |} in
  glwe_dim_valid 2 1 = true /\ glwe_wf 32 2 1 c /\
  sample_extract 32 2 1 (lwe_new 2) c 0 = Ok {| lwe_a := [5; 2 ^ 32 - 7]; lwe_b := 100 |} /\
  sample_extract 32 2 1 (lwe_new 2) c 1 = Ok {| lwe_a := [7; 5]; lwe_b := 200 |} /\
  glwe_phase 2 [[1; 1]] c 0%nat = 100 - (5 - 7) /\ glwe_phase 2 [[1; 1]] c 1%nat = 200 - (5 + 7).
Proof. repeat split; repeat constructor; unfold torus; lia. Qed.

(** ** C54: decryption inverts encryption *)

(** Encryption into a buffer whose body is zero (a fresh buffer): the phase is message plus error. *)
Theorem glwe_encrypt_phase N k w c msg sk masks e : is_pow2 N = true -> glwe_fresh N k c -> length msg = N -> polys_shape N k sk -> polys_shape N k masks ->
  match e with None => True | Some e => length e = N end ->
  exists c', glwe_encrypt w N c msg sk masks e = Ok c' /\ ga c' = masks /\ glwe_shape N k c' /\
    peq N (2 ^ w) (glwe_phase N sk c') (padd (coef msg) (match e with None => p0 | Some e => coef e end)).
Proof.
  intros Hp [Sh Z0] Hm Hs Hk He. destruct (glwe_encrypt_ok N w k c msg sk masks e Hp Sh Hm Hs Hk He) as (c' & E & G & S1 & _ & P).
  exists c'. repeat (split; [assumption|]). intros i Hi. rewrite (P i Hi). unfold padd at 1. rewrite (coef_zeros w N (gb c) Z0 i Hi). apply zeq_refl'. unfold p0. rewrite Z.add_0_r. reflexivity.
Qed.
Print Assumptions glwe_encrypt_phase.
(** Decryption computes the phase. *)
Theorem glwe_decrypt_phase N k w msg ct sk : is_pow2 N = true -> length msg = N -> glwe_shape N k ct -> polys_shape N k sk ->
  exists m, glwe_decrypt w msg ct sk = Ok m /\ length m = N /\ peq N (2 ^ w) (coef m) (glwe_phase N sk ct).
Proof. intros. destruct (glwe_decrypt_ok N w k msg ct sk) as (m & A & B & _ & D); auto. exists m. auto. Qed.
Print Assumptions glwe_decrypt_phase.
(** Decoding returns the message when the noise of the ciphertext is below half an encoding step ... *)
Theorem glwe_decode_noise pr N k w sk ct p pt B : word w -> glwe_dim_valid N k = true -> glwe_wf w N k ct -> polys_shape N k sk -> 0 < p < w -> p < 32 -> length pt = N ->
  B < 2 ^ (w - p - 1) -> pnear N w B (glwe_phase N sk ct) (pscale (2 ^ (w - p)) (coef pt)) ->
  glwe_decrypt_decode pr w N k sk ct p = Ok (map (fun x => x mod 2 ^ p) pt).
Proof. apply glwe_decode_ok. Qed.
Print Assumptions glwe_decode_noise.
(** ... so the secret key's encrypt/decrypt pair is the identity. *)
Theorem glwe_decrypt_encrypt pr N k w sk pt p masks e E : word w -> glwe_dim_valid N k = true -> polys_shape N k sk -> 0 < p < w -> p < 32 ->
  length pt = N -> Forall (fun x => 0 <= x < 2 ^ p) pt -> 0 <= E < 2 ^ (w - p - 1) -> glwe_rnd_ok N k w E (masks, e) ->
  exists c, glwe_encode_encrypt w N k sk pt p masks e = Ok c /\ glwe_wf w N k c /\ glwe_decrypt_decode pr w N k sk c p = Ok pt.
Proof.
  intros Hw Hd Hs Hp Hp' Lp Fp HE Hr. destruct (dim_valid N k Hd) as (P2 & HN & Hk). unfold glwe_encode_encrypt. rewrite Hd, encodes_ok by assumption. cbn [bind].
  destruct (glwe_encrypt_fresh N w k (glwe_new N k) (map (fun x => (x * 2 ^ (w - p)) mod 2 ^ w) pt) sk (masks, e) E Hw P2 (glwe_new_fresh N k)) as (c & E1 & W & P); try assumption; try lia.
  { now rewrite map_length. }
  cbn [fst snd] in E1. exists c. split; [assumption|]. split; [assumption|].
  rewrite (glwe_decode_ok N w pr k sk c p pt E); try assumption; try lia.
  - f_equal. clear - Fp. induction Fp as [|x pt Hx Fp IH]; cbn [map]; [reflexivity|]. rewrite IH, Z.mod_small by assumption. reflexivity.
  - eapply pnear_peq; [reflexivity|apply penc_coef|exact P].
Qed.
Print Assumptions glwe_decrypt_encrypt.
(** Reusing a buffer: the mask is overwritten but the old body is added to, so the phase is message plus
    error plus the previous body; for every non-zero previous body the result is wrong. *)
Theorem glwe_encrypt_reused_buffer_refuted N k w c msg sk masks e : is_pow2 N = true -> glwe_shape N k c -> length msg = N -> polys_shape N k sk -> polys_shape N k masks ->
  match e with None => True | Some e => length e = N end ->
  exists c', glwe_encrypt w N c msg sk masks e = Ok c' /\
    peq N (2 ^ w) (glwe_phase N sk c') (padd (padd (coef msg) (match e with None => p0 | Some e => coef e end)) (coef (gb c))).
Proof. intros. destruct (glwe_encrypt_ok N w k c msg sk masks e) as (c' & A & _ & _ & _ & B); auto. exists c'. auto. Qed.
Print Assumptions glwe_encrypt_reused_buffer_refuted.
Example glwe_encrypt_reuse :
  let sk := [[1; 1]] in let m := [2 ^ 28; 0] in
  match glwe_encode_encrypt 32 2 1 sk [3; 1] 4 [[9; 1000]] None with
  | Ok c =>
      glwe_decrypt_decode Debug 32 2 1 sk c 4 = Ok [3; 1] /\
      match glwe_encrypt 32 2 c m sk [[77; 5]] None with
      | Ok c' => glwe_decrypt_decode Debug 32 2 1 sk c' 4 = Ok [4; 1]
      | _ => False
      end
  | _ => False
  end.
Proof. vm_compute. split; reflexivity. Qed.

(** ** C91: GLEV and GGSW encryption and decryption *)

Theorem glev_encrypt_correct pr N k w log count sk msg E glev rnd : word w -> is_pow2 N = true -> 1 <= log -> (1 <= count)%nat -> log * Z.of_nat count <= w ->
  polys_shape N k sk -> length msg = N -> 0 <= E -> length glev = count -> Forall (glwe_fresh N k) glev -> length rnd = count -> Forall (glwe_rnd_ok N k w E) rnd ->
  exists g', glev_encrypt pr w log count N k glev msg sk rnd = Ok g' /\ length g' = count /\ Forall (glwe_wf w N k) g' /\ glev_enc N k w log E sk (coef msg) g'.
Proof. apply glev_encrypt_ok. Qed.
Print Assumptions glev_encrypt_correct.
Theorem ggsw_encrypt_correct pr N k w log count sk msg E ggsw p rnd : word w -> is_pow2 N = true -> 1 <= log -> (1 <= count)%nat -> log * Z.of_nat count <= w ->
  polys_shape N k sk -> length msg = N -> 0 <= E -> 0 <= p < w -> Forall (fun x => 0 <= x < 2 ^ p) msg ->
  length ggsw = S k -> Forall (fun r => length r = count /\ Forall (glwe_fresh N k) r) ggsw ->
  length rnd = S k -> Forall (fun r => length r = count /\ Forall (glwe_rnd_ok N k w E) r) rnd ->
  exists g', ggsw_encrypt pr w log count N k ggsw msg sk p rnd = Ok g' /\ Forall (fun r => length r = count /\ Forall (glwe_wf w N k) r) g' /\
    ggsw_enc N k count w log E sk (coef msg) g'.
Proof. apply ggsw_encrypt_ok. Qed.
Print Assumptions ggsw_encrypt_correct.
(** A message with a coefficient of more than p bits is refused. *)
Theorem ggsw_encrypt_refuses pr N k w log count sk msg ggsw p rnd x : word w -> 0 <= p < w -> In x msg -> 2 ^ p <= x ->
  ggsw_encrypt pr w log count N k ggsw msg sk p rnd = Panic.
Proof.
  intros Hw Hp Hin Hx. pose proof (word_le w Hw). unfold ggsw_encrypt. rewrite ushl_ok by lia. cbn [bind]. rewrite Z.mul_1_l.
  pose proof (pow_pos' p ltac:(lia)). assert (2 ^ p < 2 ^ w) by (apply Z.pow_lt_mono_r; lia). assert (2 ^ w <= 2 ^ 64) by (apply Z.pow_le_mono_r; lia).
  rewrite (uwrap_small 64) by (unfold torus; lia). rewrite (uwrap_small w) by (unfold torus; lia).
  destruct (forallb _ msg) eqn:F; [|reflexivity]. apply (proj1 (forallb_forall _ _) F) in Hin. apply Z.ltb_lt in Hin. lia.
Qed.
Print Assumptions ggsw_encrypt_refuses.
(** Decrypting a GGSW ciphertext returns the message modulo 2^log whenever its noise is below half the first
    gadget step. *)
Theorem ggsw_decrypt_correct pr N k w log count sk buf ggsw m E : word w -> glwe_dim_valid N k = true -> 1 <= log < w -> (1 <= count)%nat -> log * Z.of_nat count <= w ->
  polys_shape N k sk -> length buf = N -> length m = N -> ggsw_valid N k count ggsw = true -> (forall r, nth_error ggsw k = Some r -> Forall (glwe_wf w N k) r) ->
  E < 2 ^ (w - log - 1) -> ggsw_enc N k count w log E sk (coef m) ggsw ->
  ggsw_decrypt pr w log count N k buf ggsw sk = Ok (map (fun x => x mod 2 ^ log) m).
Proof.
  intros Hw Hd Hl Hc Hs Hk Lb Lm Hv Hwf HE (Lg & _ & _ & He). unfold ggsw_decrypt. rewrite (proj2 (Nat.eqb_eq _ _) Lb), Hd, Hv, (proj2 (polys_valid_iff N k sk) Hk).
  rewrite (proj2 (radix_valid_iff w log count)) by (repeat split; (assumption || lia)). cbn [andb].
  destruct (nth_error ggsw k) as [row|] eqn:En; [|apply nth_error_None in En; lia]. specialize (He row eq_refl). specialize (Hwf row eq_refl).
  apply ggsw_valid_iff in Hv as [_ Fv]. destruct (proj1 (Forall_forall _ _) Fv row (nth_error_In _ _ En)) as [L1 F1].
  destruct row as [|c row]; [cbn [length] in L1; lia|]. destruct (He O c eq_refl) as [_ Hp]. apply Forall_cons_iff in Hwf as [(_ & _ & Tc) _].
  apply (glev_decrypt_at_ok N w pr log count k buf (c :: row) sk 0 m E c); try assumption; try reflexivity; change (Z.of_nat 0 + 1) with 1 in *; rewrite Z.mul_1_r in *; (assumption || lia).
Qed.
Print Assumptions ggsw_decrypt_correct.
(** Together: decrypting a fresh GGSW encryption of a message of at most log bits returns it. *)
Theorem ggsw_decrypt_encrypt pr N k w log count sk msg E ggsw p rnd buf : word w -> glwe_dim_valid N k = true -> 1 <= log < w -> (1 <= count)%nat -> log * Z.of_nat count <= w ->
  polys_shape N k sk -> length msg = N -> 0 <= E < 2 ^ (w - log - 1) -> 0 <= p <= log -> Forall (fun x => 0 <= x < 2 ^ p) msg -> length buf = N ->
  length ggsw = S k -> Forall (fun r => length r = count /\ Forall (glwe_fresh N k) r) ggsw ->
  length rnd = S k -> Forall (fun r => length r = count /\ Forall (glwe_rnd_ok N k w E) r) rnd ->
  exists g', ggsw_encrypt pr w log count N k ggsw msg sk p rnd = Ok g' /\ ggsw_decrypt pr w log count N k buf g' sk = Ok msg.
Proof.
  intros Hw Hd Hl Hc Hs Hk Hm HE Hp Fm Lb Lg Fg Lr Fr. destruct (dim_valid N k Hd) as (P2 & HN & Hk0).
  destruct (ggsw_encrypt_ok N w pr log count k sk msg E ggsw p rnd) as (g' & E1 & F1 & G); try assumption; try lia.
  exists g'. split; [assumption|]. rewrite (ggsw_decrypt_correct pr N k w log count sk buf g' msg E); try assumption; try lia.
  - f_equal. assert (2 ^ p <= 2 ^ log) by (apply Z.pow_le_mono_r; lia). clear - Fm H. induction Fm as [|x m Hx Fm IH]; cbn [map]; [reflexivity|]. rewrite IH, Z.mod_small by lia. reflexivity.
  - apply ggsw_valid_iff. split; [apply G|]. eapply Forall_impl; [|exact F1]. intros r [A B]. split; [assumption|]. eapply Forall_impl; [|exact B]. intros c Hc'. apply Hc'.
  - intros r Hr. apply (proj1 (Forall_forall _ _) F1 r). eapply nth_error_In; eassumption.
Qed.
Print Assumptions ggsw_decrypt_encrypt.

(** ** C79: the external product *)

(** For a binary key, multiplying a GLWE ciphertext by a GGSW encryption of m multiplies its phase by m, up
    to an explicit bound on the added noise. *)
Theorem external_product_phase pr N k w log count a g : is_pow2 N = true -> word w -> 1 <= log -> (1 <= count)%nat -> log * Z.of_nat count < w ->
  glwe_wf w N k a -> ggsw_valid N k count g = true ->
  exists c, external_product pr w log count N k g a = Ok c /\ glwe_wf w N k c /\
    forall sk m M E, 0 <= E -> polys_shape N k sk -> binary_polys sk -> l1bnd N M m -> ggsw_enc N k count w log E sk m g ->
      pnear N w (Z.of_nat k * gadget_bound N count w log (M * Z.of_nat N) E + gadget_bound N count w log M E)
        (glwe_phase N sk c) (pmul N m (glwe_phase N sk a)).
Proof.
  intros Hp Hw Hl Hc Hs Ha Hg. apply ggsw_valid_iff in Hg as [Lg Fg]. pose proof (word_pos w Hw).
  destruct (glwe_ggsw_mad_ok N w pr log count k (glwe_new N k) a g) as (c & E1 & S1 & T1 & P1); try assumption. { apply glwe_new_shape. }
  exists c. split; [exact E1|]. split; [apply T1, glwe_new_wf; lia|].
  intros sk m M E HE [Lk Fk] Hb HM Henc. eapply pnear_peq; [reflexivity| |apply (P1 sk m (Z.of_nat N) M E); try assumption].
  - intros i Hi. unfold padd. rewrite (glwe_phase_new N w k sk i Hi). apply zeq_refl'. unfold p0. ring.
  - apply Forall_forall. intros s Hs'. apply l1bnd_binary; [apply (proj1 (Forall_forall _ _) Fk s Hs')|apply (proj1 (Forall_forall _ _) Hb s Hs')].
Qed.
Print Assumptions external_product_phase.

(** So decrypting the product of a fresh GGSW encryption of msg and a ciphertext of pt returns msg * pt
    (in the ring of polynomials modulo X^N + 1), as long as the total noise is below half an encoding step. *)
Theorem external_product_decrypts pr N k w log count sk msg E ggsw rnd q ct p pt M B : word w -> glwe_dim_valid N k = true -> 1 <= log -> (1 <= count)%nat -> log * Z.of_nat count < w ->
  polys_shape N k sk -> binary_polys sk -> length msg = N -> 0 <= E -> 0 <= q < w -> Forall (fun x => 0 <= x < 2 ^ q) msg ->
  length ggsw = S k -> Forall (fun r => length r = count /\ Forall (glwe_fresh N k) r) ggsw ->
  length rnd = S k -> Forall (fun r => length r = count /\ Forall (glwe_rnd_ok N k w E) r) rnd ->
  glwe_wf w N k ct -> 0 < p < w -> p < 32 -> length pt = N -> 0 <= B -> pnear N w B (glwe_phase N sk ct) (pscale (2 ^ (w - p)) (coef pt)) ->
  l1bnd N M (coef msg) ->
  B * M + (Z.of_nat k * gadget_bound N count w log (M * Z.of_nat N) E + gadget_bound N count w log M E) < 2 ^ (w - p - 1) ->
  exists g c, ggsw_encrypt pr w log count N k ggsw msg sk q rnd = Ok g /\ external_product pr w log count N k g ct = Ok c /\
    glwe_decrypt_decode pr w N k sk c p = Ok (map (fun i => pmul N (coef msg) (coef pt) i mod 2 ^ p) (seq 0 N)).
Proof.
  intros Hw Hd Hl Hc Hs Hk Hb Hm HE Hq Fm Lg Fg Lr Fr Hct Hp Hp' Lp HB Hn HM Hbound. destruct (dim_valid N k Hd) as (P2 & HN & Hk0). pose proof (word_pos w Hw).
  destruct (ggsw_encrypt_ok N w pr log count k sk msg E ggsw q rnd) as (g & E1 & F1 & G); try assumption; try lia.
  assert (Hv : ggsw_valid N k count g = true).
  { apply ggsw_valid_iff. split; [apply G|]. eapply Forall_impl; [|exact F1]. intros r [A B']. split; [assumption|]. eapply Forall_impl; [|exact B']. intros c Hc'. apply Hc'. }
  destruct (external_product_phase pr N k w log count ct g P2 Hw Hl Hc Hs Hct Hv) as (c & E2 & W2 & P).
  exists g, c. split; [assumption|]. split; [assumption|].
  specialize (P sk (coef msg) M E HE Hk Hb HM G).
  set (prod := map (fun i => pmul N (coef msg) (coef pt) i) (seq 0 N)).
  rewrite (glwe_decode_ok N w pr k sk c p prod (B * M + (Z.of_nat k * gadget_bound N count w log (M * Z.of_nat N) E + gadget_bound N count w log M E))); try assumption.
  - unfold prod. now rewrite map_map.
  - unfold prod. now rewrite map_length, seq_length.
  - rewrite Z.add_comm. eapply pnear_trans; [exact P|].
    eapply pnear_peq; [| |apply (pnear_mul_l1 N w M B (coef msg) _ _ HB HM Hn)].
    + intros i Hi. apply (pmul_comm N (2 ^ w) _ _ i Hi).
    + intros i Hi. rewrite (pmul_scale_l N (2 ^ w) _ _ _ i Hi). unfold penc, pscale. apply zeq_mul; [reflexivity|].
      rewrite (pmul_comm N (2 ^ w) _ _ i Hi). unfold coef at 3, prod. rewrite nth_map_seq by assumption. reflexivity.
Qed.
Print Assumptions external_product_decrypts.

Definition ex_r1 : list (list Z) * option (list Z) := ([[123456; 7890123]], Some [3; 2 ^ 64 - 2]).
Definition ex_rnd : list (list (list (list Z) * option (list Z))) := repeat (repeat ex_r1 4) 2.
Lemma ex_rnd_ok : Forall (fun r => length r = 4%nat /\ Forall (glwe_rnd_ok 2 1 64 3) r) ex_rnd.
Proof.
  assert (R : glwe_rnd_ok 2 1 64 3 ex_r1).
  { split; [split; [reflexivity|repeat constructor]|]. split; [repeat constructor; unfold torus; lia|]. cbn [snd ex_r1]. split; [split; [reflexivity|repeat constructor; unfold torus; lia]|].
    exists (coef [3; -2]). split; [intros [|[|]] H; cbn; lia|]. intros [|[|]] H; try lia; reflexivity. }
  assert (R4 : length (repeat ex_r1 4) = 4%nat /\ Forall (glwe_rnd_ok 2 1 64 3) (repeat ex_r1 4)).
  { split; [reflexivity|]. apply Forall_forall. intros x Hx. apply repeat_spec in Hx. now subst. }
  apply Forall_forall. intros x Hx. apply repeat_spec in Hx. now subst.
Qed.
(** (1 + 2X) * (3 + X) = 3 + 7X + 2X^2 = 1 + 7X modulo X^2 + 1. *)
Example external_product_ex :
  let sk := [[1; 1]] in
  match ggsw_encrypt Debug 64 8 4 2 1 (repeat (repeat (glwe_new 2 1) 4) 2) [1; 2] sk 2 ex_rnd, glwe_encode_encrypt 64 2 1 sk [3; 1] 4 [[55; 2 ^ 40 + 9]] (Some [5; 2 ^ 64 - 1]) with
  | Ok g, Ok c =>
      match external_product Debug 64 8 4 2 1 g c with Ok c' => glwe_decrypt_decode Debug 64 2 1 sk c' 4 = Ok [1; 7] | _ => False end /\
      ggsw_decrypt Debug 64 8 4 2 1 [0; 0] g sk = Ok [1; 2]
  | _, _ => False
  end.
Proof. vm_compute. split; reflexivity. Qed.
Example external_product_hyps : word 64 /\ glwe_dim_valid 2 1 = true /\ 8 * Z.of_nat 4 < 64 /\ l1bnd 2 3 (coef [1; 2]) /\
  5 * 3 + (Z.of_nat 1 * gadget_bound 2 4 64 8 (3 * Z.of_nat 2) 3 + gadget_bound 2 4 64 8 3 3) < 2 ^ (64 - 4 - 1).
Proof. split; [right; reflexivity|]. repeat split; vm_compute; congruence. Qed.

(** ** C84: GLWE key switching *)

Theorem glwe_keyswitch_phase h pr N k w log count out ct ksk : is_pow2 N = true -> word w -> sub_exact h pr w -> 1 <= log -> (1 <= count)%nat -> log * Z.of_nat count < w ->
  glwe_shape N k out -> glwe_wf w N k ct -> length ksk = k -> Forall (fun r => length r = count /\ Forall (glwe_shape N k) r) ksk ->
  exists c', glwe_keyswitch h pr w log count N k out ct ksk = Ok c' /\ glwe_wf w N k c' /\
    forall oldsk newsk E, 0 <= E -> polys_shape N k oldsk -> binary_polys oldsk -> gksk_enc N k count w log E oldsk newsk ksk ->
      pnear N w (Z.of_nat k * gadget_bound N count w log (Z.of_nat N) E) (glwe_phase N newsk c') (glwe_phase N oldsk ct).
Proof.
  intros Hp Hw Hx Hl Hc Hs So Hct Lk Hk. destruct (glwe_keyswitch_ok N w h pr log count k out ct ksk) as (c' & A & B & P); try assumption.
  exists c'. split; [assumption|]. split; [assumption|]. intros oldsk newsk E HE [Lo Fo] Hb. apply P; [assumption|].
  apply Forall_forall. intros s Hs'. apply l1bnd_binary; [apply (proj1 (Forall_forall _ _) Fo s Hs')|apply (proj1 (Forall_forall _ _) Hb s Hs')].
Qed.
Print Assumptions glwe_keyswitch_phase.
(** Key generation produces such a key. *)
Theorem glwe_keyswitch_key_correct pr N k w log count newsk E oldsk rows rnd : word w -> is_pow2 N = true -> 1 <= log -> log * Z.of_nat count <= w -> polys_shape N k newsk -> 0 <= E ->
  Forall (fun s => length s = N) oldsk -> length oldsk = length rows -> length rnd = length rows ->
  Forall (fun r => length r = count /\ Forall (glwe_fresh N k) r) rows -> Forall (fun r => length r = count /\ Forall (glwe_rnd_ok N k w E) r) rnd ->
  exists g', gksk_loop pr w log N oldsk newsk rows rnd = Ok g' /\ length g' = length rows /\
    Forall (fun r => length r = count /\ Forall (glwe_wf w N k) r) g' /\ gksk_enc N k count w log E oldsk newsk g'.
Proof. intros. now apply gksk_loop_ok. Qed.
Print Assumptions glwe_keyswitch_key_correct.
(** In a debug build on an AVX2 machine the key switch aborts for 64-bit ciphertexts whenever a mask
    coefficient of the sum is non-zero (0 - x wraps): the sum's first mask polynomial here. *)
Theorem glwe_keyswitch_debug_avx2_refuted h N k log count out ct ksk sum x i : hw_x86 h = true -> hw_avx2 h = true ->
  rows_mad Debug 64 log count N k (glwe_new N k) (ga ct) ksk = Ok sum -> glwe_shape N k out -> glwe_shape N k sum ->
  nth_error (ga sum) 0 = Some x -> (i < N)%nat -> 0 < nth i x 0 ->
  glwe_keyswitch h Debug 64 log count N k out ct ksk = Panic.
Proof.
  intros Hx Ha Hsum [[Lo Fo] Lob] [[Ls Fs] Lsb] Hn Hi Hpos. unfold glwe_keyswitch. rewrite Hsum. cbn [bind]. unfold glwe_sub.
  cbn [glwe_trivial ga gb glwe_new]. rewrite map_length, repeat_length, (proj2 (Nat.eqb_eq _ _) Lo). rewrite Lo, <- Ls, Nat.eqb_refl. cbn [andb].
  destruct (ga sum) as [|x0 xs] eqn:Es; [discriminate|]. cbn [nth_error] in Hn. inversion Hn; subst x0. cbn [length] in *.
  destruct (ga out) as [|o os] eqn:Eo; [cbn [length] in *; lia|]. cbn [repeat map zip3M].
  apply Forall_cons_iff in Fo as [Lo1 _]. apply Forall_cons_iff in Fs as [Lx _].
  rewrite (poly_sub_debug_avx2_refuted h o (map (fun _ => 0) (zpoly N)) x i); try assumption; try reflexivity.
  - rewrite map_length, zpoly_len. assumption.
  - congruence.
  - congruence.
  - rewrite nth_map0 by (now rewrite zpoly_len). assumption.
Qed.
Print Assumptions glwe_keyswitch_debug_avx2_refuted.
Example glwe_keyswitch_ex :
  let arm := {| hw_x86 := false; hw_avx2 := false; hw_fma := false; hw_512f := false; hw_512dq := false |} in
  let avx := {| hw_x86 := true; hw_avx2 := true; hw_fma := true; hw_512f := false; hw_512dq := false |} in
  match gksk_loop Debug 64 8 2 [[1; 1]] [[0; 1]] [repeat (glwe_new 2 1) 4] [repeat ex_r1 4], glwe_encode_encrypt 64 2 1 [[1; 1]] [3; 1] 4 [[55; 2 ^ 40 + 9]] (Some [5; 2 ^ 64 - 1]) with
  | Ok g, Ok c =>
      match glwe_keyswitch arm Debug 64 8 4 2 1 (glwe_new 2 1) c g with Ok c' => glwe_decrypt_decode Debug 64 2 1 [[0; 1]] c' 4 = Ok [3; 1] | _ => False end /\
      glwe_keyswitch avx Debug 64 8 4 2 1 (glwe_new 2 1) c g = Panic
  | _, _ => False
  end.
Proof. vm_compute. split; reflexivity. Qed.

(** ** C86: public-key RLWE encryption *)

Theorem rlwe_public_phase N w ct msg pk u e0 e1 s : word w -> is_pow2 N = true -> length msg = N -> glwe_shape N 1 ct -> glwe_wf w N 1 pk ->
  length u = N -> length e0 = N -> length e1 = N -> length s = N ->
  exists c, rlwe_encrypt_public w N 1 ct msg pk u e0 e1 = Ok c /\ glwe_wf w N 1 c /\
    peq N (2 ^ w) (glwe_phase N [s] c) (padd (coef msg) (padd (pmul N (coef u) (glwe_phase N [s] pk)) (psub (coef e1) (pmul N (coef e0) (coef s))))).
Proof. apply rlwe_public_ok. Qed.
Print Assumptions rlwe_public_phase.
(** Decrypting a public-key encryption with the secret key returns the message, whatever the previous
    contents of the ciphertext buffer, when E (2 N + 1) is below half an encoding step. *)
Theorem rlwe_public_roundtrip pr N w s p pt ct pkbuf masks e u e0 e1 E : word w -> is_pow2 N = true -> (0 < N)%nat -> length s = N -> binary s -> 0 < p < w -> p < 32 ->
  length pt = N -> Forall (fun x => 0 <= x < 2 ^ p) pt -> glwe_shape N 1 ct -> glwe_fresh N 1 pkbuf -> 0 <= E -> glwe_rnd_ok N 1 w E (masks, e) ->
  length u = N -> binary u -> length e0 = N -> length e1 = N -> pnear N w E (coef e0) p0 -> pnear N w E (coef e1) p0 ->
  E * (2 * Z.of_nat N + 1) < 2 ^ (w - p - 1) ->
  exists pk c, rlwe_gen_pk w N 1 pkbuf [s] masks e = Ok pk /\ rlwe_encode_encrypt_public w N 1 ct pt pk p u e0 e1 = Ok c /\
    glwe_decrypt_decode pr w N 1 [s] c p = Ok pt.
Proof.
  intros Hw Hp HN Ls Bs Hp1 Hp2 Lp Fp Sc Fb HE Hr Lu Bu L0 L1 H0 H1 HB. pose proof (word_pos w Hw).
  assert (Sk : polys_shape N 1 [s]) by (split; [reflexivity|constructor; [assumption|constructor]]).
  destruct (glwe_encrypt_fresh N w 1 pkbuf (zpoly N) [s] (masks, e) E Hw Hp Fb (zpoly_len N) Sk HE Hr) as (pk & E1 & W1 & P1). cbn [fst snd] in E1.
  unfold rlwe_gen_pk, rlwe_encode_encrypt_public. cbn [Nat.eqb]. rewrite encodes_ok by assumption. cbn [bind].
  destruct (rlwe_public_ok N w ct (map (fun x => (x * 2 ^ (w - p)) mod 2 ^ w) pt) pk u e0 e1 s Hw Hp) as (c & E2 & W2 & P2); try assumption. { now rewrite map_length. }
  exists pk, c. split; [assumption|]. split; [assumption|].
  assert (Hd : glwe_dim_valid N 1 = true). { unfold glwe_dim_valid. rewrite Hp, (proj2 (Nat.ltb_lt _ _) HN). reflexivity. }
  rewrite (glwe_decode_ok N w pr 1 [s] c p pt (0 + (E * Z.of_nat N + (E + E * Z.of_nat N)))); try assumption; try lia.
  - f_equal. clear - Fp. induction Fp as [|x pt Hx Fp IH]; cbn [map]; [reflexivity|]. rewrite IH, Z.mod_small by assumption. reflexivity.
  - eapply pnear_peq; [intros i Hi; symmetry; apply (P2 i Hi)| |apply pnear_add; [apply pnear_refl; apply penc_coef|apply pnear_add; [|apply pnear_sub; [exact H1|]]]].
    + instantiate (1 := p0). instantiate (1 := p0). intros i Hi. unfold padd, psub, p0. apply zeq_refl'. ring.
    + eapply pnear_peq; [intros i Hi; apply (pmul_comm N (2 ^ w) _ _ i Hi)| |apply (pnear_mul_l1 N w (Z.of_nat N) E (coef u)); [assumption|now apply l1bnd_binary|]].
      2:{ eapply pnear_peq; [reflexivity|apply zpoly_coef|exact P1]. }
      intros i Hi. unfold pmul, psum, pscale, p0. apply zeq_refl'. apply zsum_0. intros. ring.
    + eapply pnear_peq; [reflexivity| |apply (pnear_mul_l1 N w (Z.of_nat N) E (coef s)); [assumption|now apply l1bnd_binary|exact H0]].
      intros i Hi. unfold pmul, psum, pscale, p0. apply zeq_refl'. apply zsum_0. intros. ring.
Qed.
Print Assumptions rlwe_public_roundtrip.
Example rlwe_public_ex :
  match rlwe_gen_pk 32 2 1 (glwe_new 2 1) [[1; 0]] [[987654; 3333]] (Some [2; 2 ^ 32 - 1]) with
  | Ok pk =>
      match rlwe_encode_encrypt_public 32 2 1 {| ga := [[1; 2]]; gb := [3; 4] |} [5; 9] pk 4 [1; 1] [1; 2 ^ 32 - 1] [0; 3] with
      | Ok c => glwe_decrypt_decode Debug 32 2 1 [[1; 0]] c 4 = Ok [5; 9]
      | _ => False
      end
  | _ => False
  end.
Proof. vm_compute. reflexivity. Qed.
