(** C122: the pipelines of the high-level TFHE API: what the documented sequences of calls return, for every message, key and
    randomness within the stated bounds. Nothing is assumed about buffers: every function allocates its own. *)
From Coq Require Import Reals ZArith List Lia Lra Bool.
From Coquelicot Require Import Complex.
From Verif Require Import Base Alu AluProofs MuxGraph PolyRing Tfhe TfheGlwe TfheBoot SpecTfhe SpecGlwe SpecBoot FluentIntProofs TfheProofs TfheProofs2 TfheProofs3
  TfheGlweProofs TfheGlweProofs2 TfheGlweProofs3 TfheGlweProofs4 TfheBootProofs TfheBootProofs2 TfheBootProofs3 TfheBootProofs4 TfheTrace TfheSwitch TfheCbs Props_Tfhe Props_Glwe Props_Boot SpecCbs SpecSwitch SpecTrace.
From Verif Require Import Fft FftGlwe SpecFft SpecFftGlwe FftProofs FftProofs5 FftProofs6 FftFloat FftBound FftGlweProofs FftGlweProofs2 FftGlweProofs3 Props_Fft Props_FftGlwe FftCbs SpecFftCbs Props_FftCbs PubKey Props_PubKey HighLevel.
Import ListNotations.
Ltac Zify.zify_post_hook ::= idtac.
Open Scope Z_scope.

Lemma w64 : word 64. Proof. now right. Qed.

Lemma fresh_row N k count : length (repeat (glwe_new N k) count) = count /\ Forall (glwe_fresh N k) (repeat (glwe_new N k) count).
Proof. split; [apply repeat_length|]. apply Forall_forall. intros c Hc. apply repeat_spec in Hc. subst. apply glwe_new_fresh. Qed.
Lemma fresh_ggsw N k count : length (ggsw_new N k count) = S k /\ Forall (fun r => length r = count /\ Forall (glwe_fresh N k) r) (ggsw_new N k count).
Proof.
  unfold ggsw_new. rewrite repeat_length. split; [lia|]. apply Forall_forall. intros r Hr. apply repeat_spec in Hr. subst. apply fresh_row.
Qed.
Lemma fresh_bsk n N k count : length (repeat (ggsw_new N k count) n) = n /\
  Forall (fun g => length g = S k /\ Forall (fun r => length r = count /\ Forall (glwe_fresh N k) r) g) (repeat (ggsw_new N k count) n).
Proof. split; [apply repeat_length|]. apply Forall_forall. intros g Hg. apply repeat_spec in Hg. subst. apply fresh_ggsw. Qed.
Lemma ksk_new_valid from to count : ksk_valid from to count (ksk_new from to count) = true.
Proof.
  unfold ksk_valid, ksk_new. rewrite repeat_length, Nat.eqb_refl. cbn [andb]. apply forallb_forall. intros lev Hlev. apply repeat_spec in Hlev. subst lev.
  rewrite repeat_length, Nat.eqb_refl. cbn [andb]. apply forallb_forall. intros c Hc. apply repeat_spec in Hc. subst c. unfold lwe_valid, lwe_new. cbn [lwe_a]. rewrite repeat_length. apply Nat.eqb_refl.
Qed.
Lemma lwe_new_len n : length (lwe_a (lwe_new n)) = n.
Proof. apply repeat_length. Qed.

(** ** LWE *)

(** The returned randomness explains the ciphertext: under the key its phase is the encoded message plus exactly the returned error,
    and its mask is the drawn one. *)
Theorem C122_returned_randomness : forall n val sk p mask e, (1 <= n)%nat -> length sk = n -> length mask = n -> 0 < p < 64 ->
  exists c, hl_encrypt_lwe_secret_and_return_randomness n val sk p mask e = Ok (c, e) /\ hl_encrypt_lwe_secret n val sk p mask e = Ok c /\
    lwe_a c = mask /\ congr 64 (lwe_phase sk c) (val * 2 ^ (64 - p) + e).
Proof.
  intros n val sk p mask e Hn Ls Lm Hp. unfold hl_encrypt_lwe_secret, hl_encrypt_lwe_secret_and_return_randomness, lwe_sk_encrypt, lwe_encode_encrypt.
  unfold lwe_dim_valid at 1 2. rewrite (proj2 (Nat.eqb_neq n 0)) by lia. destruct (Z.ltb_spec p 64); [|lia]. cbn [negb andb]. rewrite (t_encode_ok 64) by (try exact w64; lia). cbn [bind].
  destruct (lwe_encrypt_ok 64 n (lwe_new n) sk ((val * 2 ^ (64 - p)) mod 2 ^ 64) mask e ltac:(lia) (lwe_new_len n) Ls Lm) as (c & E & A & _ & P).
  exists c. rewrite E. cbn [bind fst]. split; [reflexivity|]. split; [reflexivity|]. split; [exact A|]. rewrite P. apply zeq_add; [apply zeq_mod|reflexivity].
Qed.
Print Assumptions C122_returned_randomness.

(** Decryption with carry bits: a message of p + carry bits comes back modulo 2^p. Unlike [decrypt_lwe] this works for all lengths up
    to 63 bits. *)
Theorem C122_carry_roundtrip : forall pr n val sk p carry mask e, (1 <= n)%nat -> length sk = n -> length mask = n -> toruses 64 mask ->
  0 < p -> 0 <= carry -> p + carry < 64 -> near 64 (2 ^ (63 - p - carry) - 1) e 0 ->
  exists c, hl_encrypt_lwe_secret n val sk (p + carry) mask e = Ok c /\ hl_decrypt_lwe_with_carry pr n c sk p carry = Ok (val mod 2 ^ p).
Proof.
  intros pr n val sk p carry mask e Hn Ls Lm Tm Hp Hc Hpc He. unfold hl_encrypt_lwe_secret, hl_encrypt_lwe_secret_and_return_randomness, hl_decrypt_lwe_with_carry.
  destruct (lwe_sk_encrypt_near 64 n sk val (p + carry) mask e _ w64 Hn Ls Lm Tm ltac:(lia) He) as (c & -> & (L & _) & P). exists c. split; [reflexivity|].
  apply (lwe_decrypt_carry_near pr n sk c p carry val (2 ^ (63 - p - carry) - 1)); try assumption. replace (64 - (p + carry) - 1) with (63 - p - carry) by lia. lia.
Qed.
Print Assumptions C122_carry_roundtrip.
(** Without carry bits it is ordinary decryption, on every ciphertext. *)
Theorem C122_carry_zero : forall pr n ct sk p, (1 <= n)%nat -> length (lwe_a ct) = n -> 0 < p < 32 ->
  hl_decrypt_lwe_with_carry pr n ct sk p 0 = hl_decrypt_lwe pr n ct sk p.
Proof.
  intros pr n ct sk p Hn L Hp. unfold hl_decrypt_lwe_with_carry, hl_decrypt_lwe, lwe_decrypt_with_carry, lwe_decrypt, lwe_dim_valid, lwe_valid.
  rewrite L, Nat.eqb_refl, (proj2 (Nat.eqb_neq n 0)) by lia. destruct (Z.ltb_spec p 64); [|lia]. cbn [negb andb].
  rewrite uadd_ok by (assert (2 ^ 5 < 2 ^ 32) by reflexivity; change (2 ^ 5) with 32 in *; lia). cbn [bind]. rewrite Z.add_0_r. destruct (Z.ltb_spec p 64); [|lia].
  rewrite lwe_decrypt_raw_ok by (try assumption; lia). cbn [bind]. unfold t_decode. destruct (Z.ltb_spec p 64); [|lia].
  assert (1 < 2 ^ p < 2 ^ 32) by (split; [apply Z.pow_gt_1; lia|apply Z.pow_lt_mono_r; lia]). assert (2 ^ 32 < 2 ^ 64) by reflexivity.
  rewrite (ushl_ok pr 64), (ushl_ok pr 32) by lia. cbn [bind]. rewrite Z.mul_1_l, (uwrap_small 64), (uwrap_small 32) by (unfold torus; lia).
  rewrite !usub_ok by lia. reflexivity.
Qed.
Print Assumptions C122_carry_zero.
(** Trivial ciphertexts decrypt to their message under every key. *)
Theorem C122_trivial_lwe : forall pr n val sk p, (1 <= n)%nat -> 0 < p < 32 ->
  exists c, hl_trivial_lwe n val p = Ok c /\ hl_decrypt_lwe pr n c sk p = Ok (val mod 2 ^ p).
Proof.
  intros pr n val sk p Hn Hp. unfold hl_trivial_lwe. rewrite (t_encode_ok 64) by (try exact w64; lia). cbn [bind].
  unfold lwe_trivial, lwe_dim_valid, lwe_valid. rewrite lwe_new_len, Nat.eqb_refl, (proj2 (Nat.eqb_neq n 0)) by lia. cbn [negb andb].
  eexists. split; [reflexivity|].
  apply (lwe_decrypt_near pr 64 n sk _ p val 0 w64 Hn); try lia; [cbn [lwe_a]; rewrite map_length; apply lwe_new_len|].
  exists 0. split; [cbn; lia|]. unfold lwe_phase. cbn [lwe_a lwe_b].
  assert (D : forall (l : list Z) s, dotz (map (fun _ : Z => 0) l) s = 0). { induction l as [|x l IH]; intros [|y s]; cbn [map dotz]; try reflexivity. rewrite IH. reflexivity. }
  rewrite D, Z.sub_0_r, Z.add_0_r. apply zeq_mod.
Qed.
Print Assumptions C122_trivial_lwe.
(** Public-key encryption through a generated key. *)
Theorem C122_public_roundtrip : forall pr n sk rnd E m p rs ea eb Ea Eb, (1 <= n)%nat -> length sk = n -> binary sk -> 0 <= E -> 0 <= Ea ->
  length rnd = n -> Forall (fun r => length (fst r) = n /\ near 64 E (snd r) 0) rnd ->
  0 < p < 32 -> 0 <= m < 2 ^ p -> length rs = n -> binary rs -> length ea = n -> Forall (fun x => near 64 Ea x 0) ea -> near 64 Eb eb 0 ->
  Z.of_nat n * E + Z.of_nat n * Ea + Eb < 2 ^ (63 - p) ->
  exists pk c, hl_generate_lwe_pk n sk rnd = Ok pk /\ hl_encrypt_lwe n m pk p rs ea eb = Ok c /\ hl_decrypt_lwe pr n c sk p = Ok m.
Proof.
  intros pr n sk rnd E m p rs ea eb Ea Eb Hn Ls Bs HE HEa Lr Fr Hp Hm Lrs Brs Le Fe He Hb.
  destruct (lwe_public_encrypt_decrypt pr 64 n sk rnd E m p rs ea eb Ea Eb w64 ltac:(lia) Ls Bs HE HEa Lr Fr ltac:(lia) ltac:(lia) Hm Lrs Brs Le Fe He) as (pk & c & r & E1 & E2 & E3).
  { replace (64 - p - 1) with (63 - p) by lia. lia. }
  exists pk, c. split; [exact E1|]. split; [|exact E3]. unfold hl_encrypt_lwe, hl_encrypt_lwe_and_return_randomness. now rewrite E2.
Qed.
Print Assumptions C122_public_roundtrip.

(** Key switching: encrypt under one key, switch, decrypt under the other. *)
Theorem C122_keyswitch : forall pr log count from_sk to_sk rnd E m p mask e Ein,
  let from := length from_sk in let to := length to_sk in
  1 <= log -> (1 <= count)%nat -> log * Z.of_nat count < 64 -> (1 <= from)%nat -> (1 <= to)%nat -> binary from_sk -> 0 <= E ->
  length rnd = from -> ksk_rnd_ok 64 E to count rnd ->
  0 < p < 32 -> 0 <= m < 2 ^ p -> length mask = from -> toruses 64 mask -> near 64 Ein e 0 ->
  Ein + Z.of_nat from * (2 ^ (63 - log * Z.of_nat count) + Z.of_nat count * (2 ^ (log - 1) * E)) < 2 ^ (63 - p) ->
  exists ksk c c', hl_generate_ksk pr log count from to from_sk to_sk rnd = Ok ksk /\ hl_encrypt_lwe_secret from m from_sk p mask e = Ok c /\
    hl_keyswitch_lwe_to_lwe pr log count from to c ksk = Ok c' /\ hl_decrypt_lwe pr to c' to_sk p = Ok m.
Proof.
  intros pr log count from_sk to_sk rnd E m p mask e Ein from to Hl Hc Hlc Hf Ht Hb HE Lr Hr Hp Hm Lm Tm He Hno.
  destruct (lwe_sk_encrypt_near 64 from from_sk m p mask e Ein w64 Hf eq_refl Lm Tm ltac:(lia) He) as (c & Ec & Wc & Pc).
  destruct (keyswitch_decrypts pr 64 log count from_sk to_sk (lwe_new to) c (ksk_new from to count) rnd m p E Ein) as (ksk & c' & E1 & E2 & E3); try assumption; try exact w64; try lia.
  - intros ->. cbn in Hf. lia.
  - intros ->. cbn in Ht. lia.
  - apply lwe_new_len.
  - apply ksk_new_valid.
  - replace (64 - log * Z.of_nat count - 1) with (63 - log * Z.of_nat count) by lia. replace (64 - p - 1) with (63 - p) by lia. exact Hno.
  - exists ksk, c, c'. split; [exact E1|]. split; [|split; [exact E2|exact E3]]. unfold hl_encrypt_lwe_secret, hl_encrypt_lwe_secret_and_return_randomness. now rewrite Ec.
Qed.
Print Assumptions C122_keyswitch.

(** ** GLWE *)

Lemma encrypt_glwe_near N k pt sk p masks e E : glwe_dim_valid N k = true -> polys_shape N k sk -> 0 < p < 64 -> length pt = N -> 0 <= E ->
  glwe_rnd_ok N k 64 E (masks, e) ->
  exists c, hl_encrypt_glwe N k pt sk p masks e = Ok c /\ glwe_wf 64 N k c /\ pnear N 64 E (glwe_phase N sk c) (pscale (2 ^ (64 - p)) (coef pt)).
Proof.
  intros Hd Hs Hp Lp HE Hr. destruct (dim_valid N k Hd) as (P2 & HN & Hk). unfold hl_encrypt_glwe, glwe_encode_encrypt. rewrite Hd, (encodes_ok 64) by (try exact w64; lia). cbn [bind].
  destruct (glwe_encrypt_fresh N 64 k (glwe_new N k) (map (fun x => (x * 2 ^ (64 - p)) mod 2 ^ 64) pt) sk (masks, e) E w64 P2 (glwe_new_fresh N k)) as (c & E1 & W & P); try assumption; try lia.
  { now rewrite map_length. }
  cbn [fst snd] in E1. exists c. split; [exact E1|]. split; [exact W|]. eapply pnear_peq; [reflexivity|apply penc_coef|exact P].
Qed.

(** Encrypt a polynomial, decrypt it - or extract any of its coefficients and decrypt that as an LWE ciphertext under the flattened key. *)
Theorem C122_glwe_roundtrip_and_extract : forall pr N k pt sk p masks e E i, glwe_dim_valid N k = true -> polys_shape N k sk -> 0 < p < 32 ->
  length pt = N -> Forall (fun x => 0 <= x < 2 ^ p) pt -> 0 <= E < 2 ^ (63 - p) -> glwe_rnd_ok N k 64 E (masks, e) -> (i < N)%nat ->
  exists c l, hl_encrypt_glwe N k pt sk p masks e = Ok c /\ hl_decrypt_glwe pr N k c sk p = Ok pt /\
    hl_sample_extract N k c i = Ok l /\ hl_decrypt_lwe pr (k * N) l (to_lwe_sk sk) p = Ok (nth i pt 0).
Proof.
  intros pr N k pt sk p masks e E i Hd Hs Hp Lp Fp HE Hr Hi. replace (63 - p) with (64 - p - 1) in HE by lia.
  destruct (encrypt_glwe_near N k pt sk p masks e E Hd Hs ltac:(lia) Lp ltac:(lia) Hr) as (c & E1 & W & P).
  destruct (sample_extract_decrypts pr N k 64 (lwe_new (k * N)) c i sk p pt E w64 Hd Hi W (lwe_new_len _) Hs ltac:(lia) ltac:(lia) Lp ltac:(lia) P) as (l & E2 & E3).
  exists c, l. split; [exact E1|]. split; [|split; [exact E2|]].
  - unfold hl_decrypt_glwe. rewrite (glwe_decode_noise pr N k 64 sk c p pt E w64 Hd W Hs ltac:(lia) ltac:(lia) Lp ltac:(lia) P). f_equal.
    clear - Fp. induction Fp as [|x pt Hx Fp IH]; cbn [map]; [reflexivity|]. rewrite IH, Z.mod_small by assumption. reflexivity.
  - unfold hl_decrypt_lwe. rewrite E3. f_equal. apply Z.mod_small. apply (proj1 (Forall_forall _ _) Fp). apply nth_In. lia.
Qed.
Print Assumptions C122_glwe_roundtrip_and_extract.
(** Trivial GLWE ciphertexts decrypt to their message under every key; other lengths and 64 bits or more are refused. *)
Theorem C122_trivial_glwe : forall pr N k pt sk p, glwe_dim_valid N k = true -> polys_shape N k sk -> 0 < p < 32 -> length pt = N ->
  exists c, hl_trivial_glwe N k pt p = Ok c /\ hl_decrypt_glwe pr N k c sk p = Ok (map (fun x => x mod 2 ^ p) pt).
Proof.
  intros pr N k pt sk p Hd Hs Hp Lp. unfold hl_trivial_glwe. rewrite Hd, (proj2 (Nat.eqb_eq _ _) Lp). destruct (Z.ltb_spec p 64); [|lia]. cbn [andb].
  rewrite (encodes_ok 64) by (try exact w64; lia). cbn [bind]. set (b := map (fun x => (x * 2 ^ (64 - p)) mod 2 ^ 64) pt).
  assert (Lb : length b = N) by (unfold b; now rewrite map_length).
  assert (Tb : toruses 64 b). { apply Forall_forall. intros x Hx. apply in_map_iff in Hx as (y & <- & _). apply uwrap_torus. lia. }
  eexists. split; [reflexivity|]. destruct (glwe_trivial_ok N 64 k (glwe_new N k) b (glwe_new_shape N k) Lb) as (_ & G & W & P).
  assert (Eq : {| ga := ga (glwe_new N k); gb := zip_assign (fun _ x => x) (gb (glwe_new N k)) b |} = glwe_trivial (glwe_new N k) b).
  { unfold glwe_trivial. f_equal. cbn [ga glwe_new]. clear. induction k as [|k IH]; cbn [repeat map]; [reflexivity|]. rewrite <- IH. f_equal. unfold zpoly. clear. induction N as [|N IH]; cbn [repeat map length]; [reflexivity|]. now rewrite <- IH. }
  rewrite Eq. apply (glwe_decode_noise pr N k 64 sk _ p pt 0 w64 Hd (W ltac:(lia) Tb) Hs ltac:(lia) ltac:(lia) Lp); [apply pow_pos'; lia|].
  apply pnear_refl. etransitivity; [apply P|]. apply penc_coef.
Qed.
Print Assumptions C122_trivial_glwe.
Theorem C122_trivial_glwe_refused : forall N k pt p, 64 <= p \/ length pt <> N \/ glwe_dim_valid N k = false -> hl_trivial_glwe N k pt p = Panic.
Proof.
  intros N k pt p Hq. unfold hl_trivial_glwe. destruct Hq as [Hp|[Hl|Hd]].
  - destruct (Z.ltb_spec p 64); [lia|reflexivity].
  - rewrite (proj2 (Nat.eqb_neq _ _) Hl), !andb_false_r. reflexivity.
  - rewrite Hd, andb_false_r. reflexivity.
Qed.
Print Assumptions C122_trivial_glwe_refused.

Lemma encrypt_ggsw_wf pr log count N k msg sk p rnd E : glwe_dim_valid N k = true -> 1 <= log -> (1 <= count)%nat -> log * Z.of_nat count <= 64 -> polys_shape N k sk -> 0 <= E ->
  0 <= p < 64 -> 0 <= msg < 2 ^ p -> ggsw_rnd_ok N k count 64 E rnd ->
  exists g, hl_encrypt_ggsw pr log count N k msg sk p rnd = Ok g /\ ggsw_wf 64 N k count g /\ ggsw_enc N k count 64 log E sk (coef (msg :: repeat 0 (N - 1))) g.
Proof.
  intros Hd Hl Hc Hlc Hs HE Hp Hm (Lr & Fr). destruct (dim_valid N k Hd) as (P2 & HN & Hk). destruct (fresh_ggsw N k count) as (Lg & Fg).
  unfold hl_encrypt_ggsw, ggsw_encrypt_scalar. destruct (Nat.eqb_spec N 0); [lia|].
  destruct (ggsw_encrypt_correct pr N k 64 log count sk (msg :: repeat 0 (N - 1)) E (ggsw_new N k count) p rnd) as (g & E1 & F1 & P1); try assumption; try exact w64.
  { cbn [length]. rewrite repeat_length. lia. }
  { constructor; [lia|]. apply Forall_forall. intros y Hy. apply repeat_spec in Hy. subst. pose proof (pow_pos' p ltac:(lia)). lia. }
  exists g. split; [exact E1|]. split; [|exact P1]. split; [apply P1|exact F1].
Qed.
Lemma coef_const N b : peq N (2 ^ 64) (coef (b :: repeat 0 (N - 1))) (pconst b).
Proof.
  intros [|j] Hj; unfold coef, pconst; cbn [nth Nat.eqb]; apply zeq_refl'; [reflexivity|]. destruct (nth_in_or_default j (repeat 0 (N - 1)) 0) as [H|H]; [exact (repeat_spec _ _ _ H)|exact H].
Qed.

(** GGSW round trip: a scalar of at most log bits comes back as the constant polynomial. *)
Theorem C122_ggsw_roundtrip : forall pr log count N k msg sk p rnd E, glwe_dim_valid N k = true -> 1 <= log < 64 -> (1 <= count)%nat -> log * Z.of_nat count <= 64 ->
  polys_shape N k sk -> 0 <= E < 2 ^ (63 - log) -> 0 <= p <= log -> 0 <= msg < 2 ^ p -> ggsw_rnd_ok N k count 64 E rnd ->
  exists g, hl_encrypt_ggsw pr log count N k msg sk p rnd = Ok g /\ hl_decrypt_ggsw pr log count N k g sk = Ok (msg :: repeat 0 (N - 1)).
Proof.
  intros pr log count N k msg sk p rnd E Hd Hl Hc Hlc Hs HE Hp Hm (Lr & Fr). destruct (dim_valid N k Hd) as (P2 & HN & Hk). destruct (fresh_ggsw N k count) as (Lg & Fg).
  unfold hl_encrypt_ggsw, hl_decrypt_ggsw, ggsw_encrypt_scalar. destruct (Nat.eqb_spec N 0); [lia|].
  apply (ggsw_decrypt_encrypt pr N k 64 log count sk (msg :: repeat 0 (N - 1)) E (ggsw_new N k count) p rnd (zpoly N)); try assumption; try exact w64.
  - cbn [length]. rewrite repeat_length. lia.
  - now replace (64 - log - 1) with (63 - log) by lia.
  - constructor; [lia|]. apply Forall_forall. intros y Hy. apply repeat_spec in Hy. subst. pose proof (pow_pos' p ltac:(lia)). lia.
  - apply repeat_length.
Qed.
Print Assumptions C122_ggsw_roundtrip.

(** ** Evaluation through the floating-point FFT *)

Lemma enc_const N k count log E sk b g : ggsw_enc N k count 64 log E sk (coef (b :: repeat 0 (N - 1))) g -> ggsw_enc N k count 64 log E sk (pconst b) g.
Proof. intros H. eapply ggsw_enc_peq; [|exact H]. apply coef_const. Qed.

(** CMUX: encrypt a bit as GGSW and two polynomials as GLWE, transform the selector, select, decrypt: the polynomial selected. *)
Theorem C122_cmux : forall X lg log count k D h m pr b pt0 pt1 sk p rg r0 r1 E E0,
  let N := (2 ^ lg)%nat in
  (1 <= lg <= 12)%nat -> (hw_x86 h = true -> (4 <= lg)%nat) -> fft_error_at_most X lg 64 log count k D -> add_exact h pr 64 -> sub_exact h pr 64 ->
  (1 <= k)%nat -> 1 <= log -> (1 <= count)%nat -> log * Z.of_nat count < 64 -> polys_shape N k sk -> binary_polys sk ->
  0 < p < 32 -> length pt0 = N -> length pt1 = N -> Forall (fun x => 0 <= x < 2 ^ p) pt0 -> Forall (fun x => 0 <= x < 2 ^ p) pt1 -> (b = 0 \/ b = 1) ->
  0 <= E -> ggsw_rnd_ok N k count 64 E rg -> 0 <= E0 -> glwe_rnd_ok N k 64 E0 r0 -> glwe_rnd_ok N k 64 E0 r1 ->
  cmux_noise N k count 64 log E D + E0 < 2 ^ (63 - p) ->
  exists g gf c0 c1 c, hl_encrypt_ggsw pr log count N k b sk 1 rg = Ok g /\ hl_fft_ggsw X count N k g = Ok gf /\
    hl_encrypt_glwe N k pt0 sk p (fst r0) (snd r0) = Ok c0 /\ hl_encrypt_glwe N k pt1 sk p (fst r1) (snd r1) = Ok c1 /\
    hl_cmux X m h pr log count N k gf c0 c1 = Ok c /\ hl_decrypt_glwe pr N k c sk p = Ok (if b =? 1 then pt1 else pt0).
Proof.
  intros X lg log count k D h m pr b pt0 pt1 sk p rg r0 r1 E E0 N Hlg Hx HD Ha Hsb Hk Hl Hc Hlc Hs Hbin Hp L0 L1 F0 F1 Hb HE Hrg HE0 Hr0 Hr1 Hno.
  assert (Hd : glwe_dim_valid N k = true) by now apply dim_pow.
  destruct (encrypt_ggsw_wf pr log count N k b sk 1 rg E Hd Hl Hc ltac:(lia) Hs HE ltac:(lia) ltac:(change (2 ^ 1) with 2; lia) Hrg) as (g & Eg & Wg & Pg). apply enc_const in Pg.
  destruct r0 as [ms0 e0]. destruct r1 as [ms1 e1]. cbn [fst snd].
  destruct (encrypt_glwe_near N k pt0 sk p ms0 e0 E0 Hd Hs ltac:(lia) L0 HE0 Hr0) as (c0 & Ec0 & W0 & P0).
  destruct (encrypt_glwe_near N k pt1 sk p ms1 e1 E0 Hd Hs ltac:(lia) L1 HE0 Hr1) as (c1 & Ec1 & W1 & P1).
  destruct (C106_cmux_fft_correct X lg 64 log count k D h m pr (glwe_new N k) c0 c1 g Hlg Hx w64 Hl Hc Hlc Hk Ha Hsb HD (glwe_new_shape N k) W0 W1 Wg) as (gf & r & Ef & Er & Wr & Pr).
  specialize (Pr sk b E Hs Hbin Hb HE Pg). exists g, gf, c0, c1, r. split; [exact Eg|]. split; [exact Ef|]. split; [exact Ec0|]. split; [exact Ec1|].
  split; [unfold hl_cmux; rewrite Hd; exact Er|]. unfold hl_decrypt_glwe.
  assert (Q : pnear N 64 (cmux_noise N k count 64 log E D + E0) (glwe_phase N sk r) (pscale (2 ^ (64 - p)) (coef (if b =? 1 then pt1 else pt0)))).
  { eapply pnear_trans; [exact Pr|]. destruct (b =? 1); assumption. }
  rewrite (glwe_decode_noise pr N k 64 sk r p (if b =? 1 then pt1 else pt0) _ w64 Hd Wr Hs ltac:(lia) ltac:(lia) ltac:(destruct (b =? 1); assumption) ltac:(replace (64 - p - 1) with (63 - p) by lia; exact Hno) Q). f_equal.
  assert (F : Forall (fun x => 0 <= x < 2 ^ p) (if b =? 1 then pt1 else pt0)) by (destruct (b =? 1); assumption).
  clear - F. induction F as [|x pt Hx Fp IH]; cbn [map]; [reflexivity|]. rewrite IH, Z.mod_small by assumption. reflexivity.
Qed.
Print Assumptions C122_cmux.

(** GLEV CMUX selects between GLEV encryptions. *)
Theorem C122_glev_cmux : forall X lg log count k D h m pr b m0 m1 sk rg r0 r1 E E0,
  let N := (2 ^ lg)%nat in
  (1 <= lg <= 12)%nat -> (hw_x86 h = true -> (4 <= lg)%nat) -> fft_error_at_most X lg 64 log count k D -> add_exact h pr 64 -> sub_exact h pr 64 ->
  (1 <= k)%nat -> 1 <= log -> (1 <= count)%nat -> log * Z.of_nat count < 64 -> polys_shape N k sk -> binary_polys sk ->
  length m0 = N -> length m1 = N -> (b = 0 \/ b = 1) ->
  0 <= E -> ggsw_rnd_ok N k count 64 E rg -> 0 <= E0 -> length r0 = count -> Forall (glwe_rnd_ok N k 64 E0) r0 -> length r1 = count -> Forall (glwe_rnd_ok N k 64 E0) r1 ->
  exists g gf c0 c1 c, hl_encrypt_ggsw pr log count N k b sk 1 rg = Ok g /\ hl_fft_ggsw X count N k g = Ok gf /\
    hl_encrypt_glev pr log count N k m0 sk r0 = Ok c0 /\ hl_encrypt_glev pr log count N k m1 sk r1 = Ok c1 /\
    hl_glev_cmux X m h pr log count N k gf c0 c1 = Ok c /\ length c = count /\ Forall (glwe_wf 64 N k) c /\
    glev_enc N k 64 log (cmux_noise N k count 64 log E D + E0) sk (coef (if b =? 1 then m1 else m0)) c.
Proof.
  intros X lg log count k D h m pr b m0 m1 sk rg r0 r1 E E0 N Hlg Hx HD Ha Hsb Hk Hl Hc Hlc Hs Hbin L0 L1 Hb HE Hrg HE0 Lr0 Hr0 Lr1 Hr1.
  assert (Hd : glwe_dim_valid N k = true) by now apply dim_pow. destruct (dim_valid N k Hd) as (P2 & HN & Hk').
  destruct (encrypt_ggsw_wf pr log count N k b sk 1 rg E Hd Hl Hc ltac:(lia) Hs HE ltac:(lia) ltac:(change (2 ^ 1) with 2; lia) Hrg) as (g & Eg & Wg & Pg). apply enc_const in Pg.
  destruct (fresh_row N k count) as (Ln & Fn).
  destruct (glev_encrypt_correct pr N k 64 log count sk m0 E0 (repeat (glwe_new N k) count) r0 w64 P2 Hl Hc ltac:(lia) Hs L0 HE0 Ln Fn Lr0 Hr0) as (c0 & Ec0 & Lc0 & W0 & P0).
  destruct (glev_encrypt_correct pr N k 64 log count sk m1 E0 (repeat (glwe_new N k) count) r1 w64 P2 Hl Hc ltac:(lia) Hs L1 HE0 Ln Fn Lr1 Hr1) as (c1 & Ec1 & Lc1 & W1 & P1).
  destruct (C106_cmux_fft_refines X lg 64 log count k D h m pr (glwe_new N k) (glwe_new N k) (glwe_new N k) g Hlg Hx w64 Hl Hc Hlc HD (glwe_new_wf N 64 k ltac:(lia)) (glwe_new_wf N 64 k ltac:(lia)) Wg) as (gf & _ & Ef & _).
  destruct (C106_glev_cmux_fft_refines X lg 64 log count k D h m pr (repeat (glwe_new N k) count) c0 c1 g gf Hlg Hx w64 Hl Hc Hlc HD W0 W1 Wg Ef) as (ds & Hds & Er).
  destruct (glev_cmux_correct h pr 64 log count N k D g sk b E w64 Hd Ha Hsb Hl Hc Hlc (proj1 HD) HE (ggsw_wf_valid _ _ _ _ _ Wg) Hs Hbin Hb Pg (repeat (glwe_new N k) count) c0 c1 ds) as (r & E1 & Lr & Wr & Pr); try assumption; try congruence.
  { eapply Forall_impl; [|exact Fn]. intros c Hf. exact (proj1 Hf). }
  exists g, gf, c0, c1, r. split; [exact Eg|]. split; [exact Ef|]. split; [exact Ec0|]. split; [exact Ec1|]. split; [unfold hl_glev_cmux; fold N in Er; rewrite Er; exact E1|].
  split; [congruence|]. split; [exact Wr|]. specialize (Pr E0 log (coef m0) (coef m1) P0 P1). destruct (b =? 1); exact Pr.
Qed.
Print Assumptions C122_glev_cmux.

(** Programmable bootstrapping and key switching back: generate the bootstrap key and the key-switch key, encrypt m under the LWE key
    (p bits and a padding bit), evaluate the table of f, switch the result back to the LWE key. It decrypts to f(m) - or -f(m) if the
    padding bit is set - under the key the input was encrypted with, and its noise does not depend on the input's. *)
Theorem C122_bootstrap_and_switch_back : forall X lg log count k D h m pr n sc s sk rnd f g p B E msg mask e logk countk rndk Ek,
  let N := (2 ^ lg)%nat in let L := Z.of_nat lg + 1 in
  let ksnoise := Z.of_nat (k * N) * (2 ^ (63 - logk * Z.of_nat countk) + Z.of_nat countk * (2 ^ (logk - 1) * Ek)) in
  let noise := ksnoise + Z.of_nat n * cmux_noise N k count 64 log E D in
  (1 <= lg <= 12)%nat -> (hw_x86 h = true -> (4 <= lg)%nat) -> fft_error_at_most X lg 64 log count k D -> add_exact h pr 64 -> sub_exact h pr 64 ->
  (1 <= k)%nat -> 1 <= log -> (1 <= count)%nat -> log * Z.of_nat count < 64 -> 1 <= logk -> (1 <= countk)%nat -> logk * Z.of_nat countk < 64 -> 1 <= p <= 30 ->
  (1 <= n)%nat -> binary s -> length s = n -> polys_shape N k sk -> binary_polys sk ->
  0 <= E -> (forall i, ggsw_rnd_ok N k count 64 E (rnd i)) -> 0 <= Ek -> length rndk = (k * N)%nat -> ksk_rnd_ok 64 Ek n countk rndk ->
  (forall j, 0 <= j < 2 ^ p -> f j = Ok (g j) /\ 0 <= g j < 2 ^ p) ->
  length mask = n -> toruses 64 mask -> 0 <= B -> near 64 B e 0 ->
  B + (Z.of_nat n + 1) * 2 ^ (63 - L) < 2 ^ (62 - p) -> noise < 2 ^ (63 - p) -> 0 <= msg < 2 ^ (p + 1) ->
  exists bsk bskf ksk lut c r c', hl_generate_bootstrapping_key pr log count n N k s sk rnd = Ok bsk /\ hl_fft_bootstrap_key X count n N k bsk = Ok bskf /\
    hl_generate_ksk pr logk countk (k * N) n (to_lwe_sk sk) s rndk = Ok ksk /\ lut_from_fn pr 64 N k sc f p = Ok lut /\
    hl_encrypt_lwe_secret n msg s (p + 1) mask e = Ok c /\ hl_univariate_programmable_bootstrap X m h pr log count n N k c lut bskf = Ok r /\
    hl_keyswitch_lwe_to_lwe pr logk countk (k * N) n r ksk = Ok c' /\ lwe_wf 64 n c' /\
    near 64 noise (lwe_phase s c') ((if msg <? 2 ^ p then g msg else - g (msg - 2 ^ p)) * 2 ^ (64 - p)) /\
    hl_decrypt_lwe pr n c' s p = Ok (if msg <? 2 ^ p then g msg else (- g (msg - 2 ^ p)) mod 2 ^ p).
Proof.
  intros X lg log count k D h m pr n sc s sk rnd f g p B E msg mask e logk countk rndk Ek N L ksnoise noise Hlg Hx HD Ha Hsb Hk Hl Hc Hs Hlk Hck Hsk' Hp Hn Hb Ls Hsk Hbin HE Hrnd HEk Lrk Hrk Hf Lm Tm HB He Hin Hno Hmsg.
  assert (Hdim : glwe_dim_valid N k = true) by now apply dim_pow. destruct (dim_valid N k Hdim) as (HP & HN0 & Hk').
  assert (EL : Z.of_nat (Nat.log2 N) + 1 = L) by (unfold N, L; rewrite Nat.log2_pow2 by lia; reflexivity).
  assert (HLw : 0 < L < 64) by (unfold L; lia). replace (63 - L) with (64 - L - 1) in Hin by lia. replace (62 - p) with (64 - p - 2) in Hin by lia.
  pose proof (step_bound n 64 L p B w64 HLw ltac:(lia) HB Hn Hin) as HpL.
  destruct (fresh_bsk n N k count) as (L0 & F0).
  destruct (generate_bsk_ok N 64 pr log count k w64 Hdim Hl Hc Hs n (repeat (ggsw_new N k count) n) s sk E rnd Hn Hb Ls Hsk HE L0 F0 Hrnd) as (bsk & Eb & Hbsk).
  destruct (generate_bsk_wf pr 64 log count n N k _ s sk rnd E bsk w64 Hdim Hl Hc Hs Hb Ls Hsk L0 F0 HE Hrnd Eb) as (Lb & Wb).
  destruct (lwe_sk_encrypt_near 64 n s msg (p + 1) mask e B w64 Hn Ls Lm Tm ltac:(lia) He) as (c & Ec & Wc & Pc).
  pose proof (bsk_enc_valid N k count 64 log E sk s bsk Hbsk) as Hbv. rewrite Ls in Hbv.
  assert (G : forall ds, (forall i, SpecBoot.fft_err N k D (ds i)) -> _) by
    (intros ds Hds; exact (pbs_univariate_ok N 64 h pr log count k D w64 Hdim Ha Hsb Hl Hc Hs (proj1 HD) n (lwe_new (k * N)) sc c bsk f g p ds B msg Hn Wc Hbv (lwe_new_len _) ltac:(rewrite EL; lia) Hp Hf Hds HB ltac:(rewrite EL; exact Hin) ltac:(rewrite EL; exact HpL) Hmsg)).
  destruct (G (fun _ => glwe_new N k) (fun _ => no_err N k D (proj1 HD))) as (lut & _ & El & _).
  assert (Wl : glwe_wf 64 N k lut).
  { apply (fill_wf pr 64 N k sc (glwe_new N k) [f] [g] p lut); try assumption; try lia.
    - exact w64.
    - unfold N. rewrite pow2_Z. apply Z.pow_le_mono_r; unfold L in HpL; lia.
    - cbn; lia.
    - constructor; [exact Hf|constructor].
    - apply glwe_new_shape. }
  destruct (C106_bootstrap_fft_refines X lg 64 log count k D h m pr n (glwe_new N k) c lut bsk 0 0 Hlg Hx w64 Hl Hc Hs HD Wl Lb Wb) as (bskf & ds & Ef & Hds & Er).
  destruct (G ds Hds) as (lut' & r & El' & Ep & Wr & Pr). rewrite El in El'. injection El' as <-.
  replace (64 - (p + 1)) with (64 - p - 1) in Pc by lia. specialize (Pr sk s E Hsk Hbin Hb HE Hbsk Pc).
  assert (Lc : length (to_lwe_sk sk) = (k * N)%nat) by (apply concat_len_polys; exact Hsk).
  assert (Bc : binary (to_lwe_sk sk)). { unfold to_lwe_sk. clear - Hbin. induction Hbin as [|a l Ha Hb IH]; cbn [concat]; [constructor|]. apply Forall_app. now split. }
  destruct (keyswitch_key_correct pr 64 logk countk (to_lwe_sk sk) s rndk Ek (ksk_new (k * N) n countk)) as (ksk & Ekk & Vk & Pk); try exact w64; try lia.
  { intros E0. rewrite E0 in Lc. cbn in Lc. nia. } { intros E0. rewrite E0 in Ls. cbn in Ls. lia. }
  { rewrite Lc, Ls. apply ksk_new_valid. }
  { clear - Bc Hlk. assert (H2 : 2 ^ 1 <= 2 ^ logk) by (apply Z.pow_le_mono_r; lia). eapply Forall_impl; [|exact Bc]. intros z [-> | ->]; lia. }
  { rewrite Ls. exact Hrk. }
  destruct (keyswitch_phase pr 64 logk countk (to_lwe_sk sk) s (lwe_new n) r ksk 1 Ek) as (c' & Ec' & Wc' & Pc'); try exact w64; try assumption; try lia.
  { intros E0. rewrite E0 in Lc. cbn in Lc. nia. } { intros E0. rewrite E0 in Ls. cbn in Ls. lia. }
  { rewrite Ls. apply lwe_new_len. } { rewrite Lc. exact Wr. }
  { eapply Forall_impl; [|exact Bc]. intros z [-> | ->]; cbn; lia. }
  rewrite Lc, Ls in *. set (t := if msg <? 2 ^ p then g msg else - g (msg - 2 ^ p)).
  pose proof (pow_pos' p ltac:(lia)) as PP. assert (E2 : 2 ^ (p + 1) = 2 * 2 ^ p) by (rewrite Z.pow_add_r by lia; change (2 ^ 1) with 2; ring).
  assert (Q : (if msg <? 2 ^ p then 1 else -1) * (g (msg mod 2 ^ p) * 2 ^ (64 - p)) = t * 2 ^ (64 - p)).
  { unfold t. destruct (Z.ltb_spec msg (2 ^ p)); [rewrite Z.mod_small by lia; ring|].
    replace (msg mod 2 ^ p) with (msg - 2 ^ p); [ring|]. apply Z.mod_unique with 1; lia. }
  rewrite Q in Pr.
  assert (Nn : near 64 noise (lwe_phase s c') (t * 2 ^ (64 - p))).
  { unfold noise, ksnoise. rewrite Z.mul_1_l in Pc'. replace (64 - logk * Z.of_nat countk - 1) with (63 - logk * Z.of_nat countk) in Pc' by lia.
    destruct Pc' as (z1 & B1 & C1). destruct Pr as (z2 & B2 & C2). exists (z1 + z2). split; [lia|]. rewrite C1, C2. apply zeq_refl'. ring. }
  exists bsk, bskf, ksk, lut, c, r, c'. split; [exact Eb|]. split; [exact Ef|]. split; [exact Ekk|]. split; [exact El|].
  split; [unfold hl_encrypt_lwe_secret, hl_encrypt_lwe_secret_and_return_randomness; now rewrite Ec|].
  split; [unfold hl_univariate_programmable_bootstrap, pbs_univariate_fft; fold N in Er; rewrite Er; exact Ep|].
  split; [exact Ec'|]. split; [exact Wc'|]. split; [exact Nn|]. unfold hl_decrypt_lwe.
  rewrite (lwe_decrypt_near pr 64 n s c' p t noise w64 Hn (proj1 Wc') ltac:(lia) ltac:(lia) ltac:(replace (64 - p - 1) with (63 - p) by lia; exact Hno) Nn).
  f_equal. unfold t. destruct (Z.ltb_spec msg (2 ^ p)); [|reflexivity]. apply Z.mod_small. apply Hf. lia.
Qed.
Print Assumptions C122_bootstrap_and_switch_back.

(** Circuit bootstrapping: generate the three keys, transform them, encrypt a bit as LWE, bootstrap it to a GGSW selector, and select
    between two encrypted polynomials with it: decryption gives the selected one. *)
Theorem C122_circuit_bootstrap : forall X lg lp lt ls log cp ct cs count k D D4 h m pr n sc rb ra rs mask e scr scg scl sk s Eb Ea Es B b pt0 pt1 p r0 r1 E0,
  let N := (2 ^ lg)%nat in let L := Z.of_nat lg + 1 in
  (1 <= lg <= 12)%nat -> (hw_x86 h = true -> (4 <= lg)%nat) -> (1 <= k)%nat -> add_exact h pr 64 -> sub_exact h pr 64 ->
  1 <= lp -> (1 <= cp)%nat -> lp * Z.of_nat cp < 64 -> 1 <= lt -> (1 <= ct)%nat -> lt * Z.of_nat ct < 64 ->
  1 <= ls -> (1 <= cs)%nat -> ls * Z.of_nat cs < 64 -> 1 <= log -> (1 <= count < 8)%nat -> log * Z.of_nat count + 1 < 64 ->
  cbs_errors_at_most X lg 64 lp lt ls log cp ct cs count k D D4 -> binary_products_exact X lg ->
  0 <= Eb -> 0 <= Ea -> 0 <= Es -> (1 <= n)%nat -> polys_shape N k sk -> binary_polys sk -> binary s -> length s = n ->
  (forall i, ggsw_rnd_ok N k cp 64 Eb (rb i)) ->
  polys_shape N k sc -> (forall j, length (ra j) = k /\ Forall (fun r => length r = ct /\ Forall (glwe_rnd_ok N k 64 Ea) r) (ra j)) ->
  (forall i, length (rs i) = cs /\ Forall (glwe_rnd_ok N k 64 Es) (rs i)) ->
  length (lwe_a scr) = n -> glwe_wf 64 N k scg -> length scl = count -> Forall (glwe_shape N k) scl ->
  0 <= B -> B + (Z.of_nat n + 1) * 2 ^ (63 - L + Z.of_nat (log_slots count)) < 2 ^ 62 ->
  length mask = n -> toruses 64 mask -> near 64 B e 0 -> 0 <= b < 2 ->
  0 < p < 32 -> length pt0 = N -> length pt1 = N -> Forall (fun x => 0 <= x < 2 ^ p) pt0 -> Forall (fun x => 0 <= x < 2 ^ p) pt1 ->
  0 <= E0 -> glwe_rnd_ok N k 64 E0 r0 -> glwe_rnd_ok N k 64 E0 r1 ->
  cmux_noise N k count 64 log (cbs_noise N k n cp ct cs 64 lp lt ls Eb Ea Es D) D4 + E0 < 2 ^ (63 - p) ->
  exists bsk ak ssk bskf akf sskf c gf c0 c1 r,
    hl_generate_bootstrapping_key pr lp cp n N k s sk rb = Ok bsk /\ hl_generate_automorphism_key pr lt ct N k sk sc ra = Ok ak /\
    hl_generate_scheme_switch_key X m h pr ls cs N k sk rs = Ok ssk /\
    hl_fft_bootstrap_key X cp n N k bsk = Ok bskf /\ hl_fft_automorphism_key X N k ak = Ok akf /\ hl_fft_scheme_switch_key X cs N k ssk = Ok sskf /\
    hl_encrypt_lwe_secret n b s 1 mask e = Ok c /\
    hl_circuit_bootstrap X m h pr lp lt ls log cp ct cs count n N k c bskf akf sskf scr scg scl = Ok gf /\
    hl_encrypt_glwe N k pt0 sk p (fst r0) (snd r0) = Ok c0 /\ hl_encrypt_glwe N k pt1 sk p (fst r1) (snd r1) = Ok c1 /\
    hl_cmux X m h pr log count N k gf c0 c1 = Ok r /\ hl_decrypt_glwe pr N k r sk p = Ok (if b =? 1 then pt1 else pt0).
Proof.
  intros X lg lp lt ls log cp ct cs count k D D4 h m pr n sc rb ra rs mask e scr scg scl sk s Eb Ea Es B b pt0 pt1 p r0 r1 E0 N L Hlg Hx Hk Hadd Hsub
    Hlp Hcp Hlcp Hlt Hct Hlct Hls Hcs Hlcs Hl Hc Hlc Herr Hex HEb HEa HEs Hn Hsk Hbin Hs Ls Hrb Hsc Hra Hrs Hscr Wg Ll Fl HB HBn Lm Tm He Hb Hp L0 L1 F0 F1 HE0 Hr0 Hr1 Hnoise.
  assert (Hdim : glwe_dim_valid N k = true) by now apply dim_pow. destruct (dim_valid N k Hdim) as (HP & HN0 & _).
  assert (Elg : Nat.log2 N = lg) by (unfold N; now rewrite Nat.log2_pow2 by lia).
  assert (EH : (N / 2 = 2 ^ (lg - 1))%nat). { unfold N. destruct lg as [|q]; [lia|]. cbn [Nat.sub Nat.pow]. rewrite Nat.sub_0_r. rewrite Nat.mul_comm. apply Nat.div_mul. lia. }
  destruct r0 as [ms0 e0]. destruct r1 as [ms1 e1]. cbn [fst snd].
  destruct (encrypt_glwe_near N k pt0 sk p ms0 e0 E0 Hdim Hsk ltac:(lia) L0 HE0 Hr0) as (c0 & Ec0 & W0 & P0).
  destruct (encrypt_glwe_near N k pt1 sk p ms1 e1 E0 Hdim Hsk ltac:(lia) L1 HE0 Hr1) as (c1 & Ec1 & W1 & P1).
  destruct (fresh_bsk n N k cp) as (Lb & Fb). pose proof (fresh_row N k ct) as Fct. pose proof (fresh_row N k cs) as Fcs.
  destruct (C109_circuit_bootstrap_fft_end_to_end X lg 64 lp lt ls log cp ct cs count k D D4 h m pr n (repeat (ggsw_new N k cp) n)
    (repeat (repeat (repeat (glwe_new N k) ct) k) lg) (repeat (repeat (glwe_new N k) cs) (tri_count k)) sc rb ra rs mask e scr scg scl sk s Eb Ea Es B b (glwe_new N k) c0 c1 p
    (if b =? 1 then pt1 else pt0) E0) as (bsk & ak & ssk & bskf & akf & sskf & c & gf & r & G1 & G2 & G3 & G4 & G5 & G6 & G7 & G8 & G9 & G10);
    try assumption; try exact w64; try lia.
  - apply repeat_length.
  - apply Forall_forall. intros ksk H. apply repeat_spec in H. subst ksk. split; [apply repeat_length|]. apply Forall_forall. intros r H. apply repeat_spec in H. subst r. exact Fct.
  - apply repeat_length.
  - apply Forall_forall. intros r H. apply repeat_spec in H. subst r. exact Fcs.
  - fold L. replace (64 - L + Z.of_nat (log_slots count) - 1) with (63 - L + Z.of_nat (log_slots count)) by lia. exact HBn.
  - apply glwe_new_shape.
  - fold N. destruct (b =? 1); assumption.
  - fold N. destruct (b =? 1); assumption.
  - replace (64 - p - 1) with (63 - p) by lia. exact Hnoise.
  - exists bsk, ak, ssk, bskf, akf, sskf, c, gf, c0, c1, r. split; [exact G1|]. split; [unfold hl_generate_automorphism_key; rewrite Elg; exact G2|].
    split; [unfold hl_generate_scheme_switch_key; rewrite EH; exact G3|]. do 3 (split; [assumption|]).
    split; [unfold hl_encrypt_lwe_secret, hl_encrypt_lwe_secret_and_return_randomness; now rewrite G7|]. split; [exact G8|]. split; [exact Ec0|]. split; [exact Ec1|].
    split; [unfold hl_cmux; rewrite Hdim; exact G9|]. unfold hl_decrypt_glwe. etransitivity; [exact G10|]. f_equal.
    assert (F : Forall (fun x => 0 <= x < 2 ^ p) (if b =? 1 then pt1 else pt0)) by (destruct (b =? 1); assumption).
    clear - F. induction F as [|x pt Hx Fp IH]; cbn [map]; [reflexivity|]. rewrite IH, Z.mod_small by assumption. reflexivity.
Qed.
Print Assumptions C122_circuit_bootstrap.

(** ** The hypotheses are met *)
(** A small key, message and noise for the LWE and GLWE pipelines, run. *)
Example C122_lwe_run :
  (c <- hl_encrypt_lwe_secret 3 5 [1; 0; 1] 4 [2 ^ 60 + 7; 2 ^ 63; 12345] 99 ;; x <- hl_decrypt_lwe_with_carry Release 3 c [1; 0; 1] 2 2 ;;
   y <- hl_decrypt_lwe Release 3 c [1; 0; 1] 4 ;; c' <- hl_trivial_lwe 3 5 4 ;; z <- hl_decrypt_lwe Debug 3 c' [0; 1; 1] 4 ;; Ok (x, y, z)) = Ok (1, 5, 5).
Proof. vm_compute. reflexivity. Qed.
Example C122_keyswitch_run :
  (k <- hl_generate_ksk Release 8 2 3 2 [1; 0; 1] [1; 1]
          [[([11; 12], 3); ([13; 14], 5)]; [([21; 22], 2 ^ 64 - 3); ([23; 24], 1)]; [([31; 32], 0); ([33; 34], 2)]] ;;
   c <- hl_encrypt_lwe_secret 3 5 [1; 0; 1] 4 [2 ^ 60 + 7; 2 ^ 63; 12345] 99 ;; c' <- hl_keyswitch_lwe_to_lwe Release 8 2 3 2 c k ;;
   hl_decrypt_lwe Release 2 c' [1; 1] 4) = Ok 5.
Proof. vm_compute. reflexivity. Qed.
Example C122_glwe_run :
  (c <- hl_encrypt_glwe 4 1 [1; 2; 3; 0] [[1; 0; 1; 1]] 3 [[2 ^ 63; 5; 6; 7]] (Some [1; 2 ^ 64 - 1; 0; 3]) ;;
   x <- hl_decrypt_glwe Debug 4 1 c [[1; 0; 1; 1]] 3 ;; l <- hl_sample_extract 4 1 c 2 ;; y <- hl_decrypt_lwe Release 4 l [1; 0; 1; 1] 3 ;; Ok (x, y))
  = Ok ([1; 2; 3; 0], 3).
Proof. vm_compute. reflexivity. Qed.

Lemma ex_pt_ok b : length (ex_pt b) = 16%nat /\ Forall (fun x => 0 <= x < 2 ^ 1) (ex_pt b).
Proof. unfold ex_pt. destruct (b =? 1); (split; [reflexivity|]); change (2 ^ 1) with 2; repeat (constructor; [lia|]); constructor. Qed.
Lemma ex_near12345 : near 64 (2 ^ 40) 12345 0.
Proof. exists 12345. split; [lia|]. apply zeq_refl'. reflexivity. Qed.
(** Encrypted selection at degree 16, in double precision. *)
Example C122_cmux_instance : forall m b, b = 0 \/ b = 1 ->
  exists g gf c0 c1 c, hl_encrypt_ggsw Release 8 3 16 1 b ex16_sk 1 (ex16_rnd 0) = Ok g /\ hl_fft_ggsw f64_ext 3 16 1 g = Ok gf /\
    hl_encrypt_glwe 16 1 (ex_pt 0) ex16_sk 1 (fst (ex_glwe_rnd 1 0 0)) (snd (ex_glwe_rnd 1 0 0)) = Ok c0 /\
    hl_encrypt_glwe 16 1 (ex_pt 1) ex16_sk 1 (fst (ex_glwe_rnd 2 0 0)) (snd (ex_glwe_rnd 2 0 0)) = Ok c1 /\
    hl_cmux f64_ext m ex_hw Release 8 3 16 1 gf c0 c1 = Ok c /\ hl_decrypt_glwe Release 16 1 c ex16_sk 1 = Ok (if b =? 1 then ex_pt 1 else ex_pt 0).
Proof.
  intros m b Hb. destruct C107_meets as (HD & _). destruct (ex_pt_ok 0) as (L0 & F0). destruct (ex_pt_ok 1) as (L1 & F1).
  apply (C122_cmux f64_ext 4 8 3 1 (2 ^ 37) ex_hw m Release b (ex_pt 0) (ex_pt 1) ex16_sk 1 (ex16_rnd 0) (ex_glwe_rnd 1 0 0) (ex_glwe_rnd 2 0 0) (2 ^ 20) 8); try lia; try assumption.
  - unfold add_exact; cbn; auto.
  - unfold sub_exact; cbn; auto.
  - split; [reflexivity|repeat constructor].
  - unfold binary_polys, binary, ex16_sk; repeat (constructor; auto).
  - exact (ex16_rnd_ok 0).
  - apply ex_glwe_rnd_ok.
  - apply ex_glwe_rnd_ok.
  - vm_compute. reflexivity.
Qed.
Definition ex_ksk_rnd : list (list (list Z * Z)) := map (fun i => map (fun j => ([Z.of_nat (i * 7 + j); Z.of_nat (i + j * 11)], Z.of_nat (i + j))) (seq 0 4)) (seq 0 16).
Lemma ex_ksk_rnd_ok : length ex_ksk_rnd = 16%nat /\ ksk_rnd_ok 64 32 2 4 ex_ksk_rnd.
Proof.
  split; [reflexivity|]. unfold ksk_rnd_ok, ex_ksk_rnd. apply Forall_forall. intros l Hl. apply in_map_iff in Hl as (i & <- & Hi). apply in_seq in Hi. split; [reflexivity|].
  apply Forall_forall. intros r Hr. apply in_map_iff in Hr as (j & <- & Hj). apply in_seq in Hj. cbn [fst snd]. split; [reflexivity|].
  exists (Z.of_nat (i + j)). split; [lia|]. apply zeq_refl'. reflexivity.
Qed.
(** Bootstrapping NOT at degree 16 and switching back to the two-element key, in double precision. *)
Example C122_bootstrap_instance : forall m msg, 0 <= msg < 4 ->
  exists bsk bskf ksk lut c r c', hl_generate_bootstrapping_key Release 8 3 2 16 1 [1; 0] ex16_sk ex16_rnd = Ok bsk /\ hl_fft_bootstrap_key f64_ext 3 2 16 1 bsk = Ok bskf /\
    hl_generate_ksk Release 4 4 16 2 (to_lwe_sk ex16_sk) [1; 0] ex_ksk_rnd = Ok ksk /\ lut_from_fn Release 64 16 1 (zpoly 16) ex_not 1 = Ok lut /\
    hl_encrypt_lwe_secret 2 msg [1; 0] 2 [0xDEADBEEFDEADBEEF; 0x123456789ABCDEF] 12345 = Ok c /\ hl_univariate_programmable_bootstrap f64_ext m ex_hw Release 8 3 2 16 1 c lut bskf = Ok r /\
    hl_keyswitch_lwe_to_lwe Release 4 4 16 2 r ksk = Ok c' /\ hl_decrypt_lwe Release 2 c' [1; 0] 1 = Ok (if msg <? 2 then 1 - msg else (- (1 - (msg - 2))) mod 2).
Proof.
  intros m msg Hm. destruct C107_meets as (HD & H1 & H2). destruct ex_ksk_rnd_ok as (Lk & Fk).
  destruct (C122_bootstrap_and_switch_back f64_ext 4 8 3 1 (2 ^ 37) ex_hw m Release 2 (zpoly 16) [1; 0] ex16_sk ex16_rnd ex_not (fun j => 1 - j) 1 (2 ^ 40) (2 ^ 20) msg
    [0xDEADBEEFDEADBEEF; 0x123456789ABCDEF] 12345 4 4 ex_ksk_rnd 32) as (bsk & bskf & ksk & lut & c & r & c' & G); try lia; try assumption; try reflexivity.
  - unfold add_exact; cbn; auto.
  - unfold sub_exact; cbn; auto.
  - unfold binary; repeat (constructor; auto).
  - split; [reflexivity|repeat constructor].
  - unfold binary_polys, binary, ex16_sk; repeat (constructor; auto).
  - exact ex16_rnd_ok.
  - intros j Hj. change (2 ^ 1) with 2 in *. unfold ex_not. split; [reflexivity|lia].
  - repeat constructor; unfold torus; lia.
  - exact ex_near12345.
  - exists bsk, bskf, ksk, lut, c, r, c'. destruct G as (G1 & G2 & G3 & G4 & G5 & G6 & G7 & _ & _ & G8). repeat (split; [assumption|]). exact G8.
Qed.
(** Circuit bootstrapping at degree 16, in double precision. *)
Example C122_circuit_bootstrap_instance : forall m b, 0 <= b < 2 ->
  exists bsk ak ssk bskf akf sskf c gf c0 c1 r,
    hl_generate_bootstrapping_key Release 6 5 2 16 1 [1; 0] ex16_sk (ex_rows 2 5) = Ok bsk /\ hl_generate_automorphism_key Release 6 5 16 1 ex16_sk [repeat 0 16] (ex_rows 1 5) = Ok ak /\
    hl_generate_scheme_switch_key f64_ext m ex_hw Release 5 6 16 1 ex16_sk (fun i => map (ex_glwe_rnd i 5) (seq 0 6)) = Ok ssk /\
    hl_fft_bootstrap_key f64_ext 5 2 16 1 bsk = Ok bskf /\ hl_fft_automorphism_key f64_ext 16 1 ak = Ok akf /\ hl_fft_scheme_switch_key f64_ext 6 16 1 ssk = Ok sskf /\
    hl_encrypt_lwe_secret 2 b [1; 0] 1 [0xDEADBEEFDEADBEEF; 0x123456789ABCDEF] 12345 = Ok c /\
    hl_circuit_bootstrap f64_ext m ex_hw Release 6 6 5 4 5 5 6 4 2 16 1 c bskf akf sskf
      {| lwe_a := [7; 7]; lwe_b := 9 |} (glwe_new 16 1) (repeat (glwe_new 16 1) 4) = Ok gf /\
    hl_encrypt_glwe 16 1 (ex_pt 0) ex16_sk 1 (fst (ex_glwe_rnd 1 0 0)) (snd (ex_glwe_rnd 1 0 0)) = Ok c0 /\
    hl_encrypt_glwe 16 1 (ex_pt 1) ex16_sk 1 (fst (ex_glwe_rnd 2 0 0)) (snd (ex_glwe_rnd 2 0 0)) = Ok c1 /\
    hl_cmux f64_ext m ex_hw Release 4 4 16 1 gf c0 c1 = Ok r /\ hl_decrypt_glwe Release 16 1 r ex16_sk 1 = Ok (if b =? 1 then ex_pt 1 else ex_pt 0).
Proof.
  intros m b Hb. destruct C109_errors as (HE & HX). destruct C109_noise as (H1 & H2). destruct (ex_pt_ok 0) as (L0 & F0). destruct (ex_pt_ok 1) as (L1 & F1).
  apply (C122_circuit_bootstrap f64_ext 4 6 6 5 4 5 5 6 4 1 (2 ^ 37) (2 ^ 48) ex_hw m Release 2 [repeat 0 16] (ex_rows 2 5) (ex_rows 1 5) (fun i => map (ex_glwe_rnd i 5) (seq 0 6))
    [0xDEADBEEFDEADBEEF; 0x123456789ABCDEF] 12345 {| lwe_a := [7; 7]; lwe_b := 9 |} (glwe_new 16 1) (repeat (glwe_new 16 1) 4) ex16_sk [1; 0] 8 8 8 (2 ^ 40) b
    (ex_pt 0) (ex_pt 1) 1 (ex_glwe_rnd 1 0 0) (ex_glwe_rnd 2 0 0) 8); try lia; try assumption; try reflexivity.
  - unfold add_exact; cbn; auto.
  - unfold sub_exact; cbn; auto.
  - split; [reflexivity|repeat constructor].
  - unfold binary_polys, binary, ex16_sk; repeat (constructor; auto).
  - unfold binary; repeat (constructor; auto).
  - intros i. apply ex_rows_ok.
  - split; [reflexivity|repeat constructor].
  - intros i. apply ex_rows_ok.
  - intros i. split; [reflexivity|]. apply Forall_forall. intros x Hx. apply in_map_iff in Hx as (c & <- & _). apply ex_glwe_rnd_ok.
  - apply glwe_new_wf. lia.
  - repeat constructor.
  - repeat constructor; unfold torus; lia.
  - exact ex_near12345.
  - apply ex_glwe_rnd_ok.
  - apply ex_glwe_rnd_ok.
Qed.

(** C122. The Fourier transforms of ciphertexts and keys refuse an input that does not hold the number of words its parameters call for: a GLWE ciphertext
    is (k + 1) N words, a GGSW ciphertext (k + 1) l of those, a bootstrap key one GGSW ciphertext per input key bit, a scheme-switch key k (k + 1) / 2 rows
    of l ciphertexts. (An input of the right total length but another structure is not told apart by the code: nothing is claimed about it.) *)
Definition glwe_words_held (c : glwe) : nat := (list_sum (map (@length Z) (ga c)) + length (gb c))%nat.
Definition glevs_words_held (g : list (list glwe)) : nat := list_sum (map (fun l => list_sum (map glwe_words_held l)) g).
Definition bsk_words_held (b : list (list (list glwe))) : nat := list_sum (map glevs_words_held b).
Lemma list_sum_const {A} (f : A -> nat) v l : (forall x, In x l -> f x = v) -> list_sum (map f l) = (length l * v)%nat.
Proof. induction l as [|x l IH]; intros H; [reflexivity|]. cbn [map list_sum fold_right length]. change (fold_right Nat.add 0%nat (map f l)) with (list_sum (map f l)).
  rewrite IH, (H x); [lia|now left|]. intros y Hy. apply H. now right. Qed.
Lemma glwe_valid_words N k c : glwe_valid N k c = true -> glwe_words_held c = ((k + 1) * N)%nat.
Proof. intros H. apply glwe_valid_iff in H as [[L F] B]. rewrite Forall_forall in F. unfold glwe_words_held. rewrite (list_sum_const _ N _ F), L, B. lia. Qed.
Lemma glevs_valid_words N k count g : forallb (glev_valid N k count) g = true -> glevs_words_held g = (length g * (count * ((k + 1) * N)))%nat.
Proof. intros H. rewrite forallb_forall in H. apply list_sum_const. intros l Hl. specialize (H l Hl). unfold glev_valid in H.
  apply andb_true_iff in H as [L F]. apply Nat.eqb_eq in L. rewrite forallb_forall in F. rewrite <- L. apply list_sum_const. intros c Hc. now apply glwe_valid_words, F. Qed.
Lemma ggsw_valid_words N k count g : ggsw_valid N k count g = true -> glevs_words_held g = ((k + 1) * (count * ((k + 1) * N)))%nat.
Proof. intros H. apply andb_true_iff in H as [L F]. apply Nat.eqb_eq in L. rewrite (glevs_valid_words _ _ _ _ F), L. reflexivity. Qed.
Theorem C122_transform_refuses : forall X count n N k,
  (forall c, glwe_words_held c <> ((k + 1) * N)%nat -> hl_fft_glwe X N k c = Panic) /\
  (forall g, glevs_words_held g <> ((k + 1) * (count * ((k + 1) * N)))%nat -> hl_fft_ggsw X count N k g = Panic) /\
  (forall b, bsk_words_held b <> (n * ((k + 1) * (count * ((k + 1) * N))))%nat -> hl_fft_bootstrap_key X count n N k b = Panic) /\
  (forall s, glevs_words_held s <> (k * (k + 1) / 2 * (count * ((k + 1) * N)))%nat -> hl_fft_scheme_switch_key X count N k s = Panic).
Proof.
  intros X count n N k. repeat split.
  - intros c H. unfold hl_fft_glwe, glwe_to_fft. destruct (glwe_valid N k c) eqn:E; [|reflexivity]. now apply glwe_valid_words in E.
  - intros g H. unfold hl_fft_ggsw, ggsw_to_fft. destruct (ggsw_valid N k count g) eqn:E; [|reflexivity]. now apply ggsw_valid_words in E.
  - intros b H. unfold hl_fft_bootstrap_key, bsk_to_fft. destruct (bsk_valid n N k count b) eqn:E; [|reflexivity]. exfalso. apply H.
    apply andb_true_iff in E as [L F]. apply Nat.eqb_eq in L. rewrite forallb_forall in F. rewrite <- L. apply list_sum_const. intros g Hg. now apply ggsw_valid_words, F.
  - intros s H. unfold hl_fft_scheme_switch_key, ssk_to_fft. destruct (ssk_valid N k count s) eqn:E; [|reflexivity]. exfalso. apply H.
    apply andb_true_iff in E as [L F]. apply Nat.eqb_eq in L. unfold tri_count in L. rewrite (glevs_valid_words _ _ _ _ F), L. reflexivity.
Qed.
Print Assumptions C122_transform_refuses.
(** A bootstrap key with one row too few, for n = 2: 48 words instead of 96. *)
Example C122_transform_refuses_applies : forall X, hl_fft_bootstrap_key X 2 2 6 1 [ggsw_new 6 1 2] = Panic.
Proof. intros X. apply (proj1 (proj2 (proj2 (C122_transform_refuses X 2 2 6 1)))). vm_compute. discriminate. Qed.
