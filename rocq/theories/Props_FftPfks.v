(** C129, C130: public functional key switching, and circuit bootstrapping through private functional key switching, computed through the
    floating-point FFT. *)
From Coq Require Import Reals ZArith List Lia Lra Bool.
From Coquelicot Require Import Complex.
From Verif Require Import Base Alu AluProofs MuxGraph MuxGraphProofs PolyRing Tfhe TfheGlwe TfheBoot TfheTrace TfheSwitch TfheCbs TfhePfks SpecTfhe SpecGlwe SpecBoot SpecTrace SpecSwitch SpecCbs SpecPfks
  FluentIntProofs TfheProofs TfheProofs2 TfheProofs3 TfheGlweProofs TfheGlweProofs2 TfheGlweProofs3 TfheGlweProofs4 TfheBootProofs TfheBootProofs2 TfheBootProofs3 TfheBootProofs4
  TfhePfksProofs TfhePfksProofs2 TfhePfksProofs3 Props_Boot Props_Pfks.
From Verif Require Import Fft FftGlwe FftCbs FftPfks SpecFft SpecFftGlwe SpecFftCbs FftProofs FftProofs5 FftProofs6 FftFloat FftBound FftGlweProofs FftGlweProofs2 FftGlweProofs3
  FftRep FftCbsProofs FftCbsProofs2 FftCbsProofs3 FftPfksProofs Props_Fft Props_FftGlwe Props_FftCbs.
Import ListNotations.
Ltac Zify.zify_post_hook ::= idtac.
Open Scope Z_scope.

(** C129. A public functional key switch through the floating-point FFT - each row of the key is transformed, the products accumulate in Fourier form - is the integer
    key switch with an error of at most [D] per coefficient added to its sum of products: same results, same refusals. *)
Theorem C129_public_keyswitch_fft_refines : forall X lg w log count n k D x86 m pr f out inputs key scp,
  (1 <= lg <= 12)%nat -> (x86 = true -> (4 <= lg)%nat) -> word w -> 1 <= log -> (1 <= count)%nat -> log * Z.of_nat count < w ->
  products_error_at_most X lg w log (n * count) D ->
  length key = n -> glevs_wf w (2 ^ lg) k count key -> Forall (lwe_wf w n) inputs ->
  (forall old x, poly_wf w (2 ^ lg) old -> length x = length inputs -> toruses w x -> poly_wf w (2 ^ lg) (f old x)) -> poly_wf w (2 ^ lg) scp ->
  exists d, SpecBoot.fft_err (2 ^ lg) k D d /\
    pufks_freq X x86 m pr w log count n (2 ^ lg) k f out inputs key scp = pufks pr w log count n (2 ^ lg) k f out inputs key scp d.
Proof.
  intros X lg w log count n k D x86 m pr f out inputs key scp Hlg Hx Hw Hl Hc Hs (HD0 & u & eta & tau & delta & Hr & Hac & HD) Lk Fk Wi Hf Ws.
  set (h := {| hw_x86 := x86; hw_avx2 := false; hw_fma := false; hw_512f := false; hw_512dq := false |}).
  destruct (size lg h Hlg Hx) as (EN & Hn & Hp2 & H4096 & Hm8). rewrite <- EN in *. rewrite key_bound_fft in HD.
  exact (pufks_refines X _ u eta tau delta Hac Hn w Hw Hp2 H4096 x86 m Hm8 k pr log count Hl Hc Hs Hr D HD0 n f out inputs key scp HD Lk Fk Wi Hf Ws).
Qed.
Print Assumptions C129_public_keyswitch_fft_refines.

(** With a key that encrypts the LWE key and a map that writes every coefficient, it applies the morphism F homomorphically. *)
Theorem C129_public_keyswitch_fft_correct : forall X lg w log count n k D x86 m pr f F out inputs key scp s sk E,
  (1 <= lg <= 12)%nat -> (x86 = true -> (4 <= lg)%nat) -> word w -> (1 <= k)%nat -> 1 <= log -> (1 <= count)%nat -> log * Z.of_nat count < w ->
  products_error_at_most X lg w log (n * count) D ->
  glevs_wf w (2 ^ lg) k count key -> Forall (lwe_wf w n) inputs -> (length inputs <= 2 ^ lg)%nat ->
  morphism (2 ^ lg) w (length inputs) F -> (forall old x, poly_wf w (2 ^ lg) old -> length x = length inputs -> toruses w x -> f old x = F x) ->
  glwe_shape (2 ^ lg) k out -> poly_wf w (2 ^ lg) scp ->
  0 <= E -> binary s -> length s = n -> polys_shape (2 ^ lg) k sk -> binary_polys sk -> pufksk_enc (2 ^ lg) k count w log E s sk key ->
  exists r, pufks_freq X x86 m pr w log count n (2 ^ lg) k f out inputs key scp = Ok r /\ glwe_wf w (2 ^ lg) k r /\
    pnear (2 ^ lg) w (pufks_noise n (2 ^ lg) k count w log E D) (glwe_phase (2 ^ lg) sk r) (coef (F (phases w s inputs))).
Proof.
  intros X lg w log count n k D x86 m pr f F out inputs key scp s sk E Hlg Hx Hw Hk Hl Hc Hs Herr Fk Wi Li HF HfF So Ws HE Hb Ls Hsk Hbin Henc.
  assert (Lk : length key = n) by (rewrite <- Ls; symmetry; exact (Forall2_len _ _ _ Henc)).
  assert (Hf : forall old x, poly_wf w (2 ^ lg) old -> length x = length inputs -> toruses w x -> poly_wf w (2 ^ lg) (f old x)).
  { intros old x Wo Lx Tx. rewrite HfF by assumption. now apply (proj1 HF). }
  destruct (C129_public_keyswitch_fft_refines X lg w log count n k D x86 m pr f out inputs key scp Hlg Hx Hw Hl Hc Hs Herr Lk Fk Wi Hf Ws) as (d & Hd & E1).
  rewrite E1. apply public_keyswitch_correct; try assumption; [now apply dim_pow|apply Herr].
Qed.
Print Assumptions C129_public_keyswitch_fft_correct.

(** Generated public key-switch keys are machine words. *)
Lemma pufks_key_loop_wf N w pr log count k sk E : word w -> is_pow2 N = true -> 1 <= log -> log * Z.of_nat count <= w -> polys_shape N k sk -> 0 <= E -> (1 <= N)%nat ->
  forall ss glevs rnd pt gs, length glevs = length ss -> length rnd = length ss ->
    Forall (fun g => length g = count /\ Forall (glwe_fresh N k) g) glevs -> Forall (fun r => length r = count /\ Forall (glwe_rnd_ok N k w E) r) rnd ->
    length pt = N -> (forall i, (1 <= i < N)%nat -> nth i pt 0 = 0) ->
    pufks_key_loop pr w log N sk ss pt glevs rnd = Ok gs -> glevs_wf w N k count gs.
Proof.
  intros Hw Hp Hl Hlc Hs HE HN. induction ss as [|s ss IH]; intros [|g glevs] [|r rnd] pt gs Lg Lr Fg Fr Lp Zp; cbn [length] in *; try lia; cbn [pufks_key_loop].
  - intros Q. injection Q as <-. constructor.
  - apply Forall_cons_iff in Fg as [[Lg1 Fg1] Fg]. apply Forall_cons_iff in Fr as [[Lr1 Fr1] Fr].
    destruct (pufks_glev_loop_ok N w pr log k sk s E Hw Hp Hl Hs HE HN g r 0 pt) as (g1 & pt1 & E1 & L1 & W1 & Lp1 & Zp1 & P1); try assumption.
    { cbn [plus]. now rewrite Lg1. } { congruence. }
    rewrite E1. cbn [bind]. destruct (pufks_key_loop pr w log N sk ss pt1 glevs rnd) as [gs'| |] eqn:E2; try discriminate. cbn [bind]. intros Q. injection Q as <-.
    constructor; [split; [congruence|exact W1]|]. apply (IH glevs rnd pt1 gs'); try assumption; lia.
Qed.
Lemma generate_pufksk_wf pr w log count n N k key s sk rnd E key' : word w -> glwe_dim_valid N k = true -> 1 <= log -> (1 <= count)%nat -> log * Z.of_nat count <= w ->
  length s = n -> polys_shape N k sk -> 0 <= E ->
  length key = n -> Forall (fun g => length g = count /\ Forall (glwe_fresh N k) g) key -> length rnd = n -> Forall (fun r => length r = count /\ Forall (glwe_rnd_ok N k w E) r) rnd ->
  generate_pufksk pr w log count n N k key s sk rnd = Ok key' -> glevs_wf w N k count key'.
Proof.
  intros Hw Hdim Hl Hc Hlc Ls Hsk HE Lk Fk Lr Fr. destruct (dim_valid N k Hdim) as (HP & HN0 & Hk). unfold generate_pufksk. destruct (_ && _); [|discriminate].
  apply (pufks_key_loop_wf N w pr log count k sk E); try assumption; try lia. { apply zpoly_len. } { intros i _. unfold zpoly. apply nth_repeat. }
Qed.

(** End to end: generate the key, switch encryptions of p-bit messages, decrypt: F of the messages, if F is Lipschitz and maps the encoded messages to an encoded polynomial. *)
Theorem C129_public_keyswitch_fft_end_to_end : forall X lg w log count n k D x86 m pr f F R B out inputs ms pt p key0 scp s sk rnd E,
  (1 <= lg <= 12)%nat -> (x86 = true -> (4 <= lg)%nat) -> word w -> (1 <= k)%nat -> 1 <= log -> (1 <= count)%nat -> log * Z.of_nat count < w ->
  products_error_at_most X lg w log (n * count) D ->
  binary s -> length s = n -> polys_shape (2 ^ lg) k sk -> binary_polys sk -> 0 <= E ->
  length key0 = n -> Forall (fun g => length g = count /\ Forall (glwe_fresh (2 ^ lg) k) g) key0 ->
  length rnd = n -> Forall (fun r => length r = count /\ Forall (glwe_rnd_ok (2 ^ lg) k w E) r) rnd ->
  0 < p < w -> p < 32 -> 0 <= B -> Forall2 (fun c msg => lwe_wf w n c /\ near w B (lwe_phase s c) (msg * 2 ^ (w - p))) inputs ms -> (length inputs <= 2 ^ lg)%nat ->
  morphism (2 ^ lg) w (length inputs) F -> lipschitz (2 ^ lg) w (length inputs) R F ->
  (forall old x, poly_wf w (2 ^ lg) old -> length x = length inputs -> toruses w x -> f old x = F x) ->
  length pt = (2 ^ lg)%nat -> peq (2 ^ lg) (2 ^ w) (coef (F (map (fun msg => (msg * 2 ^ (w - p)) mod 2 ^ w) ms))) (pscale (2 ^ (w - p)) (coef pt)) ->
  pufks_noise n (2 ^ lg) k count w log E D + R * B < 2 ^ (w - p - 1) ->
  glwe_shape (2 ^ lg) k out -> poly_wf w (2 ^ lg) scp ->
  exists key r, generate_pufksk pr w log count n (2 ^ lg) k key0 s sk rnd = Ok key /\
    pufks_freq X x86 m pr w log count n (2 ^ lg) k f out inputs key scp = Ok r /\
    glwe_decrypt_decode pr w (2 ^ lg) k sk r p = Ok (map (fun x => x mod 2 ^ p) pt).
Proof.
  intros X lg w log count n k D x86 m pr f F R B out inputs ms pt p key0 scp s sk rnd E Hlg Hx Hw Hk Hl Hc Hs Herr Hb Ls Hsk Hbin HE Lk Fk Lr Fr Hp Hp' HB0 Him Li HF HL HfF Lpt Hpt Hnoise So Ws.
  assert (Hdim : glwe_dim_valid (2 ^ lg) k = true) by now apply dim_pow. destruct (dim_valid _ _ Hdim) as (HP & HN0 & _). pose proof (word_pos w Hw) as Wp.
  destruct (public_keyswitch_key_correct pr w log count n (2 ^ lg) k key0 s sk rnd E) as (key & E1 & P1); try assumption; try lia.
  assert (Wk : glevs_wf w (2 ^ lg) k count key) by (apply (generate_pufksk_wf pr w log count n (2 ^ lg) k key0 s sk rnd E key); try assumption; lia).
  assert (Wi : Forall (lwe_wf w n) inputs) by (clear - Him; induction Him as [|? ? ? ? [A _]]; constructor; assumption).
  destruct (C129_public_keyswitch_fft_correct X lg w log count n k D x86 m pr f F out inputs key scp s sk E) as (r & E2 & W2 & P2); try assumption.
  exists key, r. split; [exact E1|]. split; [exact E2|].
  apply (glwe_decode_ok (2 ^ lg) w pr k sk r p pt (pufks_noise n (2 ^ lg) k count w log E D + R * B)); try assumption.
  eapply pnear_trans; [exact P2|]. eapply pnear_peq; [reflexivity|exact Hpt|].
  assert (Lm : length inputs = length ms) by exact (Forall2_len _ _ _ Him).
  assert (T : forall {A} (g : A -> Z) (l : list A), toruses w (map (fun a => g a mod 2 ^ w) l)).
  { intros A g l. apply Forall_forall. intros y Hy. apply in_map_iff in Hy as (a & <- & _). apply Z.mod_pos_bound, pow_pos'. lia. }
  apply HL; try assumption.
  { unfold phases. apply map_length. } { now rewrite map_length. } { unfold phases. apply T. } { apply T. }
  intros i Hi. unfold phases. clear - Him Hi Wp. revert i Hi. induction Him as [|c msg inputs ms [_ Hn] Him IH]; intros [|i] Hi; cbn [length] in Hi; try lia; cbn [map nth].
  - eapply near_congr; [symmetry; apply zeq_mod|symmetry; apply zeq_mod|exact Hn].
  - apply IH. lia.
Qed.
Print Assumptions C129_public_keyswitch_fft_end_to_end.

(** C130. Circuit bootstrapping through private functional key switching with the bootstrap key in Fourier form: the integer circuit bootstrap for some
    errors of at most [D] in its products. *)
Theorem C130_circuit_bootstrap_pfks_fft_refines : forall X lg w lp lf log cp cf count k D h m pr n N1 k1 out input bsk keys scr scg ex scl,
  (1 <= lg <= 12)%nat -> (hw_x86 h = true -> (4 <= lg)%nat) -> word w -> 1 <= lp -> (1 <= cp)%nat -> lp * Z.of_nat cp < w -> 1 <= log ->
  fft_error_at_most X lg w lp cp k D -> length bsk = n -> Forall (ggsw_wf w (2 ^ lg) k cp) bsk ->
  exists bskf ds, bsk_to_fft X w n (2 ^ lg) k cp bsk = Ok bskf /\ (forall i, SpecBoot.fft_err (2 ^ lg) k D (ds i)) /\
    circuit_bootstrap_pfks_freq X m h pr w lp lf log cp cf count n (2 ^ lg) k N1 k1 out input bskf keys scr scg ex scl =
    circuit_bootstrap_pfks h pr w lp lf log cp cf count n (2 ^ lg) k N1 k1 out input bsk keys scr scg ex scl ds.
Proof.
  intros X lg w lp lf log cp cf count k D h m pr n N1 k1 out input bsk keys scr scg ex scl Hlg Hx Hw Hlp Hcp Hlcp Hl (HD0 & u & eta & tau & delta & Hr & Hac & HD) Lb Fb. size Hlg Hx.
  destruct (bsk_to_fft_ok X _ u eta tau delta Hac Hn w Hw Hp2 H4096 h m Hm8 k pr lp cp Hlp Hcp Hlcp Hr D HD HD0 n bsk Lb Fb) as (bskf & E1 & _).
  destruct (cbs_pfks_refines X _ u eta tau delta Hac Hn w Hw Hp2 H4096 h m Hm8 k pr Hr D HD0 lp lf log cp cf count Hlp Hcp Hlcp Hl HD n N1 k1 out input bsk bskf keys scr scg ex scl Lb Fb E1) as (ds & Hds & E2).
  exists bskf, ds. auto.
Qed.
Print Assumptions C130_circuit_bootstrap_pfks_fft_refines.

(** End to end through the floating-point FFT: generate the keys, transform the bootstrap key, encrypt a bit, circuit bootstrap it into a fresh ciphertext under another
    key of another degree, transform the result, use it as selector of a CMUX and decrypt: the message of the selected ciphertext. *)
Theorem C130_circuit_bootstrap_pfks_fft_end_to_end : forall X lg2 lg1 w lp lf log cp cf count k2 k1 D D4 h m pr n bsk0 keys0 rb rf mask e scr scg ex scl sk1 sk2 s Eb Ef B b out x0 x1 p pt E0,
  let N2 := (2 ^ lg2)%nat in let N1 := (2 ^ lg1)%nat in let L := Z.of_nat lg2 + 1 in
  (1 <= lg2 <= 12)%nat -> (1 <= lg1 <= 12)%nat -> (hw_x86 h = true -> (4 <= lg1)%nat /\ (4 <= lg2)%nat) -> word w -> (1 <= k2)%nat -> (1 <= k1)%nat ->
  add_exact h pr w -> sub_exact h pr w -> smad_exact h pr w N1 -> 0 <= Eb -> 0 <= Ef ->
  1 <= lp -> (1 <= cp)%nat -> lp * Z.of_nat cp < w -> 1 <= lf -> (1 <= cf)%nat -> lf * Z.of_nat cf < w ->
  1 <= log -> (1 <= count < 8)%nat -> log * Z.of_nat count + 1 < w ->
  fft_error_at_most X lg2 w lp cp k2 D -> fft_error_at_most X lg1 w log count k1 D4 ->
  (1 <= n)%nat -> polys_shape N2 k2 sk2 -> binary_polys sk2 -> polys_shape N1 k1 sk1 -> binary_polys sk1 -> binary s -> length s = n ->
  length bsk0 = n -> Forall (fun g => length g = S k2 /\ Forall (fun r => length r = cp /\ Forall (glwe_fresh N2 k2) r) g) bsk0 -> (forall i, ggsw_rnd_ok N2 k2 cp w Eb (rb i)) ->
  length keys0 = S k1 -> Forall (fun key => length key = (k2 * N2 + 1)%nat /\ Forall (fun g => length g = cf /\ Forall (glwe_fresh N1 k1) g) key) keys0 ->
  (forall i, length (rf i) = (k2 * N2 + 1)%nat /\ Forall (fun r => length r = cf /\ Forall (glwe_rnd_ok N1 k1 w Ef) r) (rf i)) ->
  length (lwe_a scr) = n -> glwe_shape N2 k2 scg -> length (lwe_a ex) = (k2 * N2)%nat ->
  length scl = count -> Forall (fun o => length (lwe_a o) = (k2 * N2)%nat) scl ->
  0 <= B -> B + (Z.of_nat n + 1) * 2 ^ (w - L + Z.of_nat (log_slots count) - 1) < 2 ^ (w - 2) ->
  length mask = n -> toruses w mask -> near w B e 0 -> 0 <= b < 2 ->
  glwe_shape N1 k1 out -> glwe_wf w N1 k1 x0 -> glwe_wf w N1 k1 x1 -> 0 < p < w -> p < 32 -> length pt = N1 ->
  pnear N1 w E0 (glwe_phase N1 sk1 (if b =? 1 then x1 else x0)) (pscale (2 ^ (w - p)) (coef pt)) ->
  cmux_noise N1 k1 count w log (pfks_noise (k2 * N2) 1 cf w lf 1 Ef + Z.of_nat n * cmux_noise N2 k2 cp w lp Eb D) D4 + E0 < 2 ^ (w - p - 1) ->
  exists bsk keys bskf c g gf r, generate_bsk pr w lp cp n N2 k2 bsk0 s sk2 rb = Ok bsk /\
    generate_cbsksk pr w lf cf (k2 * N2) N1 k1 keys0 (to_lwe_sk sk2) sk1 rf = Ok keys /\ bsk_to_fft X w n N2 k2 cp bsk = Ok bskf /\ lwe_sk_encrypt w n s b 1 mask e = Ok c /\
    circuit_bootstrap_pfks_freq X m h pr w lp lf log cp cf count n N2 k2 N1 k1 (ggsw_new N1 k1 count) c bskf keys scr scg ex scl = Ok g /\
    ggsw_to_fft X w N1 k1 count g = Ok gf /\
    cmux_fft X m h pr w log count N1 k1 out x0 x1 gf = Ok r /\
    glwe_decrypt_decode pr w N1 k1 sk1 r p = Ok (map (fun x => x mod 2 ^ p) pt).
Proof.
  intros X lg2 lg1 w lp lf log cp cf count k2 k1 D D4 h m pr n bsk0 keys0 rb rf mask e scr scg ex scl sk1 sk2 s Eb Ef B b out x0 x1 p pt E0 N2 N1 L Hlg2 Hlg1 Hx Hw Hk2 Hk1
    Hadd Hsub Hsm HEb HEf Hlp Hcp Hlcp Hlf Hcf Hlcf Hl Hcnt Hlc HD HD4 Hn Hsk2 Hb2 Hsk1 Hb1 Hs Ls Lb Fb Hrb Lk Fk Hrf Hscr Hscg Hex Lscl Fscl HB HBn Lm Tm He Hb Hout W0 W1 Hp Hp' Lp Hpt Hnoise.
  assert (Hd2 : glwe_dim_valid N2 k2 = true) by now apply dim_pow. assert (Hd1 : glwe_dim_valid N1 k1 = true) by now apply dim_pow.
  destruct (dim_valid N2 k2 Hd2) as (HP2 & HN2 & _). destruct (dim_valid N1 k1 Hd1) as (HP1 & HN1 & _).
  assert (EL : Z.of_nat (Nat.log2 N2) + 1 = L) by (unfold N2, L; rewrite Nat.log2_pow2 by lia; reflexivity).
  assert (HLw : L < w) by (unfold L; destruct Hw; subst w; lia).
  destruct (generate_bsk_ok N2 w pr lp cp k2 Hw Hd2 Hlp Hcp Hlcp n bsk0 s sk2 Eb rb Hn Hs Ls Hsk2 HEb Lb Fb Hrb) as (bsk & E1 & P1).
  destruct (generate_bsk_wf pr w lp cp n N2 k2 bsk0 s sk2 rb Eb bsk Hw Hd2 Hlp Hcp Hlcp Hs Ls Hsk2 Lb Fb HEb Hrb E1) as (Lb' & Wb).
  assert (Ll : length (to_lwe_sk sk2) = (k2 * N2)%nat).
  { unfold to_lwe_sk. destruct Hsk2 as [A C]. subst k2. clear - C. induction C; cbn [concat length]; [reflexivity|]. rewrite app_length. lia. }
  destruct (circuit_bootstrap_pfks_keys_correct pr w lf cf (k2 * N2) N1 k1 keys0 (to_lwe_sk sk2) sk1 rf Ef) as (keys & E2 & P2); try assumption; try nia.
  destruct (lwe_sk_encrypt_near w n s b 1 mask e B Hw Hn Ls Lm Tm ltac:(destruct Hw; lia) He) as (c & E4 & W4 & P4).
  destruct (C130_circuit_bootstrap_pfks_fft_refines X lg2 w lp lf log cp cf count k2 D h m pr n N1 k1 (ggsw_new N1 k1 count) c bsk keys scr scg ex scl) as (bskf & ds & E3 & Hds & E5); try assumption.
  { intros Q. apply Hx, Q. }
  fold N2 in E5, E3.
  pose proof (circuit_bootstrap_pfks_correct h pr w lp lf log cp cf count n N2 k2 N1 k1 c bsk keys scr scg ex scl ds D sk1 sk2 s Eb Ef B b) as U.
  cbv zeta in U. rewrite EL in U. destruct U as (g & Eg & Vg & Wg & Pg); try assumption. { apply HD. }
  rewrite Eg in E5.
  assert (WG : ggsw_wf w N1 k1 count g).
  { apply ggsw_valid_iff in Vg as [A1 A2]. split; [exact A1|]. rewrite Forall_forall in *. intros r0 Hr0. split; [apply (A2 r0 Hr0)|exact (Wg r0 Hr0)]. }
  destruct (C106_cmux_fft_correct X lg1 w log count k1 D4 h m pr out x0 x1 g Hlg1 (fun Q => proj1 (Hx Q)) Hw Hl ltac:(lia) ltac:(lia) Hk1 Hadd Hsub HD4 Hout W0 W1 WG) as (gf & r & Egf & Er & Wr & Pr).
  exists bsk, keys, bskf, c, g, gf, r. do 7 (split; [assumption|]).
  set (NZ := pfks_noise (k2 * N2) 1 cf w lf 1 Ef + Z.of_nat n * cmux_noise N2 k2 cp w lp Eb D) in *.
  assert (HE : 0 <= NZ).
  { destruct Pg as (A1 & A2 & _ & A4). destruct (nth_error g k1) as [row|] eqn:Err; [|apply nth_error_None in Err; lia].
    pose proof (proj1 (Forall_forall _ _) A2 row (nth_error_In _ _ Err)) as Lr. cbv beta in Lr. destruct (nth_error row 0) as [y|] eqn:Ey; [|apply nth_error_None in Ey; lia].
    destruct (A4 row eq_refl 0%nat y Ey) as (_ & (ee & Be & _)). specialize (Be 0%nat HN1). pose proof (Z.abs_nonneg (ee 0%nat)). lia. }
  apply (glwe_decode_ok N1 w pr k1 sk1 r p pt (cmux_noise N1 k1 count w log NZ D4 + E0)); try assumption.
  eapply pnear_trans; [apply (Pr sk1 b NZ); try assumption; lia|]. destruct (b =? 1); exact Hpt.
Qed.
Print Assumptions C130_circuit_bootstrap_pfks_fft_end_to_end.

(** ** Concrete cases, in double precision at degree 16.

    The packing map: p messages into the low coefficients, 0 above. It is a 1-Lipschitz morphism. *)
Definition packed (N : nat) (x : list Z) : list Z := x ++ repeat 0 (N - length x).
Lemma packed_nth N x i : nth i (packed N x) 0 = nth i x 0.
Proof. unfold packed. destruct (Nat.lt_ge_cases i (length x)) as [H|H]; [now apply app_nth1|]. rewrite app_nth2, nth_repeat, nth_overflow by lia. reflexivity. Qed.
Lemma packed_morphism N w p : 0 <= w -> (p <= N)%nat -> morphism N w p (packed N).
Proof.
  intros Hw Hp. split.
  - intros x L T. unfold packed. split; [rewrite app_length, repeat_length; lia|]. apply Forall_app. split; [exact T|]. apply Forall_forall. intros y Hy. apply repeat_spec in Hy. subst. split; [lia|]. now apply pow_pos'.
  - intros x y z Lx Ly Lz _ _ _ H i Hi. unfold coef, padd. rewrite !packed_nth. destruct (Nat.lt_ge_cases i p) as [Hip|Hip]; [exact (H i Hip)|]. rewrite !nth_overflow by lia. reflexivity.
Qed.
Lemma packed_lipschitz N w p : lipschitz N w p 1 (packed N).
Proof.
  intros E x y HE Lx Ly _ _ H.
  destruct (list_choice 0 (fun i d => Z.abs d <= E /\ zeq (2 ^ w) (nth i x 0) (nth i y 0 + d)) p) as (d & Ld & Hd).
  { intros i Hi. destruct (H i Hi) as (e & B & Q). exists e. split; assumption. }
  exists (fun i => nth i d 0). split.
  - intros i Hi. cbv beta. destruct (Nat.lt_ge_cases i p) as [Hip|Hip]; [rewrite Z.mul_1_l; now apply Hd|]. rewrite nth_overflow by lia. cbn [Z.abs]. lia.
  - intros i Hi. unfold padd, coef. rewrite !packed_nth. destruct (Nat.lt_ge_cases i p) as [Hip|Hip]; [now apply Hd|]. rewrite !nth_overflow by lia. reflexivity.
Qed.

Lemma C129_meets : products_error_at_most f64_ext 4 64 10 (2 * 4) (2 ^ 42) /\ pufks_noise 2 16 1 4 64 10 8 (2 ^ 42) + 1 * 2 ^ 20 < 2 ^ (64 - 3 - 1) /\
  fft_error_at_most f64_ext 4 64 8 3 1 (2 ^ 37) /\ fft_error_at_most f64_ext 4 64 4 4 1 (2 ^ 40) /\
  2 ^ 40 + (Z.of_nat 2 + 1) * 2 ^ (64 - 5 + Z.of_nat (log_slots 4) - 1) < 2 ^ (64 - 2) /\
  cmux_noise 16 1 4 64 4 (pfks_noise (1 * 16) 1 3 64 14 1 8 + Z.of_nat 2 * cmux_noise 16 1 3 64 8 8 (2 ^ 37)) (2 ^ 40) + 0 < 2 ^ (64 - 1 - 1).
Proof.
  destruct (C104_double_precision 4 ltac:(lia)) as (Hr & Hac).
  split; [|split; [vm_compute; reflexivity|split; [|split; [|split; vm_compute; reflexivity]]]].
  all: split; [lia|]; do 4 eexists; split; [exact Hr|]; split; [exact Hac|]; change (2 ^ (4 - 1))%nat with (Pos.to_nat 8); apply (bound_eval 8 0 0); [apply (ub_const 0); lia|lia|lia|]; vm_compute; discriminate.
Qed.

(** Two 3-bit messages, packed whatever the output and the scratch polynomial held. *)
Definition ex_in (a msg : Z) : lwe := {| lwe_a := [a; 0x123456789ABCDEF]; lwe_b := (a + msg * 2 ^ 61 + 12345) mod 2 ^ 64 |}.
Example C129_instance : forall x86 m out scp m1 m2, glwe_shape 16 1 out -> poly_wf 64 16 scp -> 0 <= m1 < 8 -> 0 <= m2 < 8 ->
  exists key r, generate_pufksk Release 64 10 4 2 16 1 (repeat (repeat (glwe_new 16 1) 4) 2) [1; 0] ex16_sk (ex_rows 2 4 0) = Ok key /\
    pufks_freq f64_ext x86 m Release 64 10 4 2 16 1 (fun _ => packed 16) out [ex_in 0xDEADBEEFDEADBEEF m1; ex_in 0xFEDCBA9876543210 m2] key scp = Ok r /\
    glwe_decrypt_decode Release 64 16 1 ex16_sk r 3 = Ok ([m1; m2] ++ repeat 0 14).
Proof.
  intros x86 m out scp m1 m2 So Ws H1 H2. destruct C129_meets as (HD & Hn & _). pose proof (ex_rows_ok 2 4 0) as (R1 & R2).
  assert (Hin : forall a msg, 0 <= a < 2 ^ 64 -> lwe_wf 64 2 (ex_in a msg) /\ near 64 (2 ^ 20) (lwe_phase [1; 0] (ex_in a msg)) (msg * 2 ^ (64 - 3))).
  { intros a msg Ha. unfold ex_in. split.
    - split; [reflexivity|]. split; [repeat constructor; unfold torus; lia|]. apply Z.mod_pos_bound. lia.
    - exists 12345. split; [cbn [Z.abs]; lia|]. unfold lwe_phase. cbn [lwe_a lwe_b dotz]. change (64 - 3) with 61.
      transitivity ((a + msg * 2 ^ 61 + 12345) - (a * 1 + (0x123456789ABCDEF * 0 + 0))); [apply zeq_sub; [apply zeq_mod|reflexivity]|apply zeq_refl'; ring]. }
  replace ([m1; m2] ++ repeat 0 14) with (map (fun x => x mod 2 ^ 3) (packed 16 [m1; m2])).
  2:{ unfold packed. rewrite map_app. cbn [map length repeat Nat.sub]. rewrite !Z.mod_small by lia. reflexivity. }
  apply (C129_public_keyswitch_fft_end_to_end f64_ext 4 64 10 4 2 1 (2 ^ 42) x86 m Release (fun _ => packed 16) (packed 16) 1 (2 ^ 20) out _ [m1; m2] (packed 16 [m1; m2]) 3
    (repeat (repeat (glwe_new 16 1) 4) 2) scp [1; 0] ex16_sk (ex_rows 2 4 0) 8); try lia; try assumption; try reflexivity.
  - now right.
  - unfold binary; repeat (constructor; auto).
  - split; [reflexivity|repeat constructor].
  - unfold binary_polys, binary, ex16_sk; repeat (constructor; auto).
  - unfold glwe_new, zpoly, glwe_fresh, glwe_shape, polys_shape. repeat constructor.
  - constructor; [apply Hin; lia|]. constructor; [apply Hin; lia|constructor].
  - cbn [length]. change (2 ^ 4)%nat with 16%nat. lia.
  - apply packed_morphism; [lia|]. cbn [length]. change (2 ^ 4)%nat with 16%nat. lia.
  - apply packed_lipschitz.
  - intros i Hi. change (2 ^ 4)%nat with 16%nat in *. unfold coef, pscale. rewrite !packed_nth. destruct i as [|[|i]]; cbn [map nth].
    + change (64 - 3) with 61. etransitivity; [apply zeq_mod|]. apply zeq_refl'. ring.
    + change (64 - 3) with 61. etransitivity; [apply zeq_mod|]. apply zeq_refl'. ring.
    + destruct i; apply zeq_refl'; ring.
Qed.

(** Circuit bootstrap between two keys; either bit selects the right message. *)
Example C130_instance : forall m b, 0 <= b < 2 ->
  exists bsk keys bskf c g gf r, generate_bsk Release 64 8 3 2 16 1 (repeat (ggsw_new 16 1 3) 2) [1; 0] ex16_sk (ex_rows 2 3) = Ok bsk /\
    generate_cbsksk Release 64 14 3 16 16 1 (repeat (repeat (repeat (glwe_new 16 1) 3) 17) 2) (to_lwe_sk ex16_sk) [repeat 1 16] (ex_rows 17 3) = Ok keys /\
    bsk_to_fft f64_ext 64 2 16 1 3 bsk = Ok bskf /\ lwe_sk_encrypt 64 2 [1; 0] b 1 [0xDEADBEEFDEADBEEF; 0x123456789ABCDEF] 12345 = Ok c /\
    circuit_bootstrap_pfks_freq f64_ext m ex_hw Release 64 8 14 4 3 3 4 2 16 1 16 1 (ggsw_new 16 1 4) c bskf keys
      {| lwe_a := [7; 7]; lwe_b := 9 |} {| ga := [repeat 3 16]; gb := repeat 5 16 |} {| lwe_a := repeat 3 16; lwe_b := 4 |} (repeat {| lwe_a := repeat 5 16; lwe_b := 6 |} 4) = Ok g /\
    ggsw_to_fft f64_ext 64 16 1 4 g = Ok gf /\
    cmux_fft f64_ext m ex_hw Release 64 4 4 16 1 (glwe_new 16 1) (ex_ct 0) (ex_ct 1) gf = Ok r /\
    glwe_decrypt_decode Release 64 16 1 [repeat 1 16] r 1 = Ok (map (fun x => x mod 2 ^ 1) (ex_pt b)).
Proof.
  intros m b Hb. destruct C129_meets as (_ & _ & HD & HD4 & H1 & H2).
  assert (Wc : forall b, glwe_wf 64 16 1 (ex_ct b)).
  { intros q. split; [split; [split; [reflexivity|repeat constructor]|unfold ex_ct, ex_pt; cbn [gb]; rewrite map_length; destruct (q =? 1); reflexivity]|].
    split; cbn [ga gb ex_ct]; [constructor; [|constructor]; apply Forall_forall; intros y Hy; apply repeat_spec in Hy; subst; unfold torus; lia|].
    unfold ex_pt. destruct (q =? 1); repeat constructor; unfold torus; lia. }
  apply (C130_circuit_bootstrap_pfks_fft_end_to_end f64_ext 4 4 64 8 14 4 3 3 4 1 1 (2 ^ 37) (2 ^ 40) ex_hw m Release 2 (repeat (ggsw_new 16 1 3) 2) (repeat (repeat (repeat (glwe_new 16 1) 3) 17) 2)
    (ex_rows 2 3) (ex_rows 17 3) [0xDEADBEEFDEADBEEF; 0x123456789ABCDEF] 12345
    {| lwe_a := [7; 7]; lwe_b := 9 |} {| ga := [repeat 3 16]; gb := repeat 5 16 |} {| lwe_a := repeat 3 16; lwe_b := 4 |} (repeat {| lwe_a := repeat 5 16; lwe_b := 6 |} 4)
    [repeat 1 16] ex16_sk [1; 0] 8 8 (2 ^ 40) b (glwe_new 16 1) (ex_ct 0) (ex_ct 1) 1 (ex_pt b) 0); try lia; try assumption; try reflexivity.
  - now right.
  - unfold add_exact; cbn; auto.
  - unfold sub_exact; cbn; auto.
  - right. cbn. auto.
  - split; [reflexivity|repeat constructor].
  - unfold binary_polys, binary, ex16_sk; repeat (constructor; auto).
  - split; [reflexivity|repeat constructor].
  - unfold binary_polys, binary. constructor; [|constructor]. apply Forall_forall. intros y Hy. apply repeat_spec in Hy. now right.
  - unfold binary; repeat (constructor; auto).
  - unfold ggsw_new, glwe_new, zpoly, glwe_fresh, glwe_shape, polys_shape. repeat constructor.
  - intros i. apply ex_rows_ok.
  - unfold glwe_new, zpoly, glwe_fresh, glwe_shape, polys_shape. repeat constructor.
  - intros i. apply ex_rows_ok.
  - split; [split; [reflexivity|repeat constructor]|reflexivity].
  - repeat constructor.
  - repeat constructor; unfold torus; lia.
  - exists 12345. split; [lia|]. apply zeq_refl'. reflexivity.
  - apply glwe_new_shape.
  - apply Wc.
  - apply Wc.
  - unfold ex_pt. destruct (b =? 1); reflexivity.
  - assert (E : (if b =? 1 then ex_ct 1 else ex_ct 0) = glwe_trivial (glwe_new 16 1) (map (fun x => x * 2 ^ 63) (ex_pt b))).
    { unfold ex_ct, ex_pt. destruct (b =? 1); reflexivity. }
    rewrite E. apply pnear_refl. etransitivity; [apply (glwe_trivial_ok 16 64 1); [apply glwe_new_shape|unfold ex_pt; destruct (b =? 1); reflexivity]|].
    intros i Hi. unfold coef, pscale. change (nth i (map (fun x => x * 2 ^ 63) (ex_pt b)) 0) with (nth i (map (fun x => x * 2 ^ 63) (ex_pt b)) ((fun x => x * 2 ^ 63) 0)).
    rewrite map_nth. apply zeq_refl'. change (64 - 1) with 63. ring.
Qed.
