(** C106, C107: CMUX, blind rotation and programmable bootstrapping computed through the floating-point FFT. *)
From Coq Require Import Reals ZArith List Lia Lra Bool.
From Coquelicot Require Import Complex.
From Verif Require Import Base Alu AluProofs MuxGraph PolyRing Tfhe TfheGlwe TfheBoot SpecTfhe SpecGlwe SpecBoot FluentIntProofs TfheProofs TfheProofs2 TfheProofs3
  TfheGlweProofs TfheGlweProofs2 TfheGlweProofs3 TfheGlweProofs4 TfheBootProofs TfheBootProofs2 TfheBootProofs3 TfheBootProofs4 Props_Boot.
From Verif Require Import Fft FftGlwe SpecFft SpecFftGlwe FftProofs FftProofs5 FftProofs6 FftFloat FftBound FftGlweProofs FftGlweProofs2 FftGlweProofs3 Props_Fft.
Import ListNotations.
Ltac Zify.zify_post_hook ::= idtac.
Open Scope Z_scope.

Section Setting.
Context (X : ext) (lg : nat) (w log : Z) (count k : nat) (D : Z) (h : hw).
Context (Hlg : (1 <= lg <= 12)%nat) (Hx : hw_x86 h = true -> (4 <= lg)%nat) (HD : fft_error_at_most X lg w log count k D).

Lemma setting : exists u eta tau delta, let n := (2 ^ (lg - 1))%nat in
  (2 * n = 2 ^ lg)%nat /\ accurate X n u eta tau delta /\ (0 < n)%nat /\ is_pow2 n = true /\ (2 * n <= 4096)%nat /\
  (hw_x86 h = true -> (n mod 8 = 0)%nat) /\ f64_rounding (ef_fl X) /\ (prod_bound n u eta tau delta w k log count <= IZR D)%R /\ 0 <= D.
Proof using Hlg Hx HD.
  destruct HD as (HD0 & u & eta & tau & delta & Hr & Hac & Hb). exists u, eta, tau, delta. cbv zeta.
  destruct (small_pow lg Hlg) as [P1 P2]. pose proof (half_pow lg ltac:(lia)) as E. rewrite E.
  repeat (split; [first [assumption|reflexivity|apply is_pow2_pow]|]). split; [|split; [exact Hr|split; [exact Hb|exact HD0]]].
  intros Q. apply mod8_pow. auto.
Qed.
End Setting.
Ltac setting HX Hlg HD u eta tau delta :=
  destruct (setting _ _ _ _ _ _ _ _ Hlg HX HD) as (u & eta & tau & delta & EN & Hac & Hn & Hp2 & H4096 & Hm8 & Hr & HB & HD0);
  rewrite <- EN in *.

Lemma no_err N k D : 0 <= D -> SpecBoot.fft_err N k D (glwe_new N k).
Proof.
  intros HD. split; [apply glwe_new_shape|]. split.
  - cbn [ga glwe_new]. apply Forall_forall. intros p Hp. apply repeat_spec in Hp. subst. apply Forall_forall. intros x Hx. apply repeat_spec in Hx. subst. exact HD.
  - cbn [gb glwe_new]. apply Forall_forall. intros x Hx. apply repeat_spec in Hx. subst. exact HD.
Qed.
Lemma dim_pow lg k : (1 <= k)%nat -> glwe_dim_valid (2 ^ lg) k = true.
Proof.
  intros Hk. unfold glwe_dim_valid. rewrite is_pow2_pow. pose proof (Nat.pow_nonzero 2 lg).
  cbn [andb]; repeat (apply andb_true_iff; split); try reflexivity; try (apply Nat.ltb_lt; lia); try (apply Nat.leb_le; lia); apply negb_true_iff, Nat.eqb_neq; lia.
Qed.
Lemma fill_wf pr w N k sc lut maps vals p T : word w -> glwe_dim_valid N k = true -> 1 <= p <= 30 -> 2 ^ p <= Z.of_nat N -> p < w -> (1 <= length maps)%nat ->
  maps_ok p maps vals -> glwe_shape N k lut -> fill_lut pr w N k sc lut maps p = Ok T -> glwe_wf w N k T.
Proof.
  intros Hw Hd Hp HN Hpw Hm Hmap Hl E. destruct (fill_lut_ok N w pr 1 k Hw Hd (le_n 1) sc lut maps vals p Hp HN Hpw Hm Hmap Hl) as (T' & E1 & W & _).
  rewrite E in E1. injection E1 as ->. exact W.
Qed.
Lemma generate_bsk_wf pr w log count n N k bsk0 s sk rnd E bsk : word w -> glwe_dim_valid N k = true -> 1 <= log -> (1 <= count)%nat -> log * Z.of_nat count < w ->
  binary s -> length s = n -> polys_shape N k sk -> length bsk0 = n ->
  Forall (fun g => length g = S k /\ Forall (fun r => length r = count /\ Forall (glwe_fresh N k) r) g) bsk0 ->
  0 <= E -> (forall i, ggsw_rnd_ok N k count w E (rnd i)) ->
  generate_bsk pr w log count n N k bsk0 s sk rnd = Ok bsk -> length bsk = n /\ Forall (ggsw_wf w N k count) bsk.
Proof.
  intros Hw Hd Hl Hc Hs Hb Ls Hsk L0 F0 HE Hrnd G. unfold generate_bsk in G.
  destruct (_ && _); [|discriminate]. rewrite <- Ls in L0 |- *.
  exact (bsk_loop_wf N w pr log count k sk E Hw Hd Hl Hc Hs Hsk HE s bsk0 rnd bsk Hb (eq_sym L0) F0 Hrnd G).
Qed.

Lemma bivariate_wf pr N k sc f g p carry lut : glwe_dim_valid N k = true -> 1 <= p <= carry -> p + carry <= 30 -> 2 ^ (p + carry) <= Z.of_nat N ->
  (forall x y, 0 <= x < 2 ^ p -> 0 <= y < 2 ^ p -> f x y = Ok (g x y) /\ 0 <= g x y < 2 ^ p) ->
  bivariate_lut pr 64 N k sc f p carry = Ok lut -> glwe_wf 64 N k lut.
Proof.
  intros Hd Hp Hq HN Hf E. unfold bivariate_lut in E. destruct (Z.leb_spec p carry); [|discriminate]. rewrite uadd_ok in E. 2:{ assert (2 ^ 5 < 2 ^ 32) by reflexivity. change (2 ^ 5) with 32 in *. lia. }
  cbn [bind] in E. pose proof (pow_pos' p ltac:(lia)) as PP.
  assert (Hpq : 2 ^ p * 2 ^ p <= 2 ^ (p + carry)) by (rewrite <- Z.pow_add_r by lia; apply Z.pow_le_mono_r; lia).
  apply (fill_wf pr 64 N k sc (glwe_new N k) [bivariate_fn pr p f] [fun j => g ((j / 2 ^ p) mod 2 ^ p) (j mod 2 ^ p)] (p + carry) lut); try assumption; try lia.
  - now right.
  - cbn; lia.
  - constructor; [|constructor]. assert (2 ^ p <= 2 ^ 30) by (apply Z.pow_le_mono_r; lia).
    intros j Hj. unfold bivariate_fn. rewrite ushl_ok by lia. cbn [bind]. rewrite Z.mul_1_l, uwrap_small by (unfold torus; lia).
    pose proof (Z.mod_pos_bound (j / 2 ^ p) (2 ^ p) PP) as M1. pose proof (Z.mod_pos_bound j (2 ^ p) PP) as M2.
    destruct (Hf _ _ M1 M2) as (A & B). rewrite A. cbn [bind]. destruct (Z.ltb_spec (g ((j / 2 ^ p) mod 2 ^ p) (j mod 2 ^ p)) (2 ^ p)); [|lia].
    split; [reflexivity|]. nia.
  - apply glwe_new_shape.
Qed.

(** C106. CMUX on a key in Fourier form computes exactly what the integer CMUX computes when some error of at most [D] per
    coefficient is added to its product - same results, same refusals. [D] is the bound proved in C104 for the
    machine's arithmetic. *)
Theorem C106_cmux_fft_refines : forall X lg w log count k D h m pr c d0 d1 g,
  (1 <= lg <= 12)%nat -> (hw_x86 h = true -> (4 <= lg)%nat) -> word w -> 1 <= log -> (1 <= count)%nat -> log * Z.of_nat count < w ->
  fft_error_at_most X lg w log count k D ->
  glwe_wf w (2 ^ lg) k d0 -> glwe_wf w (2 ^ lg) k d1 -> ggsw_wf w (2 ^ lg) k count g ->
  exists gf d, ggsw_to_fft X w (2 ^ lg) k count g = Ok gf /\ SpecBoot.fft_err (2 ^ lg) k D d /\
    cmux_fft X m h pr w log count (2 ^ lg) k c d0 d1 gf = cmux h pr w log count (2 ^ lg) k c d0 d1 g d.
Proof.
  intros X lg w log count k D h m pr c d0 d1 g Hlg Hx Hw Hl Hc Hs HD W0 W1 Wg. setting Hx Hlg HD u eta tau delta.
  destruct (ggsw_to_fft_ok X _ u eta tau delta Hac Hn w Hw Hp2 H4096 h m Hm8 k pr log count Hl Hc Hs Hr D HB HD0 g Wg) as (gf & Eg & _).
  destruct (cmux_refines X _ u eta tau delta Hac Hn w Hw Hp2 H4096 h m Hm8 k pr log count Hl Hc Hs Hr D HB HD0 c d0 d1 g gf W0 W1 Wg Eg) as (d & Hd & E & _).
  exists gf, d. auto.
Qed.
Print Assumptions C106_cmux_fft_refines.

(** So it selects: the phase of the result is that of d1 or d0 up to the CMUX noise. *)
Theorem C106_cmux_fft_correct : forall X lg w log count k D h m pr c d0 d1 g,
  (1 <= lg <= 12)%nat -> (hw_x86 h = true -> (4 <= lg)%nat) -> word w -> 1 <= log -> (1 <= count)%nat -> log * Z.of_nat count < w -> (1 <= k)%nat ->
  add_exact h pr w -> sub_exact h pr w ->
  fft_error_at_most X lg w log count k D ->
  glwe_shape (2 ^ lg) k c -> glwe_wf w (2 ^ lg) k d0 -> glwe_wf w (2 ^ lg) k d1 -> ggsw_wf w (2 ^ lg) k count g ->
  exists gf r, ggsw_to_fft X w (2 ^ lg) k count g = Ok gf /\
    cmux_fft X m h pr w log count (2 ^ lg) k c d0 d1 gf = Ok r /\ glwe_wf w (2 ^ lg) k r /\
    forall sk b E, polys_shape (2 ^ lg) k sk -> binary_polys sk -> (b = 0 \/ b = 1) -> 0 <= E ->
      ggsw_enc (2 ^ lg) k count w log E sk (pconst b) g ->
      pnear (2 ^ lg) w (cmux_noise (2 ^ lg) k count w log E D) (glwe_phase (2 ^ lg) sk r)
        (if b =? 1 then glwe_phase (2 ^ lg) sk d1 else glwe_phase (2 ^ lg) sk d0).
Proof.
  intros X lg w log count k D h m pr c d0 d1 g Hlg Hx Hw Hl Hc Hs Hk Ha Hsb HD Hc0 W0 W1 Wg.
  destruct (C106_cmux_fft_refines X lg w log count k D h m pr c d0 d1 g Hlg Hx Hw Hl Hc Hs HD W0 W1 Wg) as (gf & d & Eg & Hd & E).
  assert (Hdim : glwe_dim_valid (2 ^ lg) k = true) by now apply dim_pow.
  destruct (cmux_correct h pr w log count (2 ^ lg) k c d0 d1 g d D Hw Hdim Ha Hsb Hl Hc Hs Hc0 W0 W1 (ggsw_wf_valid _ _ _ _ _ Wg) (proj1 HD) Hd) as (r & Er & Wr & Pr).
  exists gf, r. split; [exact Eg|]. split; [now rewrite E|]. split; [exact Wr|exact Pr].
Qed.
Print Assumptions C106_cmux_fft_correct.

(** The component-wise version, the loop of blind rotation and the bootstrapping loop: the errors of the successive products are
    all at most [D]. *)
Theorem C106_glev_cmux_fft_refines : forall X lg w log count k D h m pr c d0 d1 g gf,
  (1 <= lg <= 12)%nat -> (hw_x86 h = true -> (4 <= lg)%nat) -> word w -> 1 <= log -> (1 <= count)%nat -> log * Z.of_nat count < w ->
  fft_error_at_most X lg w log count k D ->
  Forall (glwe_wf w (2 ^ lg) k) d0 -> Forall (glwe_wf w (2 ^ lg) k) d1 -> ggsw_wf w (2 ^ lg) k count g ->
  ggsw_to_fft X w (2 ^ lg) k count g = Ok gf ->
  exists ds, (forall i, SpecBoot.fft_err (2 ^ lg) k D (ds i)) /\
    glev_cmux_fft X m h pr w log count (2 ^ lg) k c d0 d1 gf = glev_cmux h pr w log count (2 ^ lg) k c d0 d1 g ds.
Proof.
  intros X lg w log count k D h m pr c d0 d1 g gf Hlg Hx Hw Hl Hc Hs HD W0 W1 Wg Eg. setting Hx Hlg HD u eta tau delta.
  exact (glev_cmux_refines X _ u eta tau delta Hac Hn w Hw Hp2 H4096 h m Hm8 k pr log count Hl Hc Hs Hr D HB HD0 g gf Wg Eg c d0 d1 W0 W1).
Qed.
Print Assumptions C106_glev_cmux_fft_refines.
Theorem C106_blind_rotation_fft_refines : forall X lg w log count k D h m pr rows rowsf ct,
  (1 <= lg <= 12)%nat -> (hw_x86 h = true -> (4 <= lg)%nat) -> word w -> 1 <= log -> (1 <= count)%nat -> log * Z.of_nat count < w ->
  fft_error_at_most X lg w log count k D ->
  glwe_wf w (2 ^ lg) k ct -> Forall (ggsw_wf w (2 ^ lg) k count) rows -> mapM (ggsw_to_fft X w (2 ^ lg) k count) rows = Ok rowsf ->
  exists ds, (forall i, SpecBoot.fft_err (2 ^ lg) k D (ds i)) /\
    blind_rotation_loop_fft X m h pr w log count (2 ^ lg) k ct rowsf 0 = blind_rotation h pr w log count (2 ^ lg) k rows ct ds.
Proof.
  intros X lg w log count k D h m pr rows rowsf ct Hlg Hx Hw Hl Hc Hs HD W Wg Eg. setting Hx Hlg HD u eta tau delta.
  exact (blind_rotation_refines X _ u eta tau delta Hac Hn w Hw Hp2 H4096 h m Hm8 k pr log count Hl Hc Hs Hr D HB HD0 rows rowsf 0%nat ct W Wg Eg).
Qed.
Print Assumptions C106_blind_rotation_fft_refines.
Theorem C106_bootstrap_fft_refines : forall X lg w log count k D h m pr nl out input lut bsk chi v,
  (1 <= lg <= 12)%nat -> (hw_x86 h = true -> (4 <= lg)%nat) -> word w -> 1 <= log -> (1 <= count)%nat -> log * Z.of_nat count < w ->
  fft_error_at_most X lg w log count k D ->
  glwe_wf w (2 ^ lg) k lut -> length bsk = nl -> Forall (ggsw_wf w (2 ^ lg) k count) bsk ->
  exists bskf ds, bsk_to_fft X w nl (2 ^ lg) k count bsk = Ok bskf /\ (forall i, SpecBoot.fft_err (2 ^ lg) k D (ds i)) /\
    generalized_pbs_fft X m h pr w log count nl (2 ^ lg) k out input lut bskf chi v =
      generalized_pbs h pr w log count nl (2 ^ lg) k out input lut bsk chi v ds.
Proof.
  intros X lg w log count k D h m pr nl out input lut bsk chi v Hlg Hx Hw Hl Hc Hs HD Wl L Wg. setting Hx Hlg HD u eta tau delta.
  destruct (bsk_to_fft_ok X _ u eta tau delta Hac Hn w Hw Hp2 H4096 h m Hm8 k pr log count Hl Hc Hs Hr D HB HD0 nl bsk L Wg) as (bskf & E1 & _).
  destruct (generalized_pbs_refines X _ u eta tau delta Hac Hn w Hw Hp2 H4096 h m Hm8 k pr log count Hl Hc Hs Hr D HB HD0 nl out input lut bsk bskf chi v Wl Wg L E1) as (ds & H1 & H2).
  exists bskf, ds. auto.
Qed.
Print Assumptions C106_bootstrap_fft_refines.

(** C107. End to end through the floating-point FFT: generate the bootstrap key, transform it, encrypt m (p bits and a padding bit),
    bootstrap with the table of f, decrypt under the extracted key. For every message, key, randomness within the stated
    bounds and machine arithmetic whose products have error at most [D]: the result is f(m), or -f(m) modulo 2^p if the
    padding bit is set. *)
Theorem C107_univariate_bootstrap_fft : forall X lg w log count k D h m pr n out sc bsk0 s sk rnd f g p B E msg mask e,
  let N := (2 ^ lg)%nat in let L := Z.of_nat lg + 1 in
  (1 <= lg <= 12)%nat -> (hw_x86 h = true -> (4 <= lg)%nat) -> fft_error_at_most X lg w log count k D ->
  word w -> (1 <= k)%nat -> add_exact h pr w -> sub_exact h pr w ->
  1 <= log -> (1 <= count)%nat -> log * Z.of_nat count < w -> 1 <= p <= 30 ->
  (1 <= n)%nat -> binary s -> length s = n -> polys_shape N k sk -> binary_polys sk ->
  length bsk0 = n -> Forall (fun g => length g = S k /\ Forall (fun r => length r = count /\ Forall (glwe_fresh N k) r) g) bsk0 ->
  0 <= E -> (forall i, ggsw_rnd_ok N k count w E (rnd i)) ->
  (forall j, 0 <= j < 2 ^ p -> f j = Ok (g j) /\ 0 <= g j < 2 ^ p) ->
  length mask = n -> toruses w mask -> 0 <= B -> near w B e 0 -> length (lwe_a out) = (k * N)%nat ->
  B + (Z.of_nat n + 1) * 2 ^ (w - L - 1) < 2 ^ (w - p - 2) ->
  Z.of_nat n * cmux_noise N k count w log E D < 2 ^ (w - p - 1) ->
  0 <= msg < 2 ^ (p + 1) ->
  exists bsk bskf lut c r, generate_bsk pr w log count n N k bsk0 s sk rnd = Ok bsk /\ bsk_to_fft X w n N k count bsk = Ok bskf /\
    lut_from_fn pr w N k sc f p = Ok lut /\ lwe_sk_encrypt w n s msg (p + 1) mask e = Ok c /\
    pbs_univariate_fft X m h pr w log count n N k out c lut bskf = Ok r /\
    lwe_decrypt pr w (k * N) (to_lwe_sk sk) r p = Ok (if msg <? 2 ^ p then g msg else (- g (msg - 2 ^ p)) mod 2 ^ p).
Proof.
  intros X lg w log count k D h m pr n out sc bsk0 s sk rnd f g p B E msg mask e N L Hlg Hx HD Hw Hk Ha Hsb Hl Hc Hs Hp Hn Hb Ls Hsk Hbin L0 F0 HE Hrnd Hf Lm Tm HB He Lo Hin Hno Hmsg.
  assert (Hdim : glwe_dim_valid N k = true) by now apply dim_pow.
  assert (EL : Z.of_nat (Nat.log2 N) + 1 = L) by (unfold N, L; rewrite Nat.log2_pow2 by lia; reflexivity).
  assert (HLw : L < w) by (unfold L; destruct Hw; subst w; lia).
  assert (G : forall ds, (forall i, SpecBoot.fft_err N k D (ds i)) -> exists bsk lut c r, generate_bsk pr w log count n N k bsk0 s sk rnd = Ok bsk /\ lut_from_fn pr w N k sc f p = Ok lut /\
    lwe_sk_encrypt w n s msg (p + 1) mask e = Ok c /\ pbs_univariate h pr w log count n N k out c lut bsk ds = Ok r /\
    lwe_decrypt pr w (k * N) (to_lwe_sk sk) r p = Ok (if msg <? 2 ^ p then g msg else (- g (msg - 2 ^ p)) mod 2 ^ p)).
  { intros ds Hds. pose proof (univariate_bootstrap h pr w log count n N k D out sc bsk0 s sk rnd f g p ds B E msg mask e) as U. cbv zeta in U.
    rewrite EL in U. apply U; try assumption. exact (proj1 HD). }
  destruct (G (fun _ => glwe_new N k) (fun _ => no_err N k D (proj1 HD))) as (bsk & lut & c & _ & Eb & El & Ec & _).
  destruct (generate_bsk_wf pr w log count n N k bsk0 s sk rnd E bsk Hw Hdim Hl Hc Hs Hb Ls Hsk L0 F0 HE Hrnd Eb) as (Lb & Wb).
  assert (Wl : glwe_wf w N k lut).
  { pose proof (step_bound n w L p B Hw ltac:(unfold L; lia) ltac:(lia) HB Hn Hin) as HpL.
    apply (fill_wf pr w N k sc (glwe_new N k) [f] [g] p lut); try assumption; try lia.
    - unfold N. rewrite pow2_Z. apply Z.pow_le_mono_r; unfold L in HpL; lia.
    - cbn; lia.
    - constructor; [exact Hf|constructor].
    - apply glwe_new_shape. }
  destruct (C106_bootstrap_fft_refines X lg w log count k D h m pr n (glwe_new N k) c lut bsk 0 0 Hlg Hx Hw Hl Hc Hs HD Wl Lb Wb) as (bskf & ds & Ef & Hds & Er).
  destruct (G ds Hds) as (bsk' & lut' & c' & r & Eb' & El' & Ec' & Ep & Edec).
  rewrite Eb in Eb'. injection Eb' as <-. rewrite El in El'. injection El' as <-. rewrite Ec in Ec'. injection Ec' as <-.
  exists bsk, bskf, lut, c, r. do 4 (split; [assumption|]). split; [|exact Edec].
  unfold pbs_univariate_fft. fold N in Er. rewrite Er. exact Ep.
Qed.
Print Assumptions C107_univariate_bootstrap_fft.

(** Bivariate functions, on 64-bit words. *)
Theorem C107_bivariate_bootstrap_fft : forall X lg log count k D h m pr n out sc bsk0 s sk rnd f g p carry B1 B2 E l r mask1 mask2 e1 e2,
  let N := (2 ^ lg)%nat in let L := Z.of_nat lg + 1 in
  (1 <= lg <= 12)%nat -> (hw_x86 h = true -> (4 <= lg)%nat) -> fft_error_at_most X lg 64 log count k D ->
  (1 <= k)%nat -> add_exact h pr 64 -> sub_exact h pr 64 ->
  1 <= log -> (1 <= count)%nat -> log * Z.of_nat count < 64 -> 1 <= p <= carry -> p + carry <= 30 ->
  (1 <= n)%nat -> binary s -> length s = n -> polys_shape N k sk -> binary_polys sk ->
  length bsk0 = n -> Forall (fun g => length g = S k /\ Forall (fun r => length r = count /\ Forall (glwe_fresh N k) r) g) bsk0 ->
  0 <= E -> (forall i, ggsw_rnd_ok N k count 64 E (rnd i)) ->
  (forall x y, 0 <= x < 2 ^ p -> 0 <= y < 2 ^ p -> f x y = Ok (g x y) /\ 0 <= g x y < 2 ^ p) ->
  length mask1 = n -> toruses 64 mask1 -> length mask2 = n -> toruses 64 mask2 -> 0 <= B1 -> near 64 B1 e1 0 -> 0 <= B2 -> near 64 B2 e2 0 ->
  length (lwe_a out) = (k * N)%nat ->
  2 ^ p * B1 + B2 + (Z.of_nat n + 1) * 2 ^ (64 - L - 1) < 2 ^ (64 - (p + carry) - 2) ->
  Z.of_nat n * cmux_noise N k count 64 log E D < 2 ^ (64 - (p + carry) - 1) ->
  0 <= l < 2 ^ p -> 0 <= r < 2 ^ p ->
  exists bsk bskf lut c1 c2 x, generate_bsk pr 64 log count n N k bsk0 s sk rnd = Ok bsk /\ bsk_to_fft X 64 n N k count bsk = Ok bskf /\
    bivariate_lut pr 64 N k sc f p carry = Ok lut /\
    lwe_sk_encrypt 64 n s l (p + carry + 1) mask1 e1 = Ok c1 /\ lwe_sk_encrypt 64 n s r (p + carry + 1) mask2 e2 = Ok c2 /\
    pbs_bivariate_fft X m h pr 64 log count n N k out c1 c2 lut bskf p = Ok x /\
    lwe_decrypt_with_carry pr (k * N) (to_lwe_sk sk) x p carry = Ok (g l r).
Proof.
  intros X lg log count k D h m pr n out sc bsk0 s sk rnd f g p carry B1 B2 E l r mask1 mask2 e1 e2 N L Hlg Hx HD Hk Ha Hsb Hl Hc Hs Hp Hpc Hn Hb Ls Hsk Hbin L0 F0 HE Hrnd Hf Lm1 Tm1 Lm2 Tm2 HB1 He1 HB2 He2 Lo Hin Hno Hlm Hrm.
  assert (Hw : word 64) by now right.
  assert (Hdim : glwe_dim_valid N k = true) by now apply dim_pow.
  assert (EL : Z.of_nat (Nat.log2 N) + 1 = L) by (unfold N, L; rewrite Nat.log2_pow2 by lia; reflexivity).
  assert (HLw : L < 64) by (unfold L; lia).
  assert (G : forall ds, (forall i, SpecBoot.fft_err N k D (ds i)) -> exists bsk lut c1 c2 x, generate_bsk pr 64 log count n N k bsk0 s sk rnd = Ok bsk /\ bivariate_lut pr 64 N k sc f p carry = Ok lut /\
    lwe_sk_encrypt 64 n s l (p + carry + 1) mask1 e1 = Ok c1 /\ lwe_sk_encrypt 64 n s r (p + carry + 1) mask2 e2 = Ok c2 /\
    pbs_bivariate h pr 64 log count n N k out c1 c2 lut bsk p ds = Ok x /\ lwe_decrypt_with_carry pr (k * N) (to_lwe_sk sk) x p carry = Ok (g l r)).
  { intros ds Hds. pose proof (bivariate_bootstrap h pr log count n N k D out sc bsk0 s sk rnd f g p carry ds B1 B2 E l r mask1 mask2 e1 e2) as U. cbv zeta in U.
    rewrite EL in U. apply U; try assumption. exact (proj1 HD). }
  destruct (G (fun _ => glwe_new N k) (fun _ => no_err N k D (proj1 HD))) as (bsk & lut & c1 & c2 & _ & Eb & El & Ec1 & Ec2 & _).
  destruct (generate_bsk_wf pr 64 log count n N k bsk0 s sk rnd E bsk Hw Hdim Hl Hc Hs Hb Ls Hsk L0 F0 HE Hrnd Eb) as (Lb & Wb).
  assert (Wl : glwe_wf 64 N k lut).
  { pose proof (pow_pos' p ltac:(lia)) as PP.
    pose proof (step_bound n 64 L (p + carry) (2 ^ p * B1 + B2) Hw ltac:(unfold L; lia) ltac:(lia) ltac:(nia) Hn Hin) as HpL.
    apply (bivariate_wf pr N k sc f g p carry lut Hdim Hp Hpc); try assumption. unfold N. rewrite pow2_Z. apply Z.pow_le_mono_r; unfold L in HpL; lia. }
  assert (R : exists bskf ds, bsk_to_fft X 64 n N k count bsk = Ok bskf /\ (forall i, SpecBoot.fft_err N k D (ds i)) /\
    pbs_bivariate_fft X m h pr 64 log count n N k out c1 c2 lut bskf p = pbs_bivariate h pr 64 log count n N k out c1 c2 lut bsk p ds).
  { unfold N in *. clear - Hlg Hx HD Hl Hc Hs Wl Lb Wb Hw. setting Hx Hlg HD u eta tau delta.
    destruct (bsk_to_fft_ok X _ u eta tau delta Hac Hn 64 Hw Hp2 H4096 h m Hm8 k pr log count Hl Hc Hs Hr D HB HD0 n bsk Lb Wb) as (bskf & E1 & _).
    destruct (pbs_bivariate_refines X _ u eta tau delta Hac Hn 64 Hw Hp2 H4096 h m Hm8 k pr log count Hl Hc Hs Hr D HB HD0 n out c1 c2 lut bsk bskf p Wl Wb Lb E1) as (ds & H1 & H2).
    exists bskf, ds. auto. }
  destruct R as (bskf & ds & Ef & Hds & Er).
  destruct (G ds Hds) as (bsk' & lut' & c1' & c2' & x & Eb' & El' & Ec1' & Ec2' & Ep & Edec).
  rewrite Eb in Eb'. injection Eb' as <-. rewrite El in El'. injection El' as <-. rewrite Ec1 in Ec1'. injection Ec1' as <-. rewrite Ec2 in Ec2'. injection Ec2' as <-.
  exists bsk, bskf, lut, c1, c2, x. do 5 (split; [assumption|]). split; [|exact Edec]. now rewrite Er.
Qed.
Print Assumptions C107_bivariate_bootstrap_fft.

(** The bound for concrete parameters. At degree 2048 with 64-bit words and digits of radix 16 x 2 (the bootstrapping parameters of
    DEFAULT_128) one external product is off by less than 2^58 if the transforms are as good as rounding allows, and by less than
    2^60 if each transform is only accurate to 2^-45 of the sum of its input. *)
Theorem C106_default_error_bound : forall X, f64_rounding (ef_fl X) ->
  (accurate X 1024 (powerRZ 2 (-53)) (powerRZ 2 (-1075)) (powerRZ 2 (-47)) 0 -> fft_error_at_most X 11 64 16 2 1 (2 ^ 58)) /\
  (accurate X 1024 (powerRZ 2 (-53)) (powerRZ 2 (-1075)) (powerRZ 2 (-47)) (powerRZ 2 (-45)) -> fft_error_at_most X 11 64 16 2 1 (2 ^ 60)).
Proof.
  intros X Hr. split; intros Hac; (split; [lia|]); do 4 eexists; (split; [exact Hr|]); (split; [exact Hac|]).
  - change (2 ^ (11 - 1))%nat with (Pos.to_nat 1024). apply (bound_eval 1024 0 0); [apply (ub_const 0); lia|lia|lia|]. vm_compute. discriminate.
  - change (2 ^ (11 - 1))%nat with (Pos.to_nat 1024). apply (bound_eval 1024 _ (one / 2 ^ 45 + 1)); [apply (ub_pow 45)|lia|lia|]. vm_compute. discriminate.
Qed.
Print Assumptions C106_default_error_bound.

(** A small instance for which the hypotheses of the end-to-end theorem can all be met in double precision: degree 16, radix 8 x 3,
    LWE dimension 2, one-bit messages, key noise up to 2^20. *)
Example C107_meets :
  fft_error_at_most f64_ext 4 64 8 3 1 (2 ^ 37) /\
  2 ^ 40 + (Z.of_nat 2 + 1) * 2 ^ (64 - 5 - 1) < 2 ^ (64 - 1 - 2) /\
  Z.of_nat 2 * cmux_noise (2 ^ 4) 1 3 64 8 (2 ^ 20) (2 ^ 37) < 2 ^ (64 - 1 - 1).
Proof.
  split; [|split; vm_compute; reflexivity]. destruct (C104_double_precision 4 ltac:(lia)) as (Hr & Hac). split; [lia|].
  do 4 eexists. split; [exact Hr|]. split; [exact Hac|].
  change (2 ^ (4 - 1))%nat with (Pos.to_nat 8). apply (bound_eval 8 0 0); [apply (ub_const 0); lia|lia|lia|]. vm_compute. discriminate.
Qed.

(** With concrete keys, randomness and messages. *)
Definition ex16_sk : list (list Z) := [[1; 0; 0; 1; 1; 0; 1; 0; 0; 0; 1; 1; 0; 1; 0; 1]].
Definition ex16_rnd (i : nat) : list (list (list (list Z) * option (list Z))) :=
  map (fun r => map (fun c => ([map (fun j => (Z.of_nat (i + 3 * r + 7 * c + j + 1) * 0x9E3779B97F4A7C15) mod 2 ^ 64) (seq 0 16)],
    Some (map (fun j => (Z.of_nat ((i + r + c + j) mod 9) - 4) mod 2 ^ 64) (seq 0 16)))) (seq 0 3)) (seq 0 2).
Lemma ex16_rnd_ok i : ggsw_rnd_ok 16 1 3 64 (2 ^ 20) (ex16_rnd i).
Proof.
  split; [reflexivity|]. apply Forall_forall. intros row Hrow. apply in_map_iff in Hrow as (r & <- & _). split; [reflexivity|].
  apply Forall_forall. intros x Hx. apply in_map_iff in Hx as (c & <- & _). split; [split; [reflexivity|repeat constructor; cbn; lia]|]. cbn [fst snd]. split.
  - constructor; [|constructor]. apply Forall_forall. intros y Hy. apply in_map_iff in Hy as (j & <- & _). apply Z.mod_pos_bound. lia.
  - split.
    + split; [reflexivity|]. apply Forall_forall. intros y Hy. apply in_map_iff in Hy as (j & <- & _). apply Z.mod_pos_bound. lia.
    + exists (fun j => Z.of_nat ((i + r + c + j) mod 9) - 4). split.
      * intros j Hj. pose proof (Nat.mod_upper_bound (i + r + c + j) 9 ltac:(lia)). lia.
      * intros j Hj. unfold coef. rewrite nth_map_seq by exact Hj. etransitivity; [apply zeq_mod|]. apply zeq_refl'. unfold padd, p0. ring.
Qed.
Example C107_instance : forall m msg, 0 <= msg < 4 ->
  exists bsk bskf lut c r, generate_bsk Release 64 8 3 2 16 1 (repeat (ggsw_new 16 1 3) 2) [1; 0] ex16_sk ex16_rnd = Ok bsk /\
    bsk_to_fft f64_ext 64 2 16 1 3 bsk = Ok bskf /\ lut_from_fn Release 64 16 1 (zpoly 16) ex_not 1 = Ok lut /\
    lwe_sk_encrypt 64 2 [1; 0] msg 2 [0xDEADBEEFDEADBEEF; 0x123456789ABCDEF] 12345 = Ok c /\
    pbs_univariate_fft f64_ext m ex_hw Release 64 8 3 2 16 1 {| lwe_a := repeat 7 16; lwe_b := 9 |} c lut bskf = Ok r /\
    lwe_decrypt Release 64 16 (to_lwe_sk ex16_sk) r 1 = Ok (if msg <? 2 then 1 - msg else - (1 - (msg - 2)) mod 2).
Proof.
  intros m msg Hm. destruct C107_meets as (HD & H1 & H2).
  apply (C107_univariate_bootstrap_fft f64_ext 4 64 8 3 1 (2 ^ 37) ex_hw m Release 2 {| lwe_a := repeat 7 16; lwe_b := 9 |} (zpoly 16) (repeat (ggsw_new 16 1 3) 2)
    [1; 0] ex16_sk ex16_rnd ex_not (fun j => 1 - j) 1 (2 ^ 40) (2 ^ 20) msg [0xDEADBEEFDEADBEEF; 0x123456789ABCDEF] 12345); try lia; try assumption; try reflexivity.
  - now right.
  - unfold add_exact; cbn; auto.
  - unfold sub_exact; cbn; auto.
  - unfold binary; repeat (constructor; auto).
  - split; [reflexivity|repeat constructor].
  - unfold binary_polys, binary, ex16_sk; repeat (constructor; auto).
  - unfold ggsw_new, glwe_new, zpoly, glwe_fresh, glwe_shape, polys_shape. repeat constructor.
  - exact ex16_rnd_ok.
  - intros j Hj. change (2 ^ 1) with 2 in *. unfold ex_not. split; [reflexivity|lia].
  - repeat constructor; unfold torus; lia.
  - exists 12345. split; [lia|]. apply zeq_refl'. reflexivity.
Qed.
