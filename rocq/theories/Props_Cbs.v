(** Theorems about circuit bootstrapping: turning an LWE encryption of a bit into a GGSW ciphertext. *)
From Verif Require Import Base Alu AluProofs MuxGraph MuxGraphProofs PolyRing Tfhe TfheGlwe TfheBoot TfheTrace TfheSwitch TfheCbs SpecTfhe SpecGlwe SpecBoot SpecTrace SpecSwitch SpecCbs FluentIntProofs TfheProofs TfheProofs2 TfheProofs3 TfheGlweProofs TfheGlweProofs2 TfheGlweProofs3 TfheGlweProofs4 TfheBootProofs TfheBootProofs2 TfheBootProofs3 TfheBootProofs4 TfheTraceProofs TfheTraceProofs2 TfheSwitchProofs Props_Boot Props_Trace Props_Switch TfheCbsProofs.
Ltac Zify.zify_post_hook ::= idtac.
Open Scope Z_scope.

(** * C89: circuit bootstrapping *)

(** The LWE -> GLEV half: with a bootstrap key and an automorphism key, whatever the scratch buffers hold, a bit
    m encrypted in one plaintext bit becomes a GLEV encryption of the constant m. *)
Lemma cbs_glev h pr w lp lt log cp ct count n N k input bsk ak scr scg scl d1 d2 D sk s Eb Ea B m :
  let L := Z.of_nat (Nat.log2 N) + 1 in
  word w -> glwe_dim_valid N k = true -> add_exact h pr w -> sub_exact h pr w -> L < w -> 0 <= D -> 0 <= Eb -> 0 <= Ea ->
  1 <= lp -> (1 <= cp)%nat -> lp * Z.of_nat cp < w -> 1 <= lt -> (1 <= ct)%nat -> lt * Z.of_nat ct < w ->
  1 <= log -> (1 <= count < 8)%nat -> log * Z.of_nat count + 1 < w ->
  (1 <= n)%nat -> polys_shape N k sk -> binary_polys sk -> binary s -> length s = n ->
  bsk_enc N k cp w lp Eb sk s bsk -> ak_enc N k ct w lt Ea sk ak ->
  length (lwe_a scr) = n -> glwe_shape N k scg -> length scl = count -> Forall (glwe_shape N k) scl ->
  (forall i, fft_err N k D (d1 i)) -> (forall i j, fft_err N k D (d2 i j)) ->
  0 <= B -> B + (Z.of_nat n + 1) * 2 ^ (w - L + Z.of_nat (log_slots count) - 1) < 2 ^ (w - 2) ->
  lwe_wf w n input -> 0 <= m < 2 -> near w B (lwe_phase s input) (m * 2 ^ (w - 1)) ->
  exists lo glev, cbs_hi_noise h pr w lp log cp count n N k scr scg input bsk d1 = Ok lo /\
    cbs_trace_loop h pr w lt log ct N k scl lo scg scg scg ak 0 d2 = Ok glev /\
    length glev = count /\ Forall (glwe_wf w N k) glev /\
    glev_enc N k w log (cbs_glev_noise N k n cp ct w lp lt Eb Ea D) sk (pconst m) glev.
Proof.
  intros L Hw Hdim Hadd Hsub HLw HD HEb HEa Hlp Hcp Hlcp Hlt Hct Hlct Hlog Hcnt Hlc Hn Hsk Hbin Hs Ls Hbsk Hak Hscr Hscg Lscl Fscl Hd1 Hd2 HB HBn Hin Hm Hnear.
  destruct (dim_valid N k Hdim) as (HP & HN0 & Hk). destruct (pow2_log2 N HP) as (EN & _). pose proof (near_word_pow w Hw) as Wp.
  set (v := Z.of_nat (log_slots count)) in *. assert (Hv0 : 0 <= v) by (unfold v; lia).
  assert (Hv : v + 2 <= L).
  { destruct (Z_lt_le_dec L (v + 2)); [exfalso|lia].
    assert (2 ^ (w - 2) <= 2 ^ (w - L + v - 1 + 0)) by (apply Z.pow_le_mono_r; lia). rewrite Z.add_0_r in *.
    assert (0 < 2 ^ (w - L + v - 1)) by (apply pow_pos'; lia). nia. }
  assert (HcN : (count <= N)%nat). { pose proof (count_le_slots count ltac:(lia)). apply (Nat.le_trans _ _ _ H). rewrite EN. apply Nat.pow_le_mono_r; [lia|]. unfold v, L in *. lia. }
  assert (HN2 : (2 <= N)%nat). { rewrite EN. change 2%nat with (2 ^ 1)%nat at 1. apply Nat.pow_le_mono_r; unfold L in *; lia. }
  unfold cbs_hi_noise. destruct (Nat.ltb_spec count 8); [|lia]. rewrite t_encode_ok by (assumption || lia). cbn [bind]. rewrite Z.mul_1_l.
  unfold lwe_rotate, lwe_valid. rewrite Hscr, (proj1 Hin), Nat.eqb_refl. cbn [andb bind].
  set (q := 2 ^ (w - 2) mod 2 ^ w). set (inp := {| lwe_a := lwe_a input; lwe_b := tadd w (lwe_b input) q |}).
  assert (Wi : lwe_wf w n inp). { destruct Hin as (A & T1 & T2). split; [assumption|]. split; [assumption|]. cbn [lwe_b inp]. unfold tadd. apply uwrap_torus. lia. }
  assert (Pi : congr w (lwe_phase s inp) (lwe_phase s input + 2 ^ (w - 2))).
  { unfold lwe_phase, inp. cbn [lwe_a lwe_b]. rewrite tadd_congr. unfold q. transitivity (lwe_b input + 2 ^ (w - 2) - dotz (lwe_a input) s); [|apply zeq_refl'; ring].
    apply zeq_sub; [|reflexivity]. apply zeq_add; [reflexivity|apply zeq_mod]. }
  rewrite cbs_log_v_ok by lia. cbn [bind]. destruct (cbs_lut_ok N w pr log count k Hw Hlog ltac:(lia)) as (T & ET & WT & _ & PT). rewrite ET. cbn [bind]. fold v.
  pose proof (bsk_enc_valid N k cp w lp Eb sk s bsk Hbsk) as Hbv. rewrite Ls in Hbv.
  destruct (generalized_pbs_ok N w h pr lp cp k D Hw Hdim Hadd Hsub Hlp Hcp Hlcp HD n scg inp T bsk 0 v d1 Hn Wi Hbv Hscg WT ltac:(lia) ltac:(fold L; lia) HLw Hd1) as (lo & Elo & Wlo & Plo).
  destruct (Plo sk s Eb Hsk Hbin Hs HEb Hbsk) as (idx & Dv & Nv & Pv). fold L in Nv. rewrite Z.pow_0_r, Z.mul_1_r in Nv.
  assert (Nv2 : near w (B + (Z.of_nat n + 1) * 2 ^ (w - L + v - 1)) (idx * 2 ^ (w - L)) (m * 2 ^ (w - 1) + 2 ^ (w - 2))).
  { rewrite Z.add_comm. eapply near_trans; [exact Nv|]. eapply near_congr; [symmetry; exact Pi|reflexivity|].
    replace B with (B + 0) by ring. apply near_add; [exact Hnear|apply near_refl]. }
  assert (Hsel : forall j, (0 <= j < count)%nat -> near w (Z.of_nat n * cmux_noise N k cp w lp Eb D) (glwe_phase N sk lo j + 2 ^ (w - cbs_bits log j)) (m * 2 ^ (w - log * (Z.of_nat j + 1)))).
  { intros j Hj. assert (Hb : cbs_bits log j < w). { assert (log * (Z.of_nat j + 1) <= log * Z.of_nat count) by (apply Z.mul_le_mono_nonneg_l; lia). unfold cbs_bits. lia. }
    pose proof (cbs_select N w log count L v idx m j _ Hw HP eq_refl HLw Hlog ltac:(lia) eq_refl Hv Dv Nv2 HBn Hm ltac:(lia) Hb) as Q.
    apply (pnear_coef N w _ _ _ j ltac:(lia)) in Pv.
    eapply near_congr; [reflexivity|exact Q|]. rewrite <- (Z.add_0_r (Z.of_nat n * _)). apply near_add; [|apply near_refl].
    eapply near_congr; [reflexivity| |exact Pv]. apply (pmono_mor N (2 ^ w) (- idx) _ _ (PT sk) j). lia. }
  destruct (cbs_trace_loop_ok N w h pr lt log ct k D sk Ea ak m _ count Hw Hdim Hsub HN2 ltac:(unfold L in *; lia) Hlt Hct Hlct HD HEa Hsk Hbin Hak Hlog Hlc HcN scl lo scg scg scg 0%nat d2 ltac:(lia) Fscl Wlo Hscg Hscg Hscg Hd2 Hsel)
    as (gs & Egs & Lgs & Wgs & Pgs).
  exists lo, gs. split; [assumption|]. split; [assumption|]. split; [congruence|]. split; [assumption|].
  intros j c Hc. split; [apply (proj1 (Forall_forall _ _) Wgs c (nth_error_In _ _ Hc))|]. apply (Pgs j c Hc).
Qed.

(** Given keys that encrypt what they should, and a fresh (zero) output, a bit m encrypted in one plaintext bit with noise at most B
    becomes a GGSW encryption of the constant m, whatever the scratch buffers hold. *)
Theorem circuit_bootstrap_correct h pr w lp lt ls log cp ct cs count n N k input bsk ak ssk scr scg scl d1 d2 d3 D sk s Eb Ea Es B m :
  let L := Z.of_nat (Nat.log2 N) + 1 in
  word w -> glwe_dim_valid N k = true -> add_exact h pr w -> sub_exact h pr w -> L < w -> 0 <= D -> 0 <= Eb -> 0 <= Ea -> 0 <= Es ->
  1 <= lp -> (1 <= cp)%nat -> lp * Z.of_nat cp < w -> 1 <= lt -> (1 <= ct)%nat -> lt * Z.of_nat ct < w -> 1 <= ls -> (1 <= cs)%nat -> ls * Z.of_nat cs < w ->
  1 <= log -> (1 <= count < 8)%nat -> log * Z.of_nat count + 1 < w ->
  (1 <= n)%nat -> polys_shape N k sk -> binary_polys sk -> binary s -> length s = n ->
  bsk_enc N k cp w lp Eb sk s bsk -> ak_enc N k ct w lt Ea sk ak -> ssk_enc N k cs w ls Es sk ssk ->
  length (lwe_a scr) = n -> glwe_shape N k scg -> length scl = count -> Forall (glwe_shape N k) scl ->
  (forall i, fft_err N k D (d1 i)) -> (forall i j, fft_err N k D (d2 i j)) -> (forall i j, fft_err N k D (d3 i j)) ->
  0 <= B -> B + (Z.of_nat n + 1) * 2 ^ (w - L + Z.of_nat (log_slots count) - 1) < 2 ^ (w - 2) ->
  lwe_wf w n input -> 0 <= m < 2 -> near w B (lwe_phase s input) (m * 2 ^ (w - 1)) ->
  exists g, circuit_bootstrap h pr w lp lt ls log cp ct cs count n N k (ggsw_new N k count) input bsk ak ssk scr scg scl d1 d2 d3 = Ok g /\
    ggsw_valid N k count g = true /\ Forall (Forall (glwe_wf w N k)) g /\
    ggsw_enc N k count w log (cbs_noise N k n cp ct cs w lp lt ls Eb Ea Es D) sk (pconst m) g.
Proof.
  intros L Hw Hdim Hadd Hsub HLw HD HEb HEa HEs Hlp Hcp Hlcp Hlt Hct Hlct Hls Hcs Hlcs Hlog Hcnt Hlc Hn Hsk Hbin Hs Ls Hbsk Hak Hssk Hscr Hscg Lscl Fscl Hd1 Hd2 Hd3 HB HBn Hin Hm Hnear.
  destruct (dim_valid N k Hdim) as (HP & HN0 & Hk).
  destruct (cbs_glev h pr w lp lt log cp ct count n N k input bsk ak scr scg scl d1 d2 D sk s Eb Ea B m) as (lo & glev & E1 & E2 & Lg & Wg & Pg); try assumption.
  assert (HE0 : 0 <= cbs_glev_noise N k n cp ct w lp lt Eb Ea D).
  { destruct (nth_error glev 0) as [c|] eqn:Ec; [|apply nth_error_None in Ec; lia]. destruct (Pg 0%nat c Ec) as (_ & (e & Be & _)).
    specialize (Be 0%nat HN0). pose proof (Z.abs_nonneg (e 0%nat)). lia. }
  unfold circuit_bootstrap. rewrite E1. cbn [bind]. rewrite E2. cbn [bind].
  destruct (scheme_switch_fft_correct pr w ls cs count N k glev ssk sk Es _ log (pconst m) d3 D Hw HP Hls Hcs Hlcs HEs HE0 HD Hsk Hbin Hssk Lg Wg Pg Hd3) as (g & E3 & V3 & W3 & P3).
  exists g. auto.
Qed.
Print Assumptions circuit_bootstrap_correct.

(** End to end: generate the three keys from fresh buffers, encrypt a bit, bootstrap it, use the result as the
    selector of a CMUX between two ciphertexts and decrypt: the answer is the message of the selected one. *)
Theorem circuit_bootstrap_end_to_end h pr w lp lt ls log cp ct cs count n N k bsk0 ak0 ssk0 sc fmul rb ra rs mask e scr scg scl d1 d2 d3 d4 D sk s Eb Ea Es B m out x0 x1 p pt E0 :
  let L := Z.of_nat (Nat.log2 N) + 1 in
  word w -> glwe_dim_valid N k = true -> add_exact h pr w -> sub_exact h pr w -> L < w -> 0 <= D -> 0 <= Eb -> 0 <= Ea -> 0 <= Es ->
  1 <= lp -> (1 <= cp)%nat -> lp * Z.of_nat cp < w -> 1 <= lt -> (1 <= ct)%nat -> lt * Z.of_nat ct < w -> 1 <= ls -> (1 <= cs)%nat -> ls * Z.of_nat cs < w ->
  1 <= log -> (1 <= count < 8)%nat -> log * Z.of_nat count + 1 < w ->
  (1 <= n)%nat -> polys_shape N k sk -> binary_polys sk -> binary s -> length s = n ->
  length bsk0 = n -> Forall (fun g => length g = S k /\ Forall (fun r => length r = cp /\ Forall (glwe_fresh N k) r) g) bsk0 -> (forall i, ggsw_rnd_ok N k cp w Eb (rb i)) ->
  length ak0 = Nat.log2 N -> Forall (fun ksk => length ksk = k /\ Forall (fun r => length r = ct /\ Forall (glwe_fresh N k) r) ksk) ak0 -> polys_shape N k sc ->
  (forall j, length (ra j) = k /\ Forall (fun r => length r = ct /\ Forall (glwe_rnd_ok N k w Ea) r) (ra j)) ->
  length ssk0 = tri_count k -> Forall (fun r => length r = cs /\ Forall (glwe_fresh N k) r) ssk0 ->
  (forall a b, In a sk -> In b sk -> length (fmul a b) = N /\ peq N (2 ^ w) (coef (fmul a b)) (pmul N (coef a) (coef b))) ->
  (forall i, length (rs i) = cs /\ Forall (glwe_rnd_ok N k w Es) (rs i)) ->
  length (lwe_a scr) = n -> glwe_shape N k scg -> length scl = count -> Forall (glwe_shape N k) scl ->
  (forall i, fft_err N k D (d1 i)) -> (forall i j, fft_err N k D (d2 i j)) -> (forall i j, fft_err N k D (d3 i j)) -> fft_err N k D d4 ->
  0 <= B -> B + (Z.of_nat n + 1) * 2 ^ (w - L + Z.of_nat (log_slots count) - 1) < 2 ^ (w - 2) ->
  length mask = n -> toruses w mask -> near w B e 0 -> 0 <= m < 2 ->
  glwe_shape N k out -> glwe_wf w N k x0 -> glwe_wf w N k x1 -> 0 < p < w -> p < 32 -> length pt = N ->
  pnear N w E0 (glwe_phase N sk (if m =? 1 then x1 else x0)) (pscale (2 ^ (w - p)) (coef pt)) ->
  cmux_noise N k count w log (cbs_noise N k n cp ct cs w lp lt ls Eb Ea Es D) D + E0 < 2 ^ (w - p - 1) ->
  exists bsk ak ssk c g r, generate_bsk pr w lp cp n N k bsk0 s sk rb = Ok bsk /\ generate_ak pr w lt ct N k ak0 sk sc ra = Ok ak /\
    generate_ssk pr w ls cs N k ssk0 sk fmul rs = Ok ssk /\ lwe_sk_encrypt w n s m 1 mask e = Ok c /\
    circuit_bootstrap h pr w lp lt ls log cp ct cs count n N k (ggsw_new N k count) c bsk ak ssk scr scg scl d1 d2 d3 = Ok g /\
    cmux h pr w log count N k out x0 x1 g d4 = Ok r /\
    glwe_decrypt_decode pr w N k sk r p = Ok (map (fun x => x mod 2 ^ p) pt).
Proof.
  intros L Hw Hdim Hadd Hsub HLw HD HEb HEa HEs Hlp Hcp Hlcp Hlt Hct Hlct Hls Hcs Hlcs Hlog Hcnt Hlc Hn Hsk Hbin Hs Ls
    Lb Fb Hrb La Fa Hsc Hra Lss Fss Hmul Hrs Hscr Hscg Lscl Fscl Hd1 Hd2 Hd3 Hd4 HB HBn Lm Tm He Hm Hout H0 H1 Hp Hp' Lp Hpt Hnoise.
  pose proof (near_word_pow w Hw) as Wp.
  destruct (generate_bsk_ok N w pr lp cp k Hw Hdim Hlp Hcp Hlcp n bsk0 s sk Eb rb Hn Hs Ls Hsk HEb Lb Fb Hrb) as (bsk & E1 & P1).
  destruct (automorphism_key_correct pr w lt ct N k ak0 sk sc ra Ea Hw Hdim Hlt Hct ltac:(lia) Hsk Hbin HEa Hsc La Fa Hra) as (ak & E2 & P2).
  destruct (scheme_switch_key_correct pr w ls cs N k ssk0 sk fmul rs Es Hw Hdim Hls Hcs ltac:(lia) Hsk HEs Lss Fss Hmul Hrs) as (ssk & E3 & P3).
  destruct (lwe_sk_encrypt_near w n s m 1 mask e B Hw Hn Ls Lm Tm ltac:(lia) He) as (c & E4 & W4 & P4).
  destruct (circuit_bootstrap_correct h pr w lp lt ls log cp ct cs count n N k c bsk ak ssk scr scg scl d1 d2 d3 D sk s Eb Ea Es B m) as (g & E5 & V5 & W5 & P5); try assumption.
  destruct (cmux_ok N w h pr log count k out x0 x1 g d4 D Hw Hdim Hadd Hsub Hlog ltac:(lia) ltac:(lia) Hout H0 H1 V5 HD Hd4) as (r & E6 & W6 & P6).
  exists bsk, ak, ssk, c, g, r. repeat (split; [assumption|]).
  assert (HE : 0 <= cbs_noise N k n cp ct cs w lp lt ls Eb Ea Es D).
  { destruct P5 as (A1 & A2 & _ & A4). destruct (nth_error g k) as [row|] eqn:Er; [|apply nth_error_None in Er; lia].
    pose proof (proj1 (Forall_forall _ _) A2 row (nth_error_In _ _ Er)) as Lr. cbv beta in Lr. destruct (nth_error row 0) as [y|] eqn:Ey; [|apply nth_error_None in Ey; lia].
    destruct (A4 row eq_refl 0%nat y Ey) as (_ & (ee & Be & _)). destruct (dim_valid N k Hdim) as (_ & HN0 & _). specialize (Be 0%nat HN0). pose proof (Z.abs_nonneg (ee 0%nat)). lia. }
  specialize (P6 sk m _ Hsk Hbin ltac:(lia) HE P5).
  apply (glwe_decode_ok N w pr k sk r p pt (cmux_noise N k count w log (cbs_noise N k n cp ct cs w lp lt ls Eb Ea Es D) D + E0)); try assumption.
  eapply pnear_trans; [exact P6|]. unfold penc. destruct (m =? 1); exact Hpt.
Qed.
Print Assumptions circuit_bootstrap_end_to_end.

(** Into an output that already holds a ciphertext the result is not a GGSW encryption of the bit: the entries
    of the key rows are added to what was there. *)
Theorem circuit_bootstrap_reuse_refuted h pr w lp lt ls log cp ct cs count n N k out input bsk ak ssk scr scg scl d1 d2 d3 D sk s Eb Ea Es B m :
  let L := Z.of_nat (Nat.log2 N) + 1 in
  word w -> glwe_dim_valid N k = true -> add_exact h pr w -> sub_exact h pr w -> L < w -> 0 <= D -> 0 <= Eb -> 0 <= Ea -> 0 <= Es ->
  1 <= lp -> (1 <= cp)%nat -> lp * Z.of_nat cp < w -> 1 <= lt -> (1 <= ct)%nat -> lt * Z.of_nat ct < w -> 1 <= ls -> (1 <= cs)%nat -> ls * Z.of_nat cs < w ->
  1 <= log -> (1 <= count < 8)%nat -> log * Z.of_nat count + 1 < w ->
  (1 <= n)%nat -> polys_shape N k sk -> binary_polys sk -> binary s -> length s = n ->
  bsk_enc N k cp w lp Eb sk s bsk -> ak_enc N k ct w lt Ea sk ak -> ssk_enc N k cs w ls Es sk ssk ->
  length (lwe_a scr) = n -> glwe_shape N k scg -> length scl = count -> Forall (glwe_shape N k) scl ->
  (forall i, fft_err N k D (d1 i)) -> (forall i j, fft_err N k D (d2 i j)) -> (forall i j, fft_err N k D (d3 i j)) ->
  0 <= B -> B + (Z.of_nat n + 1) * 2 ^ (w - L + Z.of_nat (log_slots count) - 1) < 2 ^ (w - 2) ->
  lwe_wf w n input -> 0 <= m < 2 -> near w B (lwe_phase s input) (m * 2 ^ (w - 1)) ->
  length out = S k -> Forall (fun r => length r = count /\ Forall (glwe_wf w N k) r) out ->
  exists g, circuit_bootstrap h pr w lp lt ls log cp ct cs count n N k out input bsk ak ssk scr scg scl d1 d2 d3 = Ok g /\
    forall j t sj row row' y y', nth_error sk j = Some sj -> nth_error out j = Some row -> nth_error g j = Some row' ->
      nth_error row t = Some y -> nth_error row' t = Some y' ->
      pnear N w (cbs_noise N k n cp ct cs w lp lt ls Eb Ea Es D) (glwe_phase N sk y')
        (padd (glwe_phase N sk {| ga := setnth (ga y) j (zpoly N); gb := gb y |}) (pscale (- m * 2 ^ (w - log * (Z.of_nat t + 1))) (coef sj))).
Proof.
  intros L Hw Hdim Hadd Hsub HLw HD HEb HEa HEs Hlp Hcp Hlcp Hlt Hct Hlct Hls Hcs Hlcs Hlog Hcnt Hlc Hn Hsk Hbin Hs Ls Hbsk Hak Hssk Hscr Hscg Lscl Fscl Hd1 Hd2 Hd3 HB HBn Hin Hm Hnear Lo Fo.
  destruct (dim_valid N k Hdim) as (HP & HN0 & Hk).
  destruct (cbs_glev h pr w lp lt log cp ct count n N k input bsk ak scr scg scl d1 d2 D sk s Eb Ea B m) as (lo & glev & E1 & E2 & Lg & Wg & Pg); try assumption.
  assert (HE0 : 0 <= cbs_glev_noise N k n cp ct w lp lt Eb Ea D).
  { destruct (nth_error glev 0) as [c|] eqn:Ec; [|apply nth_error_None in Ec; lia]. destruct (Pg 0%nat c Ec) as (_ & (e & Be & _)).
    specialize (Be 0%nat HN0). pose proof (Z.abs_nonneg (e 0%nat)). lia. }
  unfold circuit_bootstrap. rewrite E1. cbn [bind]. rewrite E2. cbn [bind].
  destruct (scheme_switch_fft_accumulates_refuted pr w ls cs count N k out glev ssk sk Es d3 D Hw HP Hls Hcs Hlcs HEs HD Hsk Hbin Hssk Lo Fo Lg Wg Hd3) as (g & E3 & P3).
  exists g. split; [assumption|]. intros j t sj row row' y y' Hj Hr Hr' Hy Hy'.
  assert (Ht : (t < length glev)%nat). { rewrite Lg. destruct (proj1 (Forall_forall _ _) Fo row (nth_error_In _ _ Hr)) as (Lr & _). rewrite <- Lr. apply nth_error_Some. congruence. }
  destruct (nth_error glev t) as [x|] eqn:Ex; [|apply nth_error_None in Ex; lia]. destruct (Pg t x Ex) as (_ & Px).
  specialize (P3 j t sj row row' x y y' Hj Hr Hr' Ex Hy Hy').
  unfold cbs_noise, ss_noise. set (E0 := cbs_glev_noise N k n cp ct w lp lt Eb Ea D) in *. 
  replace (Z.of_nat N * E0 + Z.of_nat k * gadget_bound N cs w ls (Z.of_nat N * Z.of_nat N) Es + D * (1 + Z.of_nat k * Z.of_nat N))
    with (Z.of_nat k * gadget_bound N cs w ls (Z.of_nat N * Z.of_nat N) Es + D * (1 + Z.of_nat k * Z.of_nat N) + (0 + Z.of_nat N * E0)) by ring.
  eapply pnear_trans; [exact P3|]. apply pnear_add; [apply pnear_refl; reflexivity|].
  eapply pnear_peq; [reflexivity| |apply (neg_s_near N w k sk E0 sj _ _ Hsk Hbin (nth_error_In _ _ Hj) HE0 Px)].
  intros q Hq. unfold popp. etransitivity; [apply zeq_opp; apply (pmul_scale_l N (2 ^ w) _ (pconst m) (coef sj) q Hq)|].
  unfold pscale at 1. etransitivity; [apply zeq_opp; apply zeq_mul; [reflexivity|apply (pconst_mul N w m (coef sj) q Hq)]|]. unfold pscale. apply zeq_refl'. ring.
Qed.
Print Assumptions circuit_bootstrap_reuse_refuted.

(** Refusals: eight or more levels, and a last level that does not fit the word even though the radix passes the
    validity check (log * count = w - 1 or w). *)
Theorem circuit_bootstrap_count_refused h pr w lp lt ls log cp ct cs count n N k out input bsk ak ssk scr scg scl d1 d2 d3 : (8 <= count)%nat ->
  circuit_bootstrap h pr w lp lt ls log cp ct cs count n N k out input bsk ak ssk scr scg scl d1 d2 d3 = Panic.
Proof. intros H. unfold circuit_bootstrap, cbs_hi_noise. destruct (Nat.ltb_spec count 8); [lia|]. reflexivity. Qed.
Print Assumptions circuit_bootstrap_count_refused.
Theorem circuit_bootstrap_wide_radix_refuted h pr w lp lt ls log cp ct cs count n N k out input bsk ak ssk scr scg scl d1 d2 d3 g : 
  (1 <= count)%nat -> length scl = count -> w <= log * Z.of_nat count + 1 ->
  circuit_bootstrap h pr w lp lt ls log cp ct cs count n N k out input bsk ak ssk scr scg scl d1 d2 d3 <> Ok g.
Proof.
  intros Hc Ls Hw E. unfold circuit_bootstrap in E. destruct (cbs_hi_noise _ _ _ _ _ _ _ _ _ _ _ _ _ _ _) as [lo| |]; try discriminate. cbn [bind] in E.
  assert (G : forall glev rot perm ks gk i ds, glev <> [] -> (i + length glev = count)%nat -> forall gs, cbs_trace_loop h pr w lt log ct N k glev rot perm ks gk ak i ds <> Ok gs).
  { clear E. induction glev as [|a glev IH]; intros rot perm ks gk i ds Hne Hl gs H; [congruence|]. cbn [cbs_trace_loop length] in *.
    destruct (t_encode w 1 (cbs_bits log i)) as [x| |] eqn:Ex; try discriminate. cbn [bind] in H.
    destruct (add_at w (gb rot) i x) as [b| |]; try discriminate. cbn [bind] in H.
    destruct (glwe_shr_round _ _ _ _) as [sh| |]; try discriminate. cbn [bind] in H.
    destruct (trace _ _ _ _ _ _ _ _ _ _ _ _ _) as [g'| |]; try discriminate. cbn [bind] in H.
    destruct glev as [|a' glev].
    - cbn [length] in Hl. unfold t_encode, cbs_bits in Ex. replace (Z.of_nat i + 1) with (Z.of_nat count) in Ex by lia. destruct (Z.ltb_spec (log * Z.of_nat count + 1) w); [lia|discriminate].
    - destruct (cbs_trace_loop _ _ _ _ _ _ _ _ _ _ _ _ _ _ (S i) _) as [gs'| |] eqn:E'; try discriminate. revert E'. apply IH; [discriminate|lia]. }
  destruct (cbs_trace_loop _ _ _ _ _ _ _ _ _ _ _ _ _ _ 0%nat _) as [gs| |] eqn:E'; try discriminate. revert E'. apply G; [|lia]. destruct scl; [cbn in Ls; lia|discriminate].
Qed.
Print Assumptions circuit_bootstrap_wide_radix_refuted.

(** ** A concrete case: degree 8, LWE dimension 2, a GGSW result with two levels of 7 bits; the bit selects between two
    ciphertexts. [reuse] bootstraps into an output that holds an earlier result. *)
Definition ex_lwe (m : Z) : res lwe := lwe_sk_encrypt 64 2 [1; 0] m 1 [0xDEADBEEFDEADBEEF; 0x123456789ABCDEF] 12345.
Definition ex_arnd (i : nat) : list (list (list (list Z) * option (list Z))) :=
  [map (fun c => ([map (fun j => (Z.of_nat (i + 7 * c + j + 1) * 0x9E3779B97F4A7C15) mod 2 ^ 64) (seq 0 8)],
     Some (map (fun j => (Z.of_nat ((i + c + j) mod 9) - 4) mod 2 ^ 64) (seq 0 8)))) (seq 0 2)].
Definition ex_srnd2 (i : nat) := firstn 2 (ex_srnd i).
Definition ex_junk : glwe := {| ga := [repeat 5 8]; gb := repeat 6 8 |}.
Definition ex_cbs (reuse : bool) (m : Z) : res (list Z) :=
  bsk <- generate_bsk Release 64 16 3 2 8 1 (repeat (ggsw_new 8 1 3) 2) [1; 0] ex_sk ex_rnd ;;
  ak <- generate_ak Release 64 20 2 8 1 (repeat [repeat (glwe_new 8 1) 2] 3) ex_sk [repeat 99 8] ex_arnd ;;
  ssk <- generate_ssk Release 64 20 2 8 1 (repeat (repeat (glwe_new 8 1) 2) 1) ex_sk ex_fmul ex_srnd2 ;;
  c <- ex_lwe m ;;
  let run out := circuit_bootstrap ex_hw Release 64 16 20 20 7 3 2 2 2 2 8 1 out c bsk ak ssk {| lwe_a := [7; 8]; lwe_b := 9 |} ex_junk [ex_junk; ex_junk] ex_err (fun i j => ex_err (i + j)) (fun i j => ex_err (i + 2 * j)) in
  out <- (if reuse then run (ggsw_new 8 1 2) else Ok (ggsw_new 8 1 2)) ;;
  g <- run out ;;
  x0 <- glwe_encode_encrypt 64 8 1 ex_sk (map (fun j => Z.of_nat j mod 8) (seq 0 8)) 3 [map (fun j => (Z.of_nat j * 0x123456789ABCDEF) mod 2 ^ 64) (seq 1 8)] (Some (repeat 3 8)) ;;
  x1 <- glwe_encode_encrypt 64 8 1 ex_sk (map (fun j => (Z.of_nat j + 3) mod 8) (seq 0 8)) 3 [map (fun j => (Z.of_nat j * 0xFEDCBA987654321) mod 2 ^ 64) (seq 1 8)] (Some (repeat 5 8)) ;;
  r <- cmux ex_hw Release 64 7 2 8 1 ex_junk x0 x1 g (ex_err 1) ;;
  glwe_decrypt_decode Release 64 8 1 ex_sk r 3.
Example circuit_bootstrap_run : ex_cbs false 0 = Ok (map (fun j => Z.of_nat j mod 8) (seq 0 8)) /\ ex_cbs false 1 = Ok (map (fun j => (Z.of_nat j + 3) mod 8) (seq 0 8)).
Proof. vm_compute. auto. Qed.
Example circuit_bootstrap_reuse_run : ex_cbs true 1 <> Ok (map (fun j => (Z.of_nat j + 3) mod 8) (seq 0 8)).
Proof. vm_compute. discriminate. Qed.
(** The same data meet the hypotheses of [circuit_bootstrap_end_to_end] (those on the shared keys are in
    [univariate_bootstrap_hyps]). *)
Example circuit_bootstrap_hyps :
  (forall j, length (ex_arnd j) = 1%nat /\ Forall (fun r => length r = 2%nat /\ Forall (glwe_rnd_ok 8 1 64 4) r) (ex_arnd j)) /\
  (forall i, length (ex_srnd2 i) = 2%nat /\ Forall (glwe_rnd_ok 8 1 64 4) (ex_srnd2 i)) /\
  (forall a b, In a ex_sk -> In b ex_sk -> length (ex_fmul a b) = 8%nat /\ peq 8 (2 ^ 64) (coef (ex_fmul a b)) (pmul 8 (coef a) (coef b))) /\
  near 64 12345 12345 0 /\ 12345 + (Z.of_nat 2 + 1) * 2 ^ (64 - 4 + Z.of_nat (log_slots 2) - 1) < 2 ^ (64 - 2) /\ 7 * Z.of_nat 2 + 1 < 64 /\
  cmux_noise 8 1 2 64 7 (cbs_noise 8 1 2 3 2 2 64 16 20 20 4 4 4 1) 1 + 5 < 2 ^ (64 - 3 - 1).
Proof.
  assert (R : forall (i c : nat), glwe_rnd_ok 8 1 64 4 ([map (fun j => (Z.of_nat (i + 7 * c + j + 1) * 0x9E3779B97F4A7C15) mod 2 ^ 64) (seq 0 8)],
     Some (map (fun j => (Z.of_nat ((i + c + j) mod 9) - 4) mod 2 ^ 64) (seq 0 8)))).
  { intros i c. split; [split; [reflexivity|repeat constructor; cbn; lia]|]. cbn [fst snd]. split.
    - constructor; [|constructor]. apply Forall_forall. intros y Hy. apply in_map_iff in Hy as (j & <- & _). apply Z.mod_pos_bound. lia.
    - split.
      + split; [reflexivity|]. apply Forall_forall. intros y Hy. apply in_map_iff in Hy as (j & <- & _). apply Z.mod_pos_bound. lia.
      + exists (fun j => Z.of_nat ((i + c + j) mod 9) - 4). split.
        * intros j Hj. pose proof (Nat.mod_upper_bound (i + c + j) 9 ltac:(lia)). lia.
        * intros j Hj. unfold coef. rewrite nth_map_seq by exact Hj. etransitivity; [apply zeq_mod|]. apply zeq_refl'. unfold padd, p0. ring. }
  split; [|split; [|split; [|split; [|split; [vm_compute; reflexivity|split; vm_compute; reflexivity]]]]].
  - intros j. split; [reflexivity|]. constructor; [|constructor]. split; [reflexivity|]. apply Forall_forall. intros x Hx. apply in_map_iff in Hx as (c & <- & _). apply R.
  - intros i. split; [reflexivity|]. apply Forall_forall. intros x Hx. assert (Hx' : In x (ex_srnd i)) by (rewrite <- (firstn_skipn 2 (ex_srnd i)); apply in_or_app; now left). clear Hx. rename Hx' into Hx. apply in_map_iff in Hx as (c & <- & _). apply R.
  - intros a b [<-|[]] [<-|[]]. split; [reflexivity|]. intros j Hj.
    destruct (poly_mad_ok 64 8 (zpoly 8) (nth 0 ex_sk []) (nth 0 ex_sk [])) as (p & Ep & Lp & _ & Pp); [reflexivity|reflexivity|reflexivity|reflexivity|].
    unfold ex_fmul. change [1; 0; 0; 1; 1; 0; 1; 0] with (nth 0 ex_sk []). rewrite Ep.
    etransitivity; [exact (Pp j Hj)|]. unfold padd. apply zeq_refl'. replace (coef (zpoly 8) j) with 0; [reflexivity|]. unfold coef, zpoly. now rewrite nth_repeat.
  - exists 12345. split; [reflexivity|]. reflexivity.
Qed.
