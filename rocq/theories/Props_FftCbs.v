(** C108, C109: key switching, the trace, scheme switching and circuit bootstrapping computed through the floating-point FFT. *)
From Coq Require Import Reals ZArith List Lia Lra Bool.
From Coquelicot Require Import Complex.
From Verif Require Import Base Alu AluProofs MuxGraph PolyRing Tfhe TfheGlwe TfheBoot TfheTrace TfheSwitch TfheCbs SpecTfhe SpecGlwe SpecBoot SpecTrace SpecSwitch SpecCbs
  FluentIntProofs TfheProofs TfheProofs2 TfheProofs3
  TfheGlweProofs TfheGlweProofs2 TfheGlweProofs3 TfheGlweProofs4 TfheBootProofs TfheBootProofs2 TfheBootProofs3 TfheBootProofs4 TfheSwitchProofs Props_Boot Props_Trace Props_Switch Props_Cbs.
From Verif Require Import Fft FftGlwe FftCbs SpecFft SpecFftGlwe SpecFftCbs FftProofs FftProofs5 FftProofs6 FftFloat FftBound FftGlweProofs FftGlweProofs2 FftGlweProofs3
  FftRep FftCbsProofs FftCbsProofs2 FftCbsProofs3 Props_Fft Props_FftGlwe.
Import ListNotations.
Ltac Zify.zify_post_hook ::= idtac.
Open Scope Z_scope.

Lemma key_bound_fft n u eta tau delta w log count K : (SpecFft.fft_err n u eta tau delta (IZR (2 ^ (w - 1))) (IZR (2 ^ (log - 1))) (K * count) + 3 / 2)%R =
  key_bound n u eta tau delta log count (fwd_err n u eta tau delta (IZR (2 ^ (w - 1)))) (freq n (IZR (2 ^ (w - 1)))) K.
Proof. unfold key_bound, SpecFft.fft_err. now rewrite acc_mads. Qed.

Section Size.
Context (lg : nat) (h : hw) (Hlg : (1 <= lg <= 12)%nat) (Hx : hw_x86 h = true -> (4 <= lg)%nat).
Lemma size : let n := (2 ^ (lg - 1))%nat in (2 * n = 2 ^ lg)%nat /\ (0 < n)%nat /\ is_pow2 n = true /\ (2 * n <= 4096)%nat /\ (hw_x86 h = true -> (n mod 8 = 0)%nat).
Proof using Hlg Hx.
  cbv zeta. destruct (small_pow lg Hlg) as [P1 P2]. pose proof (half_pow lg ltac:(lia)) as E. rewrite E.
  repeat (split; [first [assumption|reflexivity|apply is_pow2_pow]|]). intros Q. apply mod8_pow. auto.
Qed.
End Size.
Ltac size Hlg Hx := destruct (size _ _ Hlg Hx) as (EN & Hn & Hp2 & H4096 & Hm8); rewrite <- EN in *.

(** C108. A key switch with a key in Fourier form is the integer key switch with an error of at most [D] per coefficient added to its sum of products: same
    results, same refusals. *)
Theorem C108_keyswitch_fft_refines : forall X lg w log count k D h m pr out ct ksk,
  (1 <= lg <= 12)%nat -> (hw_x86 h = true -> (4 <= lg)%nat) -> word w -> 1 <= log -> (1 <= count)%nat -> log * Z.of_nat count < w ->
  products_error_at_most X lg w log (k * count) D ->
  glwe_wf w (2 ^ lg) k ct -> gksk_words w (2 ^ lg) k count ksk ->
  exists kskf d, gksk_to_fft X w (2 ^ lg) k ksk = Ok kskf /\ SpecBoot.fft_err (2 ^ lg) k D d /\
    keyswitch_freq X m h pr w log count (2 ^ lg) k out ct kskf = keyswitch_fft h pr w log count (2 ^ lg) k out ct ksk d.
Proof.
  intros X lg w log count k D h m pr out ct ksk Hlg Hx Hw Hl Hc Hs (HD0 & u & eta & tau & delta & Hr & Hac & HD) Wc Wk. size Hlg Hx.
  rewrite key_bound_fft in HD.
  destruct (rows_to_fft_rep X _ u eta tau delta Hac Hn w Hw Hp2 H4096 h m Hm8 k ksk) as (kskf & E & _).
  { eapply Forall_impl; [|exact (proj2 Wk)]. intros r Hr'; apply Hr'. }
  destruct (keyswitch_refines X _ u eta tau delta Hac Hn w Hw Hp2 H4096 h m Hm8 k pr log count Hl Hc Hs Hr D HD0 HD out ct ksk kskf Wc Wk E) as (d & Hd & Ed & _).
  exists kskf, d. auto.
Qed.
Print Assumptions C108_keyswitch_fft_refines.

(** The trace, with automorphism keys in Fourier form. *)
Theorem C108_trace_fft_refines : forall X lg w log count k D h m pr out x ks gk ak,
  (1 <= lg <= 12)%nat -> (hw_x86 h = true -> (4 <= lg)%nat) -> word w -> 1 <= log -> (1 <= count)%nat -> log * Z.of_nat count < w ->
  products_error_at_most X lg w log (k * count) D ->
  glwe_wf w (2 ^ lg) k x -> glwe_wf w (2 ^ lg) k ks -> glwe_wf w (2 ^ lg) k gk -> ak_words w (2 ^ lg) k count ak ->
  exists akf ds, ak_to_fft X w (2 ^ lg) k ak = Ok akf /\ (forall i, SpecBoot.fft_err (2 ^ lg) k D (ds i)) /\
    trace_freq X m h pr w log count (2 ^ lg) k out x ks gk akf = trace h pr w log count (2 ^ lg) k out x ks gk ak ds.
Proof.
  intros X lg w log count k D h m pr out x ks gk ak Hlg Hx Hw Hl Hc Hs (HD0 & u & eta & tau & delta & Hr & Hac & HD) Wx Wk Wg (La & Fa). size Hlg Hx.
  rewrite key_bound_fft in HD.
  destruct (ak_to_fft_ok X _ u eta tau delta Hac Hn w Hw Hp2 H4096 h m Hm8 k pr log count Hl Hc Hs Hr D HD0 HD ak La Fa) as (akf & E & _).
  destruct (trace_refines X _ u eta tau delta Hac Hn w Hw Hp2 H4096 h m Hm8 k pr log count Hl Hc Hs Hr D HD0 HD out x ks gk ak akf Wx Wk Wg La Fa E) as (ds & Hds & Ed & _).
  exists akf, ds. auto.
Qed.
Print Assumptions C108_trace_fft_refines.

Lemma ss_bound n u eta tau delta w ls log cs count k :
  (approx_err n u eta tau delta (switched_err n u eta tau delta (IZR (2 ^ (w - 1))) (IZR (2 ^ (ls - 1))) (k * cs))
     (switched_size n (IZR (2 ^ (w - 1))) (IZR (2 ^ (ls - 1))) (k * cs)) (IZR (2 ^ (log - 1))) ((k + 1) * count) + 3 / 2)%R =
  key_bound n u eta tau delta log count (ss_e n u eta tau delta w k ls cs) (ss_s n w k ls cs) (S k).
Proof. unfold key_bound, approx_err, ss_e, ss_s, switched_err, switched_size. replace (S k) with (k + 1)%nat by lia. reflexivity. Qed.

(** A scheme switch with a key in Fourier form into a fresh ciphertext: the ciphertext it leaves in Fourier form acts as the selector of a CMUX like the one the
    integer computation gives, with an error of at most [D] per coefficient in the product. *)
Theorem C108_scheme_switch_fft_refines : forall X lg w ls cs log count k D h m pr glev ssk,
  (1 <= lg <= 12)%nat -> (hw_x86 h = true -> (4 <= lg)%nat) -> word w -> 1 <= ls -> (1 <= cs)%nat -> ls * Z.of_nat cs < w ->
  1 <= log -> (1 <= count)%nat -> log * Z.of_nat count < w ->
  switched_error_at_most X lg w ls log cs count k D ->
  length glev = count -> Forall (glwe_wf w (2 ^ lg) k) glev -> ssk_words w (2 ^ lg) k cs ssk ->
  exists sskf gf g, ssk_to_fft X w (2 ^ lg) k cs ssk = Ok sskf /\
    scheme_switch_freq X (hw_x86 h) m pr w ls cs count (2 ^ lg) k (ggsw_fft_zero (2 ^ lg) k count) glev sskf = Ok gf /\
    scheme_switch_fft pr w ls cs count (2 ^ lg) k (ggsw_new (2 ^ lg) k count) glev ssk (fun _ _ => glwe_new (2 ^ lg) k) = Ok g /\
    ggsw_wf w (2 ^ lg) k count g /\
    forall c d0 d1, glwe_wf w (2 ^ lg) k d0 -> glwe_wf w (2 ^ lg) k d1 ->
      exists d, SpecBoot.fft_err (2 ^ lg) k D d /\
        cmux_fft X m h pr w log count (2 ^ lg) k c d0 d1 gf = cmux h pr w log count (2 ^ lg) k c d0 d1 g d.
Proof.
  intros X lg w ls cs log count k D h m pr glev ssk Hlg Hx Hw Hls Hcs Hlcs Hl Hc Hlc (HD0 & u & eta & tau & delta & Hr & Hac & HD) Lg Fg Ws. size Hlg Hx.
  rewrite ss_bound in HD.
  destruct (ssk_to_fft_ok X _ u eta tau delta Hac Hn w Hw Hp2 H4096 (hw_x86 h) m Hm8 k pr ls cs Hls Hcs Hlcs ssk Ws) as (sskf & E & _).
  destruct (scheme_switch_rep X _ u eta tau delta Hac Hn w Hw Hp2 H4096 (hw_x86 h) m Hm8 k pr ls cs Hls Hcs Hlcs count glev ssk sskf Ws E Lg Fg) as (gf & g & E1 & E2 & Wg & R).
  exists sskf, gf, g. do 4 (split; [assumption|]). intros c d0 d1 W0 W1.
  destruct (cmux_rep X _ u eta tau delta Hac Hn w Hw Hp2 H4096 h m Hm8 k pr log count Hl Hc Hlc Hr D HD0 _ _ c d0 d1 g gf W0 W1 Wg R HD) as (d & Hd & Ed & _).
  exists d. auto.
Qed.
Print Assumptions C108_scheme_switch_fft_refines.

(** Circuit bootstrapping with keys in Fourier form into a fresh ciphertext, whatever word values the scratch buffers hold: it succeeds or fails as the integer
    computation does for some product errors of at most [D], and its result acts as a CMUX selector like the integer one, with product errors of at most [D4]. *)
Theorem C108_circuit_bootstrap_fft_refines : forall X lg w lp lt ls log cp ct cs count k D D4 h m pr n input bsk ak ssk scr scg scl,
  (1 <= lg <= 12)%nat -> (hw_x86 h = true -> (4 <= lg)%nat) -> word w ->
  1 <= lp -> (1 <= cp)%nat -> lp * Z.of_nat cp < w -> 1 <= lt -> (1 <= ct)%nat -> lt * Z.of_nat ct < w ->
  1 <= ls -> (1 <= cs)%nat -> ls * Z.of_nat cs < w -> 1 <= log -> (1 <= count)%nat -> log * Z.of_nat count < w ->
  cbs_errors_at_most X lg w lp lt ls log cp ct cs count k D D4 ->
  length bsk = n -> Forall (ggsw_wf w (2 ^ lg) k cp) bsk -> ak_words w (2 ^ lg) k ct ak -> ssk_words w (2 ^ lg) k cs ssk ->
  glwe_wf w (2 ^ lg) k scg -> length scl = count -> Forall (glwe_shape (2 ^ lg) k) scl ->
  exists bskf akf sskf d1 d2, bsk_to_fft X w n (2 ^ lg) k cp bsk = Ok bskf /\ ak_to_fft X w (2 ^ lg) k ak = Ok akf /\ ssk_to_fft X w (2 ^ lg) k cs ssk = Ok sskf /\
    (forall i, SpecBoot.fft_err (2 ^ lg) k D (d1 i)) /\ (forall i j, SpecBoot.fft_err (2 ^ lg) k D (d2 i j)) /\
    match circuit_bootstrap h pr w lp lt ls log cp ct cs count n (2 ^ lg) k (ggsw_new (2 ^ lg) k count) input bsk ak ssk scr scg scl d1 d2 (fun _ _ => glwe_new (2 ^ lg) k) with
    | Ok g => ggsw_wf w (2 ^ lg) k count g /\
        exists gf, circuit_bootstrap_freq X m h pr w lp lt ls log cp ct cs count n (2 ^ lg) k (ggsw_fft_zero (2 ^ lg) k count) input bskf akf sskf scr scg scl = Ok gf /\
        forall c x0 x1, glwe_wf w (2 ^ lg) k x0 -> glwe_wf w (2 ^ lg) k x1 ->
          exists d, SpecBoot.fft_err (2 ^ lg) k D4 d /\
            cmux_fft X m h pr w log count (2 ^ lg) k c x0 x1 gf = cmux h pr w log count (2 ^ lg) k c x0 x1 g d
    | Err e => circuit_bootstrap_freq X m h pr w lp lt ls log cp ct cs count n (2 ^ lg) k (ggsw_fft_zero (2 ^ lg) k count) input bskf akf sskf scr scg scl = Err e
    | Panic => circuit_bootstrap_freq X m h pr w lp lt ls log cp ct cs count n (2 ^ lg) k (ggsw_fft_zero (2 ^ lg) k count) input bskf akf sskf scr scg scl = Panic
    end.
Proof.
  intros X lg w lp lt ls log cp ct cs count k D D4 h m pr n input bsk ak ssk scr scg scl Hlg Hx Hw Hlp Hcp Hlcp Hlt Hct Hlct Hls Hcs Hlcs Hl Hc Hlc
    (HD0 & HD40 & u & eta & tau & delta & Hr & Hac & HDp & HDt & HD4) Lb Fb (La & Fa) Ws Wg Ll Fl. cbv zeta in HDp, HDt, HD4. size Hlg Hx.
  rewrite key_bound_fft in HDt. rewrite ss_bound in HD4.
  destruct (bsk_to_fft_ok X _ u eta tau delta Hac Hn w Hw Hp2 H4096 h m Hm8 k pr lp cp Hlp Hcp Hlcp Hr D HDp HD0 n bsk Lb Fb) as (bskf & E1 & _).
  destruct (ak_to_fft_ok X _ u eta tau delta Hac Hn w Hw Hp2 H4096 h m Hm8 k pr lt ct Hlt Hct Hlct Hr D HD0 HDt ak La Fa) as (akf & E2 & _).
  destruct (ssk_to_fft_ok X _ u eta tau delta Hac Hn w Hw Hp2 H4096 (hw_x86 h) m Hm8 k pr ls cs Hls Hcs Hlcs ssk Ws) as (sskf & E3 & _).
  destruct (circuit_bootstrap_rep X _ u eta tau delta Hac Hn w Hw Hp2 H4096 h m Hm8 k pr Hr D HD0 lp lt ls log cp ct cs count Hlp Hcp Hlcp Hlt Hct Hlct Hls Hcs Hlcs Hl HDp HDt
    n input bsk ak ssk bskf akf sskf scr scg scl Lb Fb E1 La Fa E2 Ws E3 Wg Ll Fl) as (d1 & d2 & Hd1 & Hd2 & G).
  exists bskf, akf, sskf, d1, d2. do 5 (split; [assumption|]).
  destruct (circuit_bootstrap _ _ _ _ _ _ _ _ _ _ _ _ _ _ _ _ _ _ _ _ _ _ _ _ _) as [g| |]; [|exact G|exact G].
  destruct G as (Wgg & gf & Ef & R). split; [exact Wgg|]. exists gf. split; [exact Ef|]. intros c x0 x1 W0 W1.
  destruct (cmux_rep X _ u eta tau delta Hac Hn w Hw Hp2 H4096 h m Hm8 k pr log count Hl Hc Hlc Hr D4 HD40 _ _ c x0 x1 g gf W0 W1 Wgg R HD4) as (d & Hd & Ed & _).
  exists d. auto.
Qed.
Print Assumptions C108_circuit_bootstrap_fft_refines.

(** With keys that encrypt what they should: from an encryption of the bit [b] with noise at most [B] it makes a selector for [b]. Every CMUX with
    it returns, up to noise, the second ciphertext if b = 1 and the first if b = 0. *)
Theorem C108_circuit_bootstrap_fft_correct : forall X lg w lp lt ls log cp ct cs count k D D4 h m pr n input bsk ak ssk scr scg scl sk s Eb Ea Es B b,
  let N := (2 ^ lg)%nat in let L := Z.of_nat lg + 1 in
  (1 <= lg <= 12)%nat -> (hw_x86 h = true -> (4 <= lg)%nat) -> word w -> (1 <= k)%nat -> add_exact h pr w -> sub_exact h pr w ->
  1 <= lp -> (1 <= cp)%nat -> lp * Z.of_nat cp < w -> 1 <= lt -> (1 <= ct)%nat -> lt * Z.of_nat ct < w ->
  1 <= ls -> (1 <= cs)%nat -> ls * Z.of_nat cs < w -> 1 <= log -> (1 <= count < 8)%nat -> log * Z.of_nat count + 1 < w ->
  cbs_errors_at_most X lg w lp lt ls log cp ct cs count k D D4 ->
  Forall (ggsw_wf w N k cp) bsk -> ak_words w N k ct ak -> ssk_words w N k cs ssk ->
  0 <= Eb -> 0 <= Ea -> 0 <= Es -> (1 <= n)%nat -> polys_shape N k sk -> binary_polys sk -> binary s -> length s = n ->
  bsk_enc N k cp w lp Eb sk s bsk -> ak_enc N k ct w lt Ea sk ak -> ssk_enc N k cs w ls Es sk ssk ->
  length (lwe_a scr) = n -> glwe_wf w N k scg -> length scl = count -> Forall (glwe_shape N k) scl ->
  0 <= B -> B + (Z.of_nat n + 1) * 2 ^ (w - L + Z.of_nat (log_slots count) - 1) < 2 ^ (w - 2) ->
  lwe_wf w n input -> 0 <= b < 2 -> near w B (lwe_phase s input) (b * 2 ^ (w - 1)) ->
  exists bskf akf sskf gf, bsk_to_fft X w n N k cp bsk = Ok bskf /\ ak_to_fft X w N k ak = Ok akf /\ ssk_to_fft X w N k cs ssk = Ok sskf /\
    circuit_bootstrap_freq X m h pr w lp lt ls log cp ct cs count n N k (ggsw_fft_zero N k count) input bskf akf sskf scr scg scl = Ok gf /\
    forall c x0 x1, glwe_shape N k c -> glwe_wf w N k x0 -> glwe_wf w N k x1 ->
      exists r, cmux_fft X m h pr w log count N k c x0 x1 gf = Ok r /\ glwe_wf w N k r /\
        pnear N w (cmux_noise N k count w log (cbs_noise N k n cp ct cs w lp lt ls Eb Ea Es D) D4) (glwe_phase N sk r)
          (if b =? 1 then glwe_phase N sk x1 else glwe_phase N sk x0).
Proof.
  intros X lg w lp lt ls log cp ct cs count k D D4 h m pr n input bsk ak ssk scr scg scl sk s Eb Ea Es B b N L Hlg Hx Hw Hk Hadd Hsub
    Hlp Hcp Hlcp Hlt Hct Hlct Hls Hcs Hlcs Hl Hc Hlc Herr Fb Wa Ws HEb HEa HEs Hn Hsk Hbin Hs Ls Pb Pa Ps Hscr Wg Ll Fl HB HBn Wi Hb Hnear.
  assert (Hdim : glwe_dim_valid N k = true) by now apply dim_pow.
  assert (EL : Z.of_nat (Nat.log2 N) + 1 = L) by (unfold N, L; rewrite Nat.log2_pow2 by lia; reflexivity).
  assert (HLw : L < w) by (unfold L; destruct Hw; subst w; lia).
  assert (Lb : length bsk = n). { rewrite <- Ls. symmetry. exact (Forall2_len _ _ _ Pb). }
  destruct (C108_circuit_bootstrap_fft_refines X lg w lp lt ls log cp ct cs count k D D4 h m pr n input bsk ak ssk scr scg scl) as (bskf & akf & sskf & d1 & d2 & E1 & E2 & E3 & Hd1 & Hd2 & G); try assumption; try lia.
  pose proof Herr as (HD0 & HD40 & _).
  pose proof (circuit_bootstrap_correct h pr w lp lt ls log cp ct cs count n N k input bsk ak ssk scr scg scl d1 d2 (fun _ _ => glwe_new N k) D sk s Eb Ea Es B b) as U.
  cbv zeta in U. rewrite EL in U. destruct U as (g & Eg & Vg & WWg & Pg); try assumption.
  { apply Wg. } { intros i j. now apply no_err. }
  fold N in G. rewrite Eg in G. destruct G as (Wgg & gf & Ef & HM). exists bskf, akf, sskf, gf. do 4 (split; [assumption|]).
  intros c x0 x1 Hcs' W0 W1. destruct (HM c x0 x1 W0 W1) as (d & Hd & Ed).
  destruct (cmux_correct h pr w log count N k c x0 x1 g d D4 Hw Hdim Hadd Hsub Hl ltac:(lia) ltac:(lia) Hcs' W0 W1 Vg HD40 Hd) as (r & Er & Wr & Pr).
  exists r. split; [now rewrite Ed|]. split; [exact Wr|]. apply Pr; try assumption; [lia|].
  destruct Pg as (A1 & A2 & _ & A4). destruct (nth_error g k) as [row|] eqn:Er'; [|apply nth_error_None in Er'; lia].
  pose proof (proj1 (Forall_forall _ _) A2 row (nth_error_In _ _ Er')) as Lr. cbv beta in Lr. destruct (nth_error row 0) as [y|] eqn:Ey; [|apply nth_error_None in Ey; lia].
  destruct (A4 row eq_refl 0%nat y Ey) as (_ & (ee & Be & _)). destruct (dim_valid N k Hdim) as (_ & HN0 & _). specialize (Be 0%nat HN0). pose proof (Z.abs_nonneg (ee 0%nat)). lia.
Qed.
Print Assumptions C108_circuit_bootstrap_fft_correct.

(** Products of key polynomials computed as in key generation (transform both, multiply, transform back): the exact product. *)
Lemma sint_bit w b : word w -> b = 0 \/ b = 1 -> sint w b = b.
Proof. intros Hw Hb. unfold sint. destruct Hw; subst w; destruct Hb; subst b; reflexivity. Qed.
Lemma scoef_bit w s i : word w -> binary s -> scoef w s i = coef s i /\ 0 <= coef s i <= 1.
Proof.
  intros Hw Hb. unfold scoef, coef. assert (nth i s 0 = 0 \/ nth i s 0 = 1) as E.
  { destruct (Nat.lt_ge_cases i (length s)) as [L|L]; [|rewrite nth_overflow by exact L; auto]. exact (proj1 (Forall_forall _ _) Hb _ (nth_In _ _ L)). }
  rewrite sint_bit by assumption. split; [reflexivity|lia].
Qed.
Theorem C109_key_product_exact : forall X lg w x86 m s t,
  (1 <= lg <= 12)%nat -> (x86 = true -> (4 <= lg)%nat) -> word w -> binary_products_exact X lg ->
  binary s -> binary t -> length s = (2 ^ lg)%nat -> length t = (2 ^ lg)%nat ->
  exists r, fft_sum_of_products X x86 m w (2 ^ (lg - 1)) [(s, t)] = Ok r /\ length r = (2 ^ lg)%nat /\
    peq (2 ^ lg) (2 ^ w) (coef r) (pmul (2 ^ lg) (coef s) (coef t)).
Proof.
  intros X lg w x86 m s t Hlg Hx Hw (u & eta & tau & delta & Hr & Hac & HB) Hs Ht Ls Lt.
  assert (Hww : 1 <= w <= 1000) by (destruct Hw; subst; lia).
  assert (Hb : Forall (fun p => forall i, (i < 2 ^ lg)%nat -> (Rabs (IZR (scoef w (fst p) i)) <= 1)%R /\ (Rabs (IZR (scoef w (snd p) i)) <= 1)%R) [(s, t)]).
  { constructor; [|constructor]. cbn [fst snd]. intros i Hi. destruct (scoef_bit w s i Hw Hs) as (E1 & B1). destruct (scoef_bit w t i Hw Ht) as (E2 & B2). rewrite E1, E2.
    rewrite <- !abs_IZR. split; apply IZR_le; lia. }
  destruct (C104_fft_exact_when_small X lg w x86 m u eta tau delta 1 1 [(s, t)] Hlg Hx Hww Hr Hac ltac:(lra) ltac:(lra) ltac:(repeat constructor; assumption) Hb HB)
    as (r & E & L & P).
  exists r. split; [exact E|]. split; [exact L|]. intros k Hk. specialize (P k Hk). cbv zeta in P. cbn [sum_of_products] in P. rewrite Z.add_0_r in P.
  rewrite negacyclic_pmul in P by exact Hk.
  assert (EQ : pmul (2 ^ lg) (scoef w s) (scoef w t) k = pmul (2 ^ lg) (coef s) (coef t) k).
  { unfold pmul, psum. apply zsum_ext. intros i Hi. unfold pscale. rewrite (proj1 (scoef_bit w s i Hw Hs)). f_equal. rewrite !pxn_closed by lia. destruct (_ <? _)%nat; now rewrite (proj1 (scoef_bit w t _ Hw Ht)). }
  rewrite EQ in P. set (v := pmul (2 ^ lg) (coef s) (coef t) k) in *.
  assert (Bv : Z.abs v <= 4096).
  { destruct (small_pow lg Hlg) as [_ P2]. assert (Q : pbnd (2 ^ lg) (1 * Z.of_nat (2 ^ lg)) (pmul (2 ^ lg) (coef s) (coef t))).
    { apply pmul_bound; [lia| |].
      - intros i Hi. destruct (scoef_bit w s i Hw Hs) as (_ & B1). lia.
      - unfold l1bnd. rewrite <- (Z.mul_1_r (Z.of_nat _)), <- zsum_const. apply zsum_le. intros i Hi. destruct (scoef_bit w t i Hw Ht) as (_ & B1). lia. }
    specialize (Q k Hk). fold v in Q. cbv beta in Q. lia. }
  assert (Hn : Z.rem v (2 ^ w) =? - 2 ^ (w - 1) = false).
  { apply Z.eqb_neq. intros Q. pose proof (pow_pos' w ltac:(lia)) as W. assert (Z.abs (Z.rem v (2 ^ w)) <= Z.abs v).
    { rewrite <- Z.rem_abs by lia. apply Z.rem_le; lia. }
    destruct Hw; subst w; [change (2 ^ (32 - 1)) with 2147483648 in Q|change (2 ^ (64 - 1)) with 9223372036854775808 in Q]; lia. }
  rewrite Hn in P. unfold coef at 1. rewrite P. apply zeq_mod.
Qed.
Print Assumptions C109_key_product_exact.

Lemma tri_in (l : list (list Z)) p : In p (tri_pairs l) -> In (fst p) l /\ In (snd p) l.
Proof.
  revert p. induction l as [|x l IH]; intros p Hp; [destruct Hp|]. cbn [tri_pairs] in Hp. apply in_app_iff in Hp as [Hp|Hp].
  - apply in_map_iff in Hp as (y & <- & Hy). cbn [fst snd]. split; [now left|assumption].
  - destruct (IH p Hp). split; now right.
Qed.
(** C109. End to end, everything through the floating-point FFT: generate the bootstrap, automorphism and scheme-switch keys, transform them, encrypt a bit, circuit
    bootstrap it, use the result as selector of a CMUX between two ciphertexts and decrypt: the message of the selected one. *)
Theorem C109_circuit_bootstrap_fft_end_to_end : forall X lg w lp lt ls log cp ct cs count k D D4 h m pr n
    bsk0 ak0 ssk0 sc rb ra rs mask e scr scg scl sk s Eb Ea Es B b out x0 x1 p pt E0,
  let N := (2 ^ lg)%nat in let L := Z.of_nat lg + 1 in
  (1 <= lg <= 12)%nat -> (hw_x86 h = true -> (4 <= lg)%nat) -> word w -> (1 <= k)%nat -> add_exact h pr w -> sub_exact h pr w ->
  1 <= lp -> (1 <= cp)%nat -> lp * Z.of_nat cp < w -> 1 <= lt -> (1 <= ct)%nat -> lt * Z.of_nat ct < w ->
  1 <= ls -> (1 <= cs)%nat -> ls * Z.of_nat cs < w -> 1 <= log -> (1 <= count < 8)%nat -> log * Z.of_nat count + 1 < w ->
  cbs_errors_at_most X lg w lp lt ls log cp ct cs count k D D4 -> binary_products_exact X lg ->
  0 <= Eb -> 0 <= Ea -> 0 <= Es -> (1 <= n)%nat -> polys_shape N k sk -> binary_polys sk -> binary s -> length s = n ->
  length bsk0 = n -> Forall (fun g => length g = S k /\ Forall (fun r => length r = cp /\ Forall (glwe_fresh N k) r) g) bsk0 -> (forall i, ggsw_rnd_ok N k cp w Eb (rb i)) ->
  length ak0 = lg -> Forall (fun ksk => length ksk = k /\ Forall (fun r => length r = ct /\ Forall (glwe_fresh N k) r) ksk) ak0 -> polys_shape N k sc ->
  (forall j, length (ra j) = k /\ Forall (fun r => length r = ct /\ Forall (glwe_rnd_ok N k w Ea) r) (ra j)) ->
  length ssk0 = tri_count k -> Forall (fun r => length r = cs /\ Forall (glwe_fresh N k) r) ssk0 ->
  (forall i, length (rs i) = cs /\ Forall (glwe_rnd_ok N k w Es) (rs i)) ->
  length (lwe_a scr) = n -> glwe_wf w N k scg -> length scl = count -> Forall (glwe_shape N k) scl ->
  0 <= B -> B + (Z.of_nat n + 1) * 2 ^ (w - L + Z.of_nat (log_slots count) - 1) < 2 ^ (w - 2) ->
  length mask = n -> toruses w mask -> near w B e 0 -> 0 <= b < 2 ->
  glwe_shape N k out -> glwe_wf w N k x0 -> glwe_wf w N k x1 -> 0 < p < w -> p < 32 -> length pt = N ->
  pnear N w E0 (glwe_phase N sk (if b =? 1 then x1 else x0)) (pscale (2 ^ (w - p)) (coef pt)) ->
  cmux_noise N k count w log (cbs_noise N k n cp ct cs w lp lt ls Eb Ea Es D) D4 + E0 < 2 ^ (w - p - 1) ->
  exists bsk ak ssk bskf akf sskf c gf r,
    generate_bsk pr w lp cp n N k bsk0 s sk rb = Ok bsk /\ generate_ak pr w lt ct N k ak0 sk sc ra = Ok ak /\
    generate_ssk pr w ls cs N k ssk0 sk (key_product X (hw_x86 h) m w (2 ^ (lg - 1))) rs = Ok ssk /\
    bsk_to_fft X w n N k cp bsk = Ok bskf /\ ak_to_fft X w N k ak = Ok akf /\ ssk_to_fft X w N k cs ssk = Ok sskf /\
    lwe_sk_encrypt w n s b 1 mask e = Ok c /\
    circuit_bootstrap_freq X m h pr w lp lt ls log cp ct cs count n N k (ggsw_fft_zero N k count) c bskf akf sskf scr scg scl = Ok gf /\
    cmux_fft X m h pr w log count N k out x0 x1 gf = Ok r /\
    glwe_decrypt_decode pr w N k sk r p = Ok (map (fun x => x mod 2 ^ p) pt).
Proof.
  intros X lg w lp lt ls log cp ct cs count k D D4 h m pr n bsk0 ak0 ssk0 sc rb ra rs mask e scr scg scl sk s Eb Ea Es B b out x0 x1 p pt E0 N L Hlg Hx Hw Hk Hadd Hsub
    Hlp Hcp Hlcp Hlt Hct Hlct Hls Hcs Hlcs Hl Hc Hlc Herr Hex HEb HEa HEs Hn Hsk Hbin Hs Ls Lb Fb Hrb La Fa Hsc Hra Lss Fss Hrs Hscr Wg Ll Fl HB HBn Lm Tm He Hb Hout W0 W1 Hp Hp' Lp Hpt Hnoise.
  assert (Hdim : glwe_dim_valid N k = true) by now apply dim_pow. destruct (dim_valid N k Hdim) as (HP & HN0 & _).
  assert (Elg : Nat.log2 N = lg) by (unfold N; now rewrite Nat.log2_pow2 by lia).
  destruct (generate_bsk_ok N w pr lp cp k Hw Hdim Hlp Hcp Hlcp n bsk0 s sk Eb rb Hn Hs Ls Hsk HEb Lb Fb Hrb) as (bsk & E1 & P1).
  destruct (generate_bsk_wf pr w lp cp n N k bsk0 s sk rb Eb bsk Hw Hdim Hlp Hcp Hlcp Hs Ls Hsk Lb Fb HEb Hrb E1) as (Lb' & Wb).
  assert (La' : length ak0 = Nat.log2 N) by congruence.
  destruct (automorphism_key_correct pr w lt ct N k ak0 sk sc ra Ea Hw Hdim Hlt Hct ltac:(lia) Hsk Hbin HEa Hsc La' Fa Hra) as (ak & E2 & P2).
  assert (EN : (2 * 2 ^ (lg - 1) = N)%nat) by (unfold N; rewrite <- (half_pow lg) by lia; reflexivity).
  assert (Wa : ak_words w N k ct ak).
  { pose proof E2 as E2'. unfold generate_ak in E2'. destruct (_ && _) in E2'; [|discriminate]. rewrite <- EN in *.
    destruct (ak_loop_wf w Hw (2 ^ (lg - 1)) k pr lt ct sk Ea HP Hlt ltac:(lia) Hsk HEa ak0 sc 1%nat ra ak Hsc Fa Hra E2') as (A1 & A2). split; [congruence|exact A2]. }
  set (fm := key_product X (hw_x86 h) m w (2 ^ (lg - 1))).
  assert (Hmul : forall a c, In a sk -> In c sk -> length (fm a c) = N /\ peq N (2 ^ w) (coef (fm a c)) (pmul N (coef a) (coef c))).
  { intros a c Ia Ic. destruct (C109_key_product_exact X lg w (hw_x86 h) m a c Hlg Hx Hw Hex (proj1 (Forall_forall _ _) Hbin a Ia) (proj1 (Forall_forall _ _) Hbin c Ic)
      (proj1 (Forall_forall _ _) (proj2 Hsk) a Ia) (proj1 (Forall_forall _ _) (proj2 Hsk) c Ic)) as (q & Eq & Lq & Pq). unfold fm, key_product. rewrite Eq. auto. }
  destruct (scheme_switch_key_correct pr w ls cs N k ssk0 sk fm rs Es Hw Hdim Hls Hcs ltac:(lia) Hsk HEs Lss Fss Hmul Hrs) as (ssk & E3 & P3).
  assert (Ws : ssk_words w N k cs ssk).
  { pose proof E3 as E3'. unfold generate_ssk in E3'. destruct (_ && _) in E3'; [|discriminate]. rewrite tri_collect_all in E3'. cbn [bind] in E3'.
    assert (Lpr : length (tri_pairs sk) = length ssk0) by (rewrite tri_pairs_len, Lss; f_equal; apply Hsk).
    rewrite firstn_all2 in E3' by lia. rewrite <- EN in *.
    destruct (ssk_loop_wf w Hw (2 ^ (lg - 1)) k pr ls cs sk fm Es HP Hls Hcs ltac:(lia) Hsk HEs (tri_pairs sk) ssk0 rs ssk Lpr) as (A1 & A2); try assumption.
    { intros q Hq. destruct (tri_in sk q Hq) as (I1 & I2). apply (Hmul _ _ I1 I2). }
    split; [congruence|exact A2]. }
  destruct (lwe_sk_encrypt_near w n s b 1 mask e B Hw Hn Ls Lm Tm ltac:(destruct Hw; lia) He) as (c & E4 & W4 & P4).
  destruct (C108_circuit_bootstrap_fft_correct X lg w lp lt ls log cp ct cs count k D D4 h m pr n c bsk ak ssk scr scg scl sk s Eb Ea Es B b) as (bskf & akf & sskf & gf & F1 & F2 & F3 & F4 & F5); try assumption.
  destruct (F5 out x0 x1 Hout W0 W1) as (r & Er & Wr & Pr).
  exists bsk, ak, ssk, bskf, akf, sskf, c, gf, r. do 9 (split; [assumption|]).
  apply (glwe_decode_ok N w pr k sk r p pt (cmux_noise N k count w log (cbs_noise N k n cp ct cs w lp lt ls Eb Ea Es D) D4 + E0)); try assumption.
  eapply pnear_trans; [exact Pr|]. destruct (b =? 1); exact Hpt.
Qed.
Print Assumptions C109_circuit_bootstrap_fft_end_to_end.

(** The hypotheses on errors and noise, met in double precision at degree 16: bootstrapping and trace radix 6 x 5, scheme-switch radix 5 x 6, result radix 4 x 4. *)
Definition zsw_e (n : positive) (dl A B : Z) (L : nat) : Z :=
  zmads zu zeta (zfwd n zu zeta ztau dl A) (zfreq n A) (zfwd n zu zeta ztau dl B) (zfreq n B) L (zfwd n zu zeta ztau dl A) (zfreq n A).
Definition zsw_s (n : positive) (A B : Z) (L : nat) : Z := zfreq n A + Z.of_nat L * FftBound.fmul (zfreq n A) (zfreq n B).
Lemma switched_eval n De dl A B Q L L' D : ub De dl -> 0 <= A -> 0 <= B -> 0 <= Q ->
  2 * zprod n zu zeta ztau dl (zsw_e n dl (A * one) (B * one) L) (zsw_s n (A * one) (B * one) L) (Q * one) L' + 3 * one <= 2 * D * one ->
  (approx_err (Pos.to_nat n) (powerRZ 2 (-53)) (powerRZ 2 (-1075)) (powerRZ 2 (-47)) De
    (switched_err (Pos.to_nat n) (powerRZ 2 (-53)) (powerRZ 2 (-1075)) (powerRZ 2 (-47)) De (IZR A) (IZR B) L) (switched_size (Pos.to_nat n) (IZR A) (IZR B) L)
    (IZR Q) L' + 3 / 2 <= IZR D)%R.
Proof.
  intros Hd HA HB HQ. apply ub_elim. pose proof zu_ok. pose proof zeta_ok. pose proof ztau_ok.
  apply (ub_const A) in HA. apply (ub_const B) in HB. apply (ub_const Q) in HQ.
  pose proof (u_fwd n _ _ _ _ _ _ _ _ zu_ok zeta_ok ztau_ok Hd _ _ HA). pose proof (u_fwd n _ _ _ _ _ _ _ _ zu_ok zeta_ok ztau_ok Hd _ _ HB).
  pose proof (u_freq n _ _ HA). pose proof (u_freq n _ _ HB).
  apply u_prod; try assumption.
  - unfold zsw_e, switched_err. now apply u_mads.
  - unfold zsw_s, switched_size. apply ub_add; [assumption|]. rewrite INR_IZR_INZ. apply ub_cmul; [lia|]. now apply ub_mul.
Qed.
Lemma C109_errors : cbs_errors_at_most f64_ext 4 64 6 6 5 4 5 5 6 4 1 (2 ^ 37) (2 ^ 48) /\ binary_products_exact f64_ext 4.
Proof.
  destruct (C104_double_precision 4 ltac:(lia)) as (Hr & Hac). assert (U0 : ub 0 0) by (apply (ub_const 0); lia). split.
  - split; [lia|]. split; [lia|]. do 4 eexists. split; [exact Hr|]. split; [exact Hac|]. cbv zeta. change (2 ^ (4 - 1))%nat with (Pos.to_nat 8). split; [|split].
    + apply (bound_eval 8 0 0); [exact U0|lia|lia|]. vm_compute. discriminate.
    + apply (bound_eval 8 0 0); [exact U0|lia|lia|]. vm_compute. discriminate.
    + apply (switched_eval 8 0 0); [exact U0|lia|lia|lia|]. vm_compute. discriminate.
  - do 4 eexists. split; [exact Hr|]. split; [exact Hac|]. change (2 ^ (4 - 1))%nat with (Pos.to_nat 8).
    destruct (u_err 8 _ _ _ _ _ _ _ _ 1 (1 * one) 1 (1 * one) 1 zu_ok zeta_ok ztau_ok U0 (ub_const 1 ltac:(lia)) (ub_const 1 ltac:(lia))) as [_ Q].
    pose proof one_pos as P. apply (Rmult_lt_reg_r (IZR one)); [exact P|]. eapply Rle_lt_trans; [exact Q|].
    assert (V : 2 * zerr 8 zu zeta ztau 0 (1 * one) (1 * one) 1 < one) by (vm_compute; reflexivity). apply IZR_lt in V. rewrite mult_IZR in V. lra.
Qed.
Lemma C109_noise : 2 ^ 40 + (Z.of_nat 2 + 1) * 2 ^ (64 - 5 + Z.of_nat (log_slots 4) - 1) < 2 ^ (64 - 2) /\
  cmux_noise (2 ^ 4) 1 4 64 4 (cbs_noise (2 ^ 4) 1 2 5 5 6 64 6 6 5 8 8 8 (2 ^ 37)) (2 ^ 48) + 0 < 2 ^ (64 - 1 - 1).
Proof. split; vm_compute; reflexivity. Qed.

(** With concrete keys, randomness and messages: either bit selects the right message. *)
Definition ex_glwe_rnd (i r c : nat) : list (list Z) * option (list Z) :=
  ([map (fun j => (Z.of_nat (i + 3 * r + 7 * c + j + 1) * 0x9E3779B97F4A7C15) mod 2 ^ 64) (seq 0 16)],
   Some (map (fun j => (Z.of_nat ((i + r + c + j) mod 9) - 4) mod 2 ^ 64) (seq 0 16))).
Lemma ex_glwe_rnd_ok i r c : glwe_rnd_ok 16 1 64 8 (ex_glwe_rnd i r c).
Proof.
  split; [split; [reflexivity|repeat constructor; cbn; lia]|]. cbn [ex_glwe_rnd fst snd]. split.
  - constructor; [|constructor]. apply Forall_forall. intros y Hy. apply in_map_iff in Hy as (j & <- & _). apply Z.mod_pos_bound. lia.
  - split.
    + split; [reflexivity|]. apply Forall_forall. intros y Hy. apply in_map_iff in Hy as (j & <- & _). apply Z.mod_pos_bound. lia.
    + exists (fun j => Z.of_nat ((i + r + c + j) mod 9) - 4). split.
      * intros j Hj. pose proof (Nat.mod_upper_bound (i + r + c + j) 9 ltac:(lia)). lia.
      * intros j Hj. unfold coef. rewrite nth_map_seq by exact Hj. etransitivity; [apply zeq_mod|]. apply zeq_refl'. unfold padd, p0. ring.
Qed.
Definition ex_rows (rows count i : nat) : list (list (list (list Z) * option (list Z))) := map (fun r => map (ex_glwe_rnd i r) (seq 0 count)) (seq 0 rows).
Lemma ex_rows_ok rows count i : length (ex_rows rows count i) = rows /\ Forall (fun r => length r = count /\ Forall (glwe_rnd_ok 16 1 64 8) r) (ex_rows rows count i).
Proof.
  unfold ex_rows. split; [now rewrite map_length, seq_length|]. apply Forall_forall. intros q Hq. apply in_map_iff in Hq as (r & <- & _). split; [now rewrite map_length, seq_length|].
  apply Forall_forall. intros x Hx. apply in_map_iff in Hx as (c & <- & _). apply ex_glwe_rnd_ok.
Qed.
Definition ex_pt (b : Z) : list Z := if b =? 1 then [1; 0; 1; 1; 0; 0; 1; 0; 1; 1; 1; 0; 0; 1; 0; 1] else [0; 0; 0; 1; 1; 1; 0; 0; 0; 1; 1; 1; 0; 0; 0; 1].
Definition ex_ct (b : Z) : glwe := {| ga := [repeat 0 16]; gb := map (fun x => x * 2 ^ 63) (ex_pt b) |}.
Example C109_instance : forall m b, 0 <= b < 2 ->
  exists bsk ak ssk bskf akf sskf c gf r,
    generate_bsk Release 64 6 5 2 16 1 (repeat (ggsw_new 16 1 5) 2) [1; 0] ex16_sk (ex_rows 2 5) = Ok bsk /\
    generate_ak Release 64 6 5 16 1 (repeat [repeat (glwe_new 16 1) 5] 4) ex16_sk [repeat 0 16] (ex_rows 1 5) = Ok ak /\
    generate_ssk Release 64 5 6 16 1 [repeat (glwe_new 16 1) 6] ex16_sk (key_product f64_ext (hw_x86 ex_hw) m 64 8) (fun i => map (ex_glwe_rnd i 5) (seq 0 6)) = Ok ssk /\
    bsk_to_fft f64_ext 64 2 16 1 5 bsk = Ok bskf /\ ak_to_fft f64_ext 64 16 1 ak = Ok akf /\ ssk_to_fft f64_ext 64 16 1 6 ssk = Ok sskf /\
    lwe_sk_encrypt 64 2 [1; 0] b 1 [0xDEADBEEFDEADBEEF; 0x123456789ABCDEF] 12345 = Ok c /\
    circuit_bootstrap_freq f64_ext m ex_hw Release 64 6 6 5 4 5 5 6 4 2 16 1 (ggsw_fft_zero 16 1 4) c bskf akf sskf
      {| lwe_a := [7; 7]; lwe_b := 9 |} {| ga := [repeat 3 16]; gb := repeat 5 16 |} (repeat {| ga := [repeat 3 16]; gb := repeat 5 16 |} 4) = Ok gf /\
    cmux_fft f64_ext m ex_hw Release 64 4 4 16 1 (glwe_new 16 1) (ex_ct 0) (ex_ct 1) gf = Ok r /\
    glwe_decrypt_decode Release 64 16 1 ex16_sk r 1 = Ok (map (fun x => x mod 2 ^ 1) (ex_pt b)).
Proof.
  intros m b Hb. destruct C109_errors as (HE & HX). destruct C109_noise as (H1 & H2).
  assert (Wt : forall x, 0 <= x < 2 ^ 64 -> glwe_wf 64 16 1 {| ga := [repeat x 16]; gb := repeat 5 16 |}).
  { intros x Hx. split; [repeat constructor|]. split; [constructor; [|constructor]|]; cbn [gb]; apply Forall_forall; intros y Hy; apply repeat_spec in Hy; subst; [exact Hx|unfold torus; lia]. }
  assert (Wc : forall b, glwe_wf 64 16 1 (ex_ct b)).
  { intros q. split; [split; [split; [reflexivity|repeat constructor]|unfold ex_ct, ex_pt; cbn [gb]; rewrite map_length; destruct (q =? 1); reflexivity]|].
    split; cbn [ga gb ex_ct]; [constructor; [|constructor]; apply Forall_forall; intros y Hy; apply repeat_spec in Hy; subst; unfold torus; lia|].
    unfold ex_pt. destruct (q =? 1); repeat constructor; unfold torus; lia. }
  apply (C109_circuit_bootstrap_fft_end_to_end f64_ext 4 64 6 6 5 4 5 5 6 4 1 (2 ^ 37) (2 ^ 48) ex_hw m Release 2 (repeat (ggsw_new 16 1 5) 2) (repeat [repeat (glwe_new 16 1) 5] 4)
    [repeat (glwe_new 16 1) 6] [repeat 0 16] (ex_rows 2 5) (ex_rows 1 5) (fun i => map (ex_glwe_rnd i 5) (seq 0 6)) [0xDEADBEEFDEADBEEF; 0x123456789ABCDEF] 12345
    {| lwe_a := [7; 7]; lwe_b := 9 |} {| ga := [repeat 3 16]; gb := repeat 5 16 |} (repeat {| ga := [repeat 3 16]; gb := repeat 5 16 |} 4) ex16_sk [1; 0] 8 8 8 (2 ^ 40) b
    (glwe_new 16 1) (ex_ct 0) (ex_ct 1) 1 (ex_pt b) 0); try lia; try assumption; try reflexivity.
  - now right.
  - unfold add_exact; cbn; auto.
  - unfold sub_exact; cbn; auto.
  - split; [reflexivity|repeat constructor].
  - unfold binary_polys, binary, ex16_sk; repeat (constructor; auto).
  - unfold binary; repeat (constructor; auto).
  - unfold ggsw_new, glwe_new, zpoly, glwe_fresh, glwe_shape, polys_shape. repeat constructor.
  - intros i. apply ex_rows_ok.
  - unfold glwe_new, zpoly, glwe_fresh, glwe_shape, polys_shape. repeat constructor.
  - split; [reflexivity|repeat constructor].
  - intros i. apply ex_rows_ok.
  - unfold glwe_new, zpoly, glwe_fresh, glwe_shape, polys_shape. repeat constructor.
  - intros i. split; [reflexivity|]. apply Forall_forall. intros x Hx. apply in_map_iff in Hx as (c & <- & _). apply ex_glwe_rnd_ok.
  - apply Wt. lia.
  - repeat constructor.
  - repeat constructor; unfold torus; lia.
  - exists 12345. split; [lia|]. apply zeq_refl'. reflexivity.
  - apply glwe_new_shape.
  - apply Wc.
  - apply Wc.
  - unfold ex_pt. destruct (b =? 1); reflexivity.
  - assert (E : (if b =? 1 then ex_ct 1 else ex_ct 0) = glwe_trivial (glwe_new 16 1) (map (fun x => x * 2 ^ 63) (ex_pt b))).
    { unfold ex_ct, ex_pt. destruct (b =? 1); reflexivity. }
    rewrite E. apply pnear_refl. etransitivity; [apply (glwe_trivial_ok 16 64 1); [apply glwe_new_shape|unfold ex_pt; destruct (b =? 1); reflexivity]|].
    intros i Hi. unfold coef, pscale. change (nth i (map (fun x => x * 2 ^ 63) (ex_pt b)) 0) with (nth i (map (fun x => x * 2 ^ 63) (ex_pt b)) ((fun x => x * 2 ^ 63) 0)).
    rewrite map_nth. apply zeq_refl'. change (64 - 1) with 63. ring.
Qed.
