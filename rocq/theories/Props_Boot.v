(** Theorems about CMUX, modulus switching, lookup tables and programmable bootstrapping. Floating-point error
    is an explicit argument ([d], [ds]) of every operation that goes through the FFT (see TfheBoot.v); the
    theorems hold for every error whose coefficients are at most [D]. *)
From Verif Require Import Base Alu AluProofs PolyRing Tfhe TfheGlwe TfheBoot SpecTfhe SpecGlwe SpecBoot FluentIntProofs TfheProofs TfheProofs2 TfheProofs3 TfheGlweProofs TfheGlweProofs2 TfheGlweProofs3 TfheGlweProofs4 TfheBootProofs TfheBootProofs2 TfheBootProofs3 TfheBootProofs4.
Ltac Zify.zify_post_hook ::= idtac.
Open Scope Z_scope.

(** * C80: CMUX *)

(** Whatever the output buffer holds, [cmux] yields a ciphertext whose phase is that of [d1] if the GGSW
    ciphertext encrypts 1 and that of [d0] if it encrypts 0, up to the stated noise. *)
Theorem cmux_correct h pr w log count N k c d0 d1 g d D : word w -> glwe_dim_valid N k = true ->
  add_exact h pr w -> sub_exact h pr w -> 1 <= log -> (1 <= count)%nat -> log * Z.of_nat count < w ->
  glwe_shape N k c -> glwe_wf w N k d0 -> glwe_wf w N k d1 -> ggsw_valid N k count g = true -> 0 <= D -> fft_err N k D d ->
  exists r, cmux h pr w log count N k c d0 d1 g d = Ok r /\ glwe_wf w N k r /\
    forall sk b E, polys_shape N k sk -> binary_polys sk -> (b = 0 \/ b = 1) -> 0 <= E ->
      ggsw_enc N k count w log E sk (pconst b) g ->
      pnear N w (cmux_noise N k count w log E D) (glwe_phase N sk r) (if b =? 1 then glwe_phase N sk d1 else glwe_phase N sk d0).
Proof. apply cmux_ok. Qed.
Print Assumptions cmux_correct.

(** The previous contents of the output play no role, although the documentation says the result is added. *)
Theorem cmux_overwrites h pr w log count N k c c' d0 d1 g d : glwe_shape N k c -> glwe_shape N k c' ->
  cmux h pr w log count N k c d0 d1 g d = cmux h pr w log count N k c' d0 d1 g d.
Proof.
  intros Hc Hc'. unfold cmux. rewrite (proj2 (glwe_valid_iff N k c) Hc), (proj2 (glwe_valid_iff N k c') Hc').
  destruct (_ && _)%bool; [|reflexivity]. destruct (glwe_sub _ _ _ _ _ _) as [df| |]; cbn [bind]; try reflexivity.
  destruct (glwe_ggsw_mad _ _ _ _ _ _ _ _ _) as [pd| |]; cbn [bind]; try reflexivity.
  destruct Hc as ((Lc & Fc) & Lb). destruct Hc' as ((Lc' & Fc') & Lb').
  unfold glwe_add.
  assert (E : forall a b l l', length l = length l' -> Forall (fun p => length p = N) l -> Forall (fun p => length p = N) l' -> length b = length l -> length a = length l ->
     zip3M (poly_add h pr w) l a b = zip3M (poly_add h pr w) l' a b).
  { induction a as [|x a IH]; intros b l l' Hl F1 F2 Hb Ha.
    - destruct l as [|y l], l' as [|y' l']; try discriminate; reflexivity.
    - destruct l as [|y l], l' as [|y' l'], b as [|z b]; try discriminate. cbn [length] in *. apply Forall_cons_iff in F1 as [A1 F1]. apply Forall_cons_iff in F2 as [A2 F2].
      cbn [zip3M].
      assert (poly_add h pr w y x z = poly_add h pr w y' x z) as -> by (unfold poly_add; rewrite A1, A2; reflexivity).
      destruct (poly_add h pr w y' x z); cbn [bind]; try reflexivity. rewrite (IH b l l'); [reflexivity|lia|assumption|assumption|lia|lia]. }
  set (P := glwe_perturb w pd d). rewrite Lc'. rewrite Lc.
  destruct (Nat.eqb_spec k (length (ga P))) as [Q1|]; destruct (Nat.eqb_spec k (length (ga d0))) as [Q2|]; try reflexivity. cbn [andb].
  rewrite (E (ga P) (ga d0) (ga c) (ga c')) by (assumption || congruence).
  destruct (zip3M _ _ _ _); cbn [bind]; try reflexivity.
  assert (poly_add h pr w (gb c) (gb P) (gb d0) = poly_add h pr w (gb c') (gb P) (gb d0)) as -> by (unfold poly_add; rewrite Lb, Lb'; reflexivity). reflexivity.
Qed.
Print Assumptions cmux_overwrites.

(** The GLEV version selects component by component. *)
Theorem glev_cmux_correct h pr w log count N k D g sk b E : word w -> glwe_dim_valid N k = true ->
  add_exact h pr w -> sub_exact h pr w -> 1 <= log -> (1 <= count)%nat -> log * Z.of_nat count < w -> 0 <= D -> 0 <= E ->
  ggsw_valid N k count g = true -> polys_shape N k sk -> binary_polys sk -> (b = 0 \/ b = 1) -> ggsw_enc N k count w log E sk (pconst b) g ->
  forall c d0 d1 ds, length c = length d0 -> length c = length d1 -> Forall (glwe_shape N k) c -> Forall (glwe_wf w N k) d0 ->
  Forall (glwe_wf w N k) d1 -> (forall i, fft_err N k D (ds i)) ->
  exists r, glev_cmux h pr w log count N k c d0 d1 g ds = Ok r /\ length r = length c /\ Forall (glwe_wf w N k) r /\
    forall E0 log' m0 m1, glev_enc N k w log' E0 sk m0 d0 -> glev_enc N k w log' E0 sk m1 d1 ->
      glev_enc N k w log' (cmux_noise N k count w log E D + E0) sk (if b =? 1 then m1 else m0) r.
Proof.
  intros Hw Hdim Hadd Hsub Hlog Hcnt Hlc HD HE Hg Hs Hbin Hb Henc.
  assert (G : forall c d0 d1 ds, length c = length d0 -> length c = length d1 -> Forall (glwe_shape N k) c -> Forall (glwe_wf w N k) d0 ->
    Forall (glwe_wf w N k) d1 -> (forall i, fft_err N k D (ds i)) ->
    exists r, glev_cmux h pr w log count N k c d0 d1 g ds = Ok r /\ length r = length c /\ Forall (glwe_wf w N k) r /\
    forall j x y0 y1, nth_error r j = Some x -> nth_error d0 j = Some y0 -> nth_error d1 j = Some y1 ->
      pnear N w (cmux_noise N k count w log E D) (glwe_phase N sk x) (if b =? 1 then glwe_phase N sk y1 else glwe_phase N sk y0)).
  { induction c as [|x c IH]; intros [|y0 d0] [|y1 d1] ds L0 L1 Fc F0 F1 Hds; try discriminate.
    - exists []. split; [reflexivity|]. split; [reflexivity|]. split; [constructor|]. intros [|j]; discriminate.
    - cbn [length] in *. apply Forall_cons_iff in Fc as [A Fc]. apply Forall_cons_iff in F0 as [A0 F0]. apply Forall_cons_iff in F1 as [A1 F1].
      destruct (cmux_ok N w h pr log count k x y0 y1 g (ds O) D Hw Hdim Hadd Hsub Hlog Hcnt Hlc A A0 A1 Hg HD (Hds O)) as (r & Er & Wr & Pr).
      destruct (IH d0 d1 (fun i => ds (S i)) ltac:(lia) ltac:(lia) Fc F0 F1 (fun i => Hds (S i))) as (rs & Es & Ls & Ws & Ps).
      exists (r :: rs). cbn [glev_cmux]. rewrite Er. cbn [bind]. rewrite Es. cbn [bind length]. split; [reflexivity|]. split; [lia|]. split; [constructor; assumption|].
      intros [|j] z z0 z1 Hz H0 H1; cbn [nth_error] in *.
      + injection Hz as <-. injection H0 as <-. injection H1 as <-. now apply Pr.
      + now apply (Ps j). }
  intros c d0 d1 ds L0 L1 Fc F0 F1 Hds. destruct (G c d0 d1 ds L0 L1 Fc F0 F1 Hds) as (r & Er & Lr & Wr & Pr).
  exists r. split; [assumption|]. split; [assumption|]. split; [assumption|]. intros E0 log' m0 m1 H0 H1 j x Hx.
  assert (Hj : (j < length r)%nat) by (apply nth_error_Some; congruence).
  destruct (nth_error d0 j) as [y0|] eqn:Y0; [|apply nth_error_None in Y0; lia]. destruct (nth_error d1 j) as [y1|] eqn:Y1; [|apply nth_error_None in Y1; lia].
  split; [apply (proj1 (Forall_forall _ _) Wr x); eapply nth_error_In; eassumption|].
  specialize (Pr j x y0 y1 Hx Y0 Y1). eapply pnear_trans; [exact Pr|]. destruct (b =? 1); [now apply H1|now apply H0].
Qed.
Print Assumptions glev_cmux_correct.

(** * C82: modulus switching *)

(** Every element x of a ciphertext becomes the nearest multiple of 2^v on the grid of 2^L points (after
    dropping [chi] leading bits), and so the phase under a binary key moves by at most half a grid step per
    element. *)
Theorem modulus_switch_rounds pr w x chi v L : word w -> torus w x -> 0 <= chi < w -> 0 <= v < L -> L < w ->
  exists y, mod_switch pr w x chi v L = Ok y /\ torus w y /\ (2 ^ v | y) /\
    near w (2 ^ (w - L + v - 1)) (y * 2 ^ (w - L)) (x * 2 ^ chi).
Proof. apply mod_switch_ok. Qed.
Print Assumptions modulus_switch_rounds.
Theorem lwe_modulus_switch_phase pr w n c chi v L : word w -> lwe_wf w n c -> 0 <= chi < w -> 0 <= v < L -> L < w ->
  exists c', lwe_mod_switch pr w c chi v L = Ok c' /\ lwe_wf w n c' /\
    forall s, binary s -> length s = n ->
      (2 ^ v | lwe_phase s c') /\
      near w ((Z.of_nat n + 1) * 2 ^ (w - L + v - 1)) (lwe_phase s c' * 2 ^ (w - L)) (lwe_phase s c * 2 ^ chi).
Proof. apply lwe_mod_switch_ok. Qed.
Print Assumptions lwe_modulus_switch_phase.
Example modulus_switch_ex : mod_switch Debug 64 0xDEADBEEFBEEFDEAD 0 0 11 = Ok 1781 /\ mod_switch Debug 64 0xDEADBEEFBEEFDEAD 3 2 11 = Ok 1964
  /\ mod_switch Debug 64 (2 ^ 64 - 1) 0 1 11 = Ok 2048.
Proof. vm_compute. auto. Qed.

(** * C81: lookup tables *)

(** The table for functions [vals]: for every message m (with padding bit) and every index within half a
    window of m, rotating the table by the index brings function i's value at m to coefficient i, with the
    sign flipped when the padding bit is set. *)
Theorem lut_windows pr w N k sc lut maps vals p idx m i :
  let L := Z.of_nat (Nat.log2 N) + 1 in let v := Z.of_nat (log_slots (length maps)) in let stride := Z.of_nat N / 2 ^ p in
  word w -> glwe_dim_valid N k = true -> glwe_shape N k lut -> 1 <= p <= 30 -> L < w -> p + v + 2 <= L ->
  (1 <= length maps)%nat -> maps_ok p maps vals -> 0 <= m < 2 ^ (p + 1) -> (2 ^ v | idx) ->
  2 * Z.abs (idx - m * stride) < stride -> (i < 2 ^ log_slots (length maps))%nat ->
  exists T, fill_lut pr w N k sc lut maps p = Ok T /\ glwe_wf w N k T /\
    forall sk, congr w (pmono N (- idx) (glwe_phase N sk T) i) ((if m <? 2 ^ p then 1 else -1) * (slot vals i (m mod 2 ^ p) * 2 ^ (w - p))).
Proof.
  intros L v stride Hw Hdim Hl Hp HL HpL Hm Hmap Hmm Hd Hidx Hi. destruct (dim_valid N k Hdim) as (HP & HN0 & Hk). destruct (pow2_log2 N HP) as (EN & _).
  assert (ENZ : Z.of_nat N = 2 ^ (L - 1)) by (rewrite EN, pow2_Z; f_equal; unfold L; lia).
  assert (Hv0 : 0 <= v) by (unfold v; lia).
  assert (HpN : 2 ^ p <= Z.of_nat N) by (rewrite ENZ; apply Z.pow_le_mono_r; lia).
  destruct (fill_lut_ok N w pr 1 k Hw Hdim (le_n 1) sc lut maps vals p Hp HpN ltac:(lia) Hm Hmap Hl) as (T & E1 & W1 & P1).
  exists T. split; [assumption|]. split; [assumption|]. intros sk.
  assert (Hlm : length maps = length vals) by exact (Forall2_len _ _ _ Hmap).
  assert (HiN : (i < N)%nat). { apply (Nat.lt_le_trans _ _ _ Hi). rewrite EN. apply Nat.pow_le_mono_r; [lia|]. unfold L, v in *. lia. }
  etransitivity; [apply (pmono_mor N (2 ^ w) (- idx) _ _ (P1 sk) i HiN)|]. apply zeq_refl'.
  assert (ES : stride = 2 * 2 ^ (L - 2 - p)).
  { unfold stride. rewrite ENZ, <- Z.pow_sub_r, <- Z.pow_succ_r by lia. f_equal. lia. }
  assert (E2 : 2 ^ (w - p - 1) = stride * 2 ^ (w - L)) by (rewrite ES, <- Z.pow_succ_r, <- Z.pow_add_r by lia; f_equal; lia).
  assert (E3 : 2 ^ (w - p - 2) = 2 ^ (L - 2 - p) * 2 ^ (w - L)) by (rewrite <- Z.pow_add_r by lia; f_equal; lia).
  pose proof (pow_pos' (w - L) ltac:(lia)) as PQ.
  apply (lut_index N w p vals v L idx m i (Z.abs (idx - m * stride) * 2 ^ (w - L))); try assumption; try lia; try reflexivity.
  - unfold v. now rewrite Hlm.
  - exists ((idx - m * stride) * 2 ^ (w - L)). split; [rewrite Z.abs_mul, (Z.abs_eq (2 ^ (w - L))) by lia; lia|]. apply zeq_refl'. rewrite E2. ring.
  - rewrite E3. rewrite ES in *. clear - Hidx PQ. set (H := 2 ^ (L - 2 - p)) in *. set (Q := 2 ^ (w - L)) in *. clearbody H Q. apply Z.mul_lt_mono_pos_r; lia.
  - now rewrite <- Hlm.
Qed.
Print Assumptions lut_windows.

(** A table that does not fit the polynomial, an empty list of functions, and a function that leaves the
    plaintext space are refused. *)
Theorem lut_refused pr w N out maps p : 0 <= p <= 30 ->
  (Z.of_nat N < 2 ^ p -> generate_lut pr w N out maps p = Panic) /\
  (maps = [] -> generate_lut pr w N out maps p = Panic) /\
  (2 ^ p <= Z.of_nat N -> forall f j x, maps = [f] -> 0 <= j < 2 ^ p -> f j = Ok x -> 2 ^ p <= x ->
     forall y, generate_lut pr w N out maps p <> Ok y).
Proof.
  intros Hp. unfold generate_lut. rewrite shl_i32_ok by assumption. cbn [bind]. split; [|split].
  - intros H. destruct (lut_slots (length maps)) as [s| |] eqn:E; cbn [bind]; try reflexivity.
    + destruct (Z.leb_spec (2 ^ p) (Z.of_nat N)); [lia|reflexivity].
    + unfold lut_slots in E. destruct (length maps =? 0)%nat; discriminate.
  - intros ->. reflexivity.
  - intros HN f j x -> Hj Hf Hx y. cbn [length]. rewrite lut_slots_ok by lia. cbn [bind]. change (2 ^ log_slots 1)%nat with 1%nat.
    destruct (Z.leb_spec (2 ^ p) (Z.of_nat N)); [|lia].
    pose proof (pow_pos' p ltac:(lia)) as PP. set (P := Z.to_nat (2 ^ p)). assert (HP : (0 < P)%nat) by (unfold P; lia).
    set (stride := (N / P)%nat). assert (Hs : (0 < stride)%nat) by (apply Nat.div_str_pos; unfold P; lia).
    assert (Hsn : (stride * P <= N)%nat) by (unfold stride; rewrite Nat.mul_comm; apply Nat.mul_div_le; lia).
    set (i := (Z.to_nat j * stride)%nat). assert (Hi : (i < stride * P)%nat).
    { unfold i. rewrite Nat.mul_comm. apply Nat.mul_lt_mono_pos_l; [assumption|]. unfold P. lia. }
    assert (Bad : forall l, In i l -> forall z, mapM (fun i => if (i <? stride * P)%nat then lut_entry pr w p (2 ^ p) [f] 1 stride i else Ok (nth i out 0)) l <> Ok z).
    { induction l as [|a l IH]; intros Hin z; [destruct Hin|]. cbn [mapM]. destruct Hin as [->|Hin].
      - destruct (Nat.ltb_spec i (stride * P)); [|lia]. unfold lut_entry. rewrite Nat.mod_1_r. cbn [nth_error].
        unfold i at 1. rewrite Nat.div_mul by lia. rewrite Z2Nat.id by lia. rewrite Hf. cbn [bind].
        destruct (Z.ltb_spec x (2 ^ p)); [lia|]. cbn [bind]. discriminate.
      - destruct (if (a <? stride * P)%nat then _ else _); cbn [bind]; try discriminate.
        destruct (mapM _ l) eqn:E; cbn [bind]; try discriminate. exfalso. exact (IH Hin _ eq_refl). }
    destruct (mapM _ (seq 0 N)) as [c| |] eqn:E; cbn [bind]; try discriminate. exfalso. refine (Bad (seq 0 N) _ c E). apply in_seq. lia.
Qed.
Print Assumptions lut_refused.
Example lut_ex : generate_lut Release 64 16 (repeat 0 16) [(fun x => Ok ((x + 1) mod 2))] 1 =
  Ok (let t := 2 ^ 63 in [t; t; t; t; 0; 0; 0; 0; 0; 0; 0; 0; t; t; t; t]).
Proof. vm_compute. reflexivity. Qed.

(** * C83: bootstrap keys and programmable bootstrapping *)

(** Generating a bootstrap key into fresh (zero-body) buffers succeeds and yields, for every bit of the LWE
    key, a GGSW encryption of that bit with the sampled noise. *)
Theorem bootstrap_key_encrypts pr w log count n N k bsk s sk E rnd : word w -> glwe_dim_valid N k = true -> 1 <= log ->
  (1 <= count)%nat -> log * Z.of_nat count < w -> (1 <= n)%nat -> binary s -> length s = n -> polys_shape N k sk -> 0 <= E -> length bsk = n ->
  Forall (fun g => length g = S k /\ Forall (fun r => length r = count /\ Forall (glwe_fresh N k) r) g) bsk ->
  (forall i, ggsw_rnd_ok N k count w E (rnd i)) ->
  exists bsk', generate_bsk pr w log count n N k bsk s sk rnd = Ok bsk' /\ bsk_enc N k count w log E sk s bsk'.
Proof. intros Hw Hd Hl Hc Hlc. intros. eapply generate_bsk_ok; eassumption. Qed.
Print Assumptions bootstrap_key_encrypts.

(** One bootstrap evaluates every function of the table: if the input's phase (times 2^chi) is within B of the
    padded message m and B plus the modulus-switching error stays within a quarter of a message step, the
    i-th coefficient of the output encrypts function i of m, negated when the padding bit of m is set. The
    noise of the output does not depend on the noise of the input. *)
Theorem multi_function_bootstrap h pr w log count n N k D out lout sc input bsk maps vals p chi ds B m :
  let L := Z.of_nat (Nat.log2 N) + 1 in let v := Z.of_nat (log_slots (length maps)) in
  word w -> glwe_dim_valid N k = true -> add_exact h pr w -> sub_exact h pr w ->
  1 <= log -> (1 <= count)%nat -> log * Z.of_nat count < w -> 0 <= D ->
  (1 <= n)%nat -> lwe_wf w n input -> bsk_valid n N k count bsk = true -> glwe_shape N k out -> glwe_shape N k lout ->
  0 <= chi < w -> L < w -> 1 <= p <= 30 -> (1 <= length maps)%nat -> maps_ok p maps vals -> (forall i, fft_err N k D (ds i)) ->
  0 <= B -> B + (Z.of_nat n + 1) * 2 ^ (w - L + v - 1) < 2 ^ (w - p - 2) -> p + 2 <= L -> 0 <= m < 2 ^ (p + 1) ->
  exists lut r, fill_lut pr w N k sc lout maps p = Ok lut /\
    generalized_pbs h pr w log count n N k out input lut bsk chi v ds = Ok r /\ glwe_wf w N k r /\
    forall sk s E, polys_shape N k sk -> binary_polys sk -> binary s -> 0 <= E -> bsk_enc N k count w log E sk s bsk ->
      near w B (lwe_phase s input * 2 ^ chi) (m * 2 ^ (w - p - 1)) ->
      forall i, (i < 2 ^ log_slots (length maps))%nat ->
        near w (Z.of_nat n * cmux_noise N k count w log E D) (glwe_phase N sk r i)
          ((if m <? 2 ^ p then 1 else -1) * (slot vals i (m mod 2 ^ p) * 2 ^ (w - p))).
Proof. intros L v. intros. apply pbs_multi_ok; assumption. Qed.
Print Assumptions multi_function_bootstrap.

Lemma near_wider w B B' x y : near w B x y -> B <= B' -> near w B' x y.
Proof. intros H ?. eapply near_weaken; eassumption. Qed.

Lemma step_bound n w L p B : word w -> 0 < L < w -> 1 <= p -> 0 <= B -> (1 <= n)%nat ->
  B + (Z.of_nat n + 1) * 2 ^ (w - L - 1) < 2 ^ (w - p - 2) -> p + 2 <= L.
Proof.
  intros Hw HL Hp HB Hn H. destruct (Z.le_gt_cases (p + 2) L) as [|C]; [assumption|exfalso].
  destruct (Z.le_gt_cases 0 (w - p - 2)) as [D|D].
  - assert (2 ^ (w - p - 2) <= 2 ^ (w - L - 1)) by (apply Z.pow_le_mono_r; lia). pose proof (pow_pos' (w - L - 1) ltac:(lia)).
    generalize dependent (2 ^ (w - p - 2)). generalize dependent (2 ^ (w - L - 1)). intros. nia.
  - rewrite (Z.pow_neg_r 2 (w - p - 2)) in H by lia. pose proof (pow_pos' (w - L - 1) ltac:(lia)). generalize dependent (2 ^ (w - L - 1)). intros. nia.
Qed.

(** End to end, from keys to plaintext: encrypt m (p bits plus a padding bit), bootstrap with the table of f,
    decrypt under the extracted key. For every message, key, mask, noise e of at most B, key noise of at most E,
    FFT error of at most D: the result is f(m) if the padding bit is clear and -f(m) modulo 2^p if it is set. *)
Theorem univariate_bootstrap h pr w log count n N k D out sc bsk0 s sk rnd f g p ds B E m mask e :
  let L := Z.of_nat (Nat.log2 N) + 1 in
  word w -> glwe_dim_valid N k = true -> add_exact h pr w -> sub_exact h pr w ->
  1 <= log -> (1 <= count)%nat -> log * Z.of_nat count < w -> 0 <= D -> L < w -> 1 <= p <= 30 ->
  (1 <= n)%nat -> binary s -> length s = n -> polys_shape N k sk -> binary_polys sk ->
  length bsk0 = n -> Forall (fun g => length g = S k /\ Forall (fun r => length r = count /\ Forall (glwe_fresh N k) r) g) bsk0 ->
  0 <= E -> (forall i, ggsw_rnd_ok N k count w E (rnd i)) -> (forall i, fft_err N k D (ds i)) ->
  (forall j, 0 <= j < 2 ^ p -> f j = Ok (g j) /\ 0 <= g j < 2 ^ p) ->
  length mask = n -> toruses w mask -> 0 <= B -> near w B e 0 -> length (lwe_a out) = (k * N)%nat ->
  B + (Z.of_nat n + 1) * 2 ^ (w - L - 1) < 2 ^ (w - p - 2) ->
  Z.of_nat n * cmux_noise N k count w log E D < 2 ^ (w - p - 1) ->
  0 <= m < 2 ^ (p + 1) ->
  exists bsk lut c r, generate_bsk pr w log count n N k bsk0 s sk rnd = Ok bsk /\ lut_from_fn pr w N k sc f p = Ok lut /\
    lwe_sk_encrypt w n s m (p + 1) mask e = Ok c /\ pbs_univariate h pr w log count n N k out c lut bsk ds = Ok r /\
    lwe_decrypt pr w (k * N) (to_lwe_sk sk) r p = Ok (if m <? 2 ^ p then g m else (- g (m - 2 ^ p)) mod 2 ^ p).
Proof.
  intros L Hw Hdim Hadd Hsub Hlog Hcnt Hlc HD HL Hp Hn Hb Hs Hsk Hbin Hbl Hbf HE Hrnd Hds Hfg Hml Hmt HB He Hout Hin Hnoise Hm.
  pose proof (near_word_pow w Hw) as Hw64. assert (HL0 : 0 < L) by (unfold L; lia).
  pose proof (step_bound n w L p B Hw ltac:(lia) ltac:(lia) HB Hn Hin) as HpL.
  destruct (generate_bsk_ok N w pr log count k Hw Hdim Hlog Hcnt Hlc n bsk0 s sk E rnd Hn Hb Hs Hsk HE Hbl Hbf Hrnd) as (bsk & Eb & Hbsk).
  destruct (lwe_sk_encrypt_near w n s m (p + 1) mask e B Hw Hn Hs Hml Hmt ltac:(lia) He) as (c & Ec & Wc & Pc).
  pose proof (bsk_enc_valid N k count w log E sk s bsk Hbsk) as Hbv. rewrite Hs in Hbv.
  destruct (pbs_univariate_ok N w h pr log count k D Hw Hdim Hadd Hsub Hlog Hcnt Hlc HD n out sc c bsk f g p ds B m Hn Wc Hbv Hout HL ltac:(lia) Hfg Hds HB Hin HpL Hm)
    as (lut & r & El & Er & Wr & Pr).
  exists bsk, lut, c, r. split; [assumption|]. split; [assumption|]. split; [assumption|]. split; [assumption|].
  replace (w - (p + 1)) with (w - p - 1) in Pc by lia.
  specialize (Pr sk s E Hsk Hbin Hb HE Hbsk Pc). destruct (dim_valid N k Hdim) as (HP & HN0 & Hk).
  pose proof (pow_pos' p ltac:(lia)) as PP. assert (E2 : 2 ^ (p + 1) = 2 * 2 ^ p) by (rewrite Z.pow_add_r by lia; change (2 ^ 1) with 2; ring).
  set (t := if m <? 2 ^ p then g m else - g (m - 2 ^ p)).
  assert (Q : (if m <? 2 ^ p then 1 else -1) * (g (m mod 2 ^ p) * 2 ^ (w - p)) = t * 2 ^ (w - p)).
  { unfold t. destruct (Z.ltb_spec m (2 ^ p)); [rewrite Z.mod_small by lia; ring|].
    replace (m mod 2 ^ p) with (m - 2 ^ p); [ring|]. apply Z.mod_unique with 1; lia. }
  rewrite Q in Pr. destruct Wr as (Lr & _).
  rewrite (lwe_decrypt_near pr w (k * N) (to_lwe_sk sk) r p t (Z.of_nat n * cmux_noise N k count w log E D)); try assumption; try lia.
  - f_equal. unfold t. destruct (Z.ltb_spec m (2 ^ p)); [|reflexivity]. apply Z.mod_small. apply Hfg. lia.
Qed.
Print Assumptions univariate_bootstrap.

(** * C92: bivariate bootstrapping *)

(** End to end on 64-bit words: left and right are encrypted with p + carry + 1 bits, the table is built for
    p-bit arguments with carry >= p; decryption with carry gives f(l, r). *)
Theorem bivariate_bootstrap h pr log count n N k D out sc bsk0 s sk rnd f g p carry ds B1 B2 E l r mask1 mask2 e1 e2 :
  let L := Z.of_nat (Nat.log2 N) + 1 in
  glwe_dim_valid N k = true -> add_exact h pr 64 -> sub_exact h pr 64 ->
  1 <= log -> (1 <= count)%nat -> log * Z.of_nat count < 64 -> 0 <= D -> L < 64 -> 1 <= p <= carry -> p + carry <= 30 ->
  (1 <= n)%nat -> binary s -> length s = n -> polys_shape N k sk -> binary_polys sk ->
  length bsk0 = n -> Forall (fun g => length g = S k /\ Forall (fun r => length r = count /\ Forall (glwe_fresh N k) r) g) bsk0 ->
  0 <= E -> (forall i, ggsw_rnd_ok N k count 64 E (rnd i)) -> (forall i, fft_err N k D (ds i)) ->
  (forall x y, 0 <= x < 2 ^ p -> 0 <= y < 2 ^ p -> f x y = Ok (g x y) /\ 0 <= g x y < 2 ^ p) ->
  length mask1 = n -> toruses 64 mask1 -> length mask2 = n -> toruses 64 mask2 -> 0 <= B1 -> near 64 B1 e1 0 -> 0 <= B2 -> near 64 B2 e2 0 ->
  length (lwe_a out) = (k * N)%nat ->
  2 ^ p * B1 + B2 + (Z.of_nat n + 1) * 2 ^ (64 - L - 1) < 2 ^ (64 - (p + carry) - 2) ->
  Z.of_nat n * cmux_noise N k count 64 log E D < 2 ^ (64 - (p + carry) - 1) ->
  0 <= l < 2 ^ p -> 0 <= r < 2 ^ p ->
  exists bsk lut c1 c2 x, generate_bsk pr 64 log count n N k bsk0 s sk rnd = Ok bsk /\ bivariate_lut pr 64 N k sc f p carry = Ok lut /\
    lwe_sk_encrypt 64 n s l (p + carry + 1) mask1 e1 = Ok c1 /\ lwe_sk_encrypt 64 n s r (p + carry + 1) mask2 e2 = Ok c2 /\
    pbs_bivariate h pr 64 log count n N k out c1 c2 lut bsk p ds = Ok x /\
    lwe_decrypt_with_carry pr (k * N) (to_lwe_sk sk) x p carry = Ok (g l r).
Proof.
  intros L Hdim Hadd Hsub Hlog Hcnt Hlc HD HL Hp Hpc Hn Hb Hs Hsk Hbin Hbl Hbf HE Hrnd Hds Hfg Hm1 Ht1 Hm2 Ht2 HB1 He1 HB2 He2 Hout Hin Hnoise Hl Hr.
  assert (Hw : word 64) by now right. assert (HL0 : 0 < L) by (unfold L; lia).
  pose proof (pow_pos' p ltac:(lia)) as PP.
  pose proof (step_bound n 64 L (p + carry) (2 ^ p * B1 + B2) Hw ltac:(lia) ltac:(lia) ltac:(nia) Hn Hin) as HpL.
  destruct (generate_bsk_ok N 64 pr log count k Hw Hdim Hlog Hcnt Hlc n bsk0 s sk E rnd Hn Hb Hs Hsk HE Hbl Hbf Hrnd) as (bsk & Eb & Hbsk).
  destruct (lwe_sk_encrypt_near 64 n s l (p + carry + 1) mask1 e1 B1 Hw Hn Hs Hm1 Ht1 ltac:(lia) He1) as (c1 & Ec1 & Wc1 & Pc1).
  destruct (lwe_sk_encrypt_near 64 n s r (p + carry + 1) mask2 e2 B2 Hw Hn Hs Hm2 Ht2 ltac:(lia) He2) as (c2 & Ec2 & Wc2 & Pc2).
  pose proof (bsk_enc_valid N k count 64 log E sk s bsk Hbsk) as Hbv. rewrite Hs in Hbv.
  destruct (pbs_bivariate_ok N 64 h pr log count k D Hw Hdim Hadd Hsub Hlog Hcnt Hlc HD n out sc c1 c2 bsk f g p carry ds B1 B2 l r Hn Wc1 Wc2 Hbv Hout HL Hp Hpc Hfg Hds HB1 HB2 Hin HpL Hl Hr)
    as (lut & x & El & Er & Wr & Pr).
  exists bsk, lut, c1, c2, x. do 5 (split; [assumption|]).
  replace (64 - (p + carry + 1)) with (64 - (p + carry) - 1) in Pc1, Pc2 by lia.
  specialize (Pr sk s E Hsk Hbin Hb HE Hbsk Pc1 Pc2). destruct (dim_valid N k Hdim) as (HP & HN0 & Hk). destruct Wr as (Lr & _).
  rewrite (lwe_decrypt_carry_near pr (k * N) (to_lwe_sk sk) x p carry (g l r) (Z.of_nat n * cmux_noise N k count 64 log E D)); try assumption; try lia.
  - f_equal. apply Z.mod_small. now apply Hfg.
Qed.
Print Assumptions bivariate_bootstrap.

(** * C93: blind rotation *)

(** Encrypting a rotation below N and applying it multiplies the message polynomial by X^(-rotation) in the
    negacyclic ring, up to log2(N) CMUX noises. *)
Theorem blind_rotation_rotates h pr w log count N k D sk p rot rnd ct ds E :
  word w -> glwe_dim_valid N k = true -> add_exact h pr w -> sub_exact h pr w ->
  1 <= log -> (1 <= count)%nat -> log * Z.of_nat count < w -> 0 <= D -> 0 <= E -> 1 <= p < w ->
  polys_shape N k sk -> binary_polys sk -> 0 <= rot < Z.of_nat N ->
  (forall i, ggsw_rnd_ok N k count w E (rnd i)) -> glwe_wf w N k ct -> (forall i, fft_err N k D (ds i)) ->
  exists rows r, generate_rotation_shift pr w log count N k sk p rot rnd = Ok rows /\
    blind_rotation h pr w log count N k rows ct ds = Ok r /\ glwe_wf w N k r /\
    pnear N w (Z.of_nat (Nat.log2 N) * cmux_noise N k count w log E D) (glwe_phase N sk r) (pmono N (- rot) (glwe_phase N sk ct)).
Proof.
  intros Hw Hdim Hadd Hsub Hlog Hcnt Hlc HD HE Hp Hsk Hbin Hrot Hrnd Hct Hds.
  destruct (rotation_shift_loop_ok N w pr log count k Hw Hdim Hlog Hcnt Hlc E sk p rot Hsk HE Hp ltac:(lia) (Nat.log2 N) 0 rnd Hrnd) as (gs & E1 & Enc).
  assert (Hv : Forall (fun g => ggsw_valid N k count g = true) gs).
  { clear - Enc. unfold bsk_enc in Enc. induction Enc as [|x g l gs (V & _) _ IH]; constructor; assumption. }
  destruct (blind_rotation_loop_ok N w h pr log count k D Hw Hdim Hadd Hsub Hlog Hcnt Hlc HD gs 0 ds ct Hct Hv Hds) as (r & Er & Wr & Pr).
  exists gs, r. unfold generate_rotation_shift, blind_rotation. destruct (Z.ltb_spec rot (Z.of_nat N)); [|lia].
  split; [assumption|]. split; [assumption|]. split; [assumption|].
  assert (Hlen : length gs = Nat.log2 N).
  { rewrite <- (Forall2_len _ _ _ Enc). clear. generalize 0%nat. generalize (Nat.log2 N). induction n; intros; cbn; congruence. }
  specialize (Pr sk _ E Hsk Hbin (bits_of_binary N count k Hcnt _ _ _) HE Enc). rewrite Hlen in Pr.
  rewrite (bits_of_value N count k Hcnt) in Pr by lia. destruct (dim_valid N k Hdim) as (HP & HN0 & Hk). destruct (pow2_log2 N HP) as (EN & _).
  change (2 ^ Z.of_nat 0) with 1 in Pr. rewrite Z.div_1_r, Z.mul_1_l, Z.mod_small in Pr; [assumption|].
  rewrite <- pow2_Z, <- EN. assumption.
Qed.
Print Assumptions blind_rotation_rotates.

(** ** A concrete case

    64-bit words, GLWE degree 8 and size 1, LWE dimension 2, radix 16 x 3, one-bit messages; all randomness
    nonzero. *)
Definition ex_hw : hw := {| hw_x86 := true; hw_avx2 := true; hw_fma := true; hw_512f := false; hw_512dq := false |}.
Definition ex_sk : list (list Z) := [[1; 0; 0; 1; 1; 0; 1; 0]].
Definition ex_rnd (i : nat) : list (list (list (list Z) * option (list Z))) :=
  map (fun r => map (fun c => ([map (fun j => (Z.of_nat (i + 3 * r + 7 * c + j + 1) * 0x9E3779B97F4A7C15) mod 2 ^ 64) (seq 0 8)],
    Some (map (fun j => (Z.of_nat ((i + r + c + j) mod 9) - 4) mod 2 ^ 64) (seq 0 8)))) (seq 0 3)) (seq 0 2).
Definition ex_err (i : nat) : glwe := {| ga := [map (fun j => Z.of_nat ((i + j) mod 3) - 1) (seq 0 8)]; gb := map (fun j => 1 - Z.of_nat ((i + j) mod 3)) (seq 0 8) |}.
Definition ex_not (x : Z) : res Z := Ok (1 - x).
Definition ex_run (m : Z) : res Z :=
  bsk <- generate_bsk Release 64 16 3 2 8 1 (repeat (ggsw_new 8 1 3) 2) [1; 0] ex_sk ex_rnd ;;
  lut <- lut_from_fn Release 64 8 1 (zpoly 8) ex_not 1 ;;
  c <- lwe_sk_encrypt 64 2 [1; 0] m 2 [0xDEADBEEFDEADBEEF; 0x123456789ABCDEF] 12345 ;;
  r <- pbs_univariate ex_hw Release 64 16 3 2 8 1 {| lwe_a := repeat 7 8; lwe_b := 9 |} c lut bsk ex_err ;;
  lwe_decrypt Release 64 8 (to_lwe_sk ex_sk) r 1.
Example univariate_bootstrap_run : map ex_run [0; 1; 2; 3] = [Ok 1; Ok 0; Ok 1; Ok 0].
Proof. vm_compute. reflexivity. Qed.

(** The same data meet the hypotheses of [univariate_bootstrap]. *)
Example univariate_bootstrap_hyps :
  word 64 /\ glwe_dim_valid 8 1 = true /\ add_exact ex_hw Release 64 /\ sub_exact ex_hw Release 64 /\
  polys_shape 8 1 ex_sk /\ binary_polys ex_sk /\ binary [1; 0] /\ (forall i, ggsw_rnd_ok 8 1 3 64 4 (ex_rnd i)) /\ (forall i, fft_err 8 1 1 (ex_err i)) /\
  Forall (fun g => length g = 2%nat /\ Forall (fun r => length r = 3%nat /\ Forall (glwe_fresh 8 1) r) g) (repeat (ggsw_new 8 1 3) 2) /\
  (forall j, 0 <= j < 2 ^ 1 -> ex_not j = Ok (1 - j) /\ 0 <= 1 - j < 2 ^ 1) /\
  12345 + (Z.of_nat 2 + 1) * 2 ^ (64 - 4 - 1) < 2 ^ (64 - 1 - 2) /\ Z.of_nat 2 * cmux_noise 8 1 3 64 16 4 1 < 2 ^ (64 - 1 - 1).
Proof.
  split; [now right|]. split; [reflexivity|]. split; [unfold add_exact; cbn; auto|]. split; [unfold sub_exact; cbn; auto|].
  split; [split; [reflexivity|repeat constructor]|]. split; [unfold binary_polys, binary, ex_sk; repeat (constructor; auto)|].
  split; [unfold binary; repeat (constructor; auto)|]. split; [|split; [|split; [|split; [|split; vm_compute; reflexivity]]]].
  - intros i. split; [reflexivity|]. apply Forall_forall. intros row Hrow. apply in_map_iff in Hrow as (r & <- & _). split; [reflexivity|].
    apply Forall_forall. intros x Hx. apply in_map_iff in Hx as (c & <- & _). split; [split; [reflexivity|repeat constructor; cbn; lia]|]. cbn [fst snd]. split.
    + constructor; [|constructor]. apply Forall_forall. intros y Hy. apply in_map_iff in Hy as (j & <- & _). apply Z.mod_pos_bound. lia.
    + split.
      * split; [reflexivity|]. apply Forall_forall. intros y Hy. apply in_map_iff in Hy as (j & <- & _). apply Z.mod_pos_bound. lia.
      * exists (fun j => Z.of_nat ((i + r + c + j) mod 9) - 4). split.
        -- intros j Hj. pose proof (Nat.mod_upper_bound (i + r + c + j) 9 ltac:(lia)). lia.
        -- intros j Hj. unfold coef. rewrite nth_map_seq by exact Hj. etransitivity; [apply zeq_mod|]. apply zeq_refl'. unfold padd, p0. ring.
  - intros i. split; [split; [split; [reflexivity|repeat constructor]|reflexivity]|]. split.
    + constructor; [|constructor]. apply Forall_forall. intros y Hy. apply in_map_iff in Hy as (j & <- & _). pose proof (Nat.mod_upper_bound (i + j) 3 ltac:(lia)). lia.
    + apply Forall_forall. intros y Hy. apply in_map_iff in Hy as (j & <- & _). pose proof (Nat.mod_upper_bound (i + j) 3 ltac:(lia)). lia.
  - unfold ggsw_new, glwe_new, zpoly, glwe_fresh, glwe_shape, polys_shape. repeat constructor.
  - intros j Hj. change (2 ^ 1) with 2 in *. unfold ex_not. split; [reflexivity|lia].
Qed.
