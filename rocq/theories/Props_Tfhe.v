(** Torus encoding, radix decomposition, LWE and polynomial arithmetic: the properties. *)
From Verif Require Import Base Alu AluProofs PolyRing Tfhe SpecTfhe FluentIntProofs TfheProofs TfheProofs2 TfheProofs3.
Ltac Zify.zify_post_hook ::= idtac.
Open Scope Z_scope.

(** * C48: encoding and decoding *)

(** Decoding the encoding of [m] plus any error in [-2^(w-p-1), 2^(w-p-1)) returns [m] (reduced to p bits). *)
Theorem decode_encode_noise pr w p m e : word w -> 0 < p < w -> p < 32 ->
  - 2 ^ (w - p - 1) <= e < 2 ^ (w - p - 1) ->
  exists c, t_encode w m p = Ok c /\ t_decode pr w (tadd w c e) p = Ok (m mod 2 ^ p).
Proof.
  intros Hw Hp Hp' He. rewrite t_encode_ok by assumption. eexists. split; [reflexivity|].
  rewrite t_decode_ok; [|assumption|lia|lia|apply uwrap_torus; pose proof (word_pos w Hw); lia].
  f_equal. apply (decode_near w p m e); try assumption. unfold tadd. apply uwrap_eq.
  apply zeq_add; [apply zeq_mod|reflexivity].
Qed.
Print Assumptions decode_encode_noise.
Theorem decode_encode_message pr w p m e : word w -> 0 < p < w -> p < 32 -> 0 <= m < 2 ^ p ->
  - 2 ^ (w - p - 1) <= e < 2 ^ (w - p - 1) ->
  exists c, t_encode w m p = Ok c /\ t_decode pr w (tadd w c e) p = Ok m.
Proof.
  intros Hw Hp Hp' Hm He. destruct (decode_encode_noise pr w p m e Hw Hp Hp' He) as (c & E & D). exists c. split; [assumption|].
  now rewrite Z.mod_small in D.
Qed.
Print Assumptions decode_encode_message.
Example decode_encode_message_ex : t_encode 64 5 3 = Ok (5 * 2 ^ 61) /\ t_decode Debug 64 (tadd 64 (5 * 2 ^ 61) (- 2 ^ 60)) 3 = Ok 5.
Proof. split; vm_compute; reflexivity. Qed.
(** The bound is tight: an error of exactly 2^(w-p-1) changes the message. *)
Theorem decode_error_at_bound pr w p m : word w -> 0 < p < w -> p < 32 ->
  exists c, t_encode w m p = Ok c /\ t_decode pr w (tadd w c (2 ^ (w - p - 1))) p = Ok ((m + 1) mod 2 ^ p).
Proof.
  intros Hw Hp Hp'. rewrite t_encode_ok by assumption. eexists. split; [reflexivity|].
  rewrite t_decode_ok; [|assumption|lia|lia|apply uwrap_torus; pose proof (word_pos w Hw); lia].
  f_equal. pose proof (pow_pos' (w - p - 1) ltac:(lia)). apply (decode_near w p (m + 1) (- 2 ^ (w - p - 1))); try assumption; try lia.
  unfold tadd. apply uwrap_eq.
  assert (H1 : 2 ^ (w - p) = 2 * 2 ^ (w - p - 1)). { change 2 with (2 ^ 1) at 2. rewrite <- Z.pow_add_r by lia. f_equal. lia. }
  transitivity (m * 2 ^ (w - p) + 2 ^ (w - p - 1)); [apply zeq_add; [apply zeq_mod|reflexivity]|]. apply zeq_refl'. rewrite H1. ring.
Qed.
Print Assumptions decode_error_at_bound.
(** [decode] asserts only p < w, but for w = 64 no message length from 32 to 63 bits works: debug builds
    panic, release builds return the wrong message (for p = 32: always 0). *)
Theorem decode_wide_refuted p x : 32 <= p < 64 -> 0 <= x < 2 ^ 64 ->
  t_decode Debug 64 x p = Panic /\
  exists v, t_decode Release 64 x p = Ok v /\ 0 <= v < 2 ^ (p - 32).
Proof.
  intros Hp Hx. unfold t_decode. destruct (Z.ltb_spec p 64); [|lia]. split.
  - unfold ushl. destruct (Z.ltb_spec p 32); [lia|]. rewrite andb_false_r. reflexivity.
  - assert (E : ushl Release 32 1 p = Ok (2 ^ (p - 32))).
    { unfold ushl. destruct (Z.ltb_spec p 32); [lia|]. rewrite andb_false_r. f_equal.
      assert (p mod 32 = p - 32) as ->. { symmetry. apply (Z.mod_unique _ _ 1); lia. }
      rewrite Z.mul_1_l. apply Z.mod_small. split; [apply Z.lt_le_incl, pow_pos'; lia|]. apply Z.pow_lt_mono_r; lia. }
    rewrite E. cbn [bind]. pose proof (pow_pos' (p - 32) ltac:(lia)). rewrite usub_ok by lia. cbn [bind].
    set (s := uadd Release 64 _ _). assert (Hs : exists v, s = Ok v) by (unfold s, uadd; destruct (_ <? _); eexists; reflexivity).
    destruct Hs as (v & Hs). rewrite Hs. cbn [bind]. rewrite land_mask by lia.
    eexists. split; [reflexivity|]. apply Z.mod_pos_bound. lia.
Qed.
Print Assumptions decode_wide_refuted.
Example decode_wide_refuted_ex : t_encode 64 7 40 = Ok (7 * 2 ^ 24) /\ t_decode Release 64 (300 * 2 ^ 24) 40 = Ok 44 /\ t_decode Debug 64 (300 * 2 ^ 24) 40 = Panic.
Proof. repeat split; vm_compute; reflexivity. Qed.

(** * C49: radix decomposition *)

(** The digits the scalar iterator yields are (as words) integers in [-2^(log-1), 2^(log-1)) that recompose
    to the value within half of the smallest step. *)
Theorem scalar_decomposition pr w log count x : word w -> 1 <= log -> (1 <= count)%nat -> log * Z.of_nat count < w -> torus w x ->
  exists ds, scalar_digits pr w log count x = Ok (map (uwrap w) ds) /\ length ds = count /\
    Forall (fun d => - 2 ^ (log - 1) <= d < 2 ^ (log - 1)) ds /\
    near w (2 ^ (w - log * Z.of_nat count - 1)) (radix_value log ds * 2 ^ (w - log * Z.of_nat count)) x.
Proof.
  intros Hw Hl Hc Hs Hx. exists (sdigs log count (rnd w log count x)). unfold scalar_digits.
  rewrite radix_round_ok by assumption. cbn [bind]. rewrite scalar_digits_from_ok by (try assumption; try nia; now apply rnd_torus).
  split; [reflexivity|]. split; [apply sdigs_len|]. split; [now apply sdigs_range|]. now apply digits_value.
Qed.
Print Assumptions scalar_decomposition.
Example scalar_decomposition_ex : scalar_digits Debug 32 4 3 3735928559 = Ok [uwrap 32 (-5); uwrap 32 (-1); uwrap 32 (-2)].
Proof. vm_compute. reflexivity. Qed.

(** [n] calls of the polynomial iterator (what is written to the destination buffer). *)
Fixpoint poly_digits (pr : profile) (w log : Z) (count n : nat) (it : radix_iter) (dst : list Z) : res (list (list Z)) :=
  match n with
  | O => Ok []
  | S n => ' (it', d) <- write_next pr w log count it dst ;; ds <- poly_digits pr w log count n it' d ;; Ok (d :: ds)
  end.
Lemma poly_digits_from pr w log count : word w -> 1 <= log < w -> forall n vs l dst, (l + n <= count)%nat -> toruses w vs ->
  poly_digits pr w log count n {| ri_scratch := vs; ri_level := l |} dst =
  Ok (map (fun i => map (fun v => uwrap w (nth i (sdigs log n v) 0)) vs) (seq 0 n)).
Proof.
  intros Hw Hl. induction n as [|n IH]; intros vs l dst Hn Hv; cbn [poly_digits]; [reflexivity|].
  unfold write_next. cbn [ri_level ri_scratch]. destruct (Nat.eqb_spec l count); [lia|].
  rewrite (mapM_ok _ (fun v => (uwrap w (sdig log v), snext log v))) by (intros v Hin; apply vec_next_ok; try assumption; exact (proj1 (Forall_forall _ _) Hv v Hin)).
  cbn [bind]. rewrite IH; [|lia|].
  - cbn [bind seq map]. f_equal. f_equal.
    + rewrite map_map. apply map_ext. intros v. cbn [fst sdigs nth]. reflexivity.
    + rewrite <- (seq_shift n 0), (map_map S). apply map_ext. intros i. rewrite !map_map. apply map_ext. intros v. cbn [snd sdigs nth]. reflexivity.
  - rewrite map_map. cbn [snd]. pose proof (word_pos w Hw). apply Forall_forall. intros y Hy. apply in_map_iff in Hy as (v & <- & Hin).
    apply snext_range; [lia|lia|]. exact (proj1 (Forall_forall _ _) Hv v Hin).
Qed.

(** The polynomial iterator decomposes every coefficient the same way: there are [count] digit polynomials,
    digit i of coefficient k is [nth i (nth k dss []) 0], small, and each coefficient recomposes. *)
Theorem poly_decomposition pr w log count p dst : word w -> 1 <= log -> (1 <= count)%nat -> log * Z.of_nat count < w -> toruses w p ->
  exists (it : radix_iter) (dss : list (list Z)),
    radix_new pr w log count p = Ok it /\
    poly_digits pr w log count count it dst =
      Ok (map (fun i => map (fun ds => uwrap w (nth i ds 0)) dss) (seq 0 count)) /\
    Forall2 (fun x ds => length ds = count /\ Forall (fun d => - 2 ^ (log - 1) <= d < 2 ^ (log - 1)) ds /\
      near w (2 ^ (w - log * Z.of_nat count - 1)) (radix_value log ds * 2 ^ (w - log * Z.of_nat count)) x) p dss.
Proof.
  intros Hw Hl Hc Hs Hp. exists {| ri_scratch := map (rnd w log count) p; ri_level := 0 |}, (map (fun x => sdigs log count (rnd w log count x)) p).
  split; [|split].
  - unfold radix_new. destruct (Z.ltb_spec (log * Z.of_nat count) w); [|lia]. destruct (Z.eqb_spec (log * Z.of_nat count) 0); [nia|]. cbn [andb negb].
    rewrite (mapM_ok _ (rnd w log count)); [reflexivity|]. intros x Hx. apply radix_round_ok; try assumption. exact (proj1 (Forall_forall _ _) Hp x Hx).
  - rewrite poly_digits_from; [|assumption|nia|lia|].
    + f_equal. apply map_ext. intros i. now rewrite !map_map.
    + apply Forall_forall. intros y Hy. apply in_map_iff in Hy as (x & <- & Hin). apply rnd_torus; try assumption. exact (proj1 (Forall_forall _ _) Hp x Hin).
  - induction Hp as [|x p Hx Hp IH]; cbn [map]; constructor; [|assumption].
    split; [apply sdigs_len|]. split; [now apply sdigs_range|]. now apply digits_value.
Qed.
Print Assumptions poly_decomposition.

(** Once all digits are consumed, the destination keeps the previous digit. *)
Theorem exhausted_iterator_keeps_buffer pr w log count it dst : ri_level it = count -> write_next pr w log count it dst = Ok (it, dst).
Proof. intros H. unfold write_next. now rewrite H, Nat.eqb_refl. Qed.
Print Assumptions exhausted_iterator_keeps_buffer.

(** Parameters that [RadixDecomposition::assert_valid] accepts (log * count = word size) abort every
    polynomial decomposition, in every build. *)
Theorem full_width_radix_refuted pr w log count p : word w -> 1 <= log -> (1 <= count)%nat -> log * Z.of_nat count = w ->
  radix_valid w log count = true /\ radix_new pr w log count p = Panic.
Proof.
  intros Hw Hl Hc Hs. split.
  - unfold radix_valid. destruct (Z.ltb_spec 0 (Z.of_nat count)); [|lia]. destruct (Z.ltb_spec 0 log); [|lia]. destruct (Z.leb_spec (Z.of_nat count * log) w); [reflexivity|lia].
  - unfold radix_new. destruct (Z.ltb_spec (log * Z.of_nat count) w); [lia|reflexivity].
Qed.
Print Assumptions full_width_radix_refuted.

(** * C50: LWE decryption inverts encryption *)

(** For every key (binary or not), mask and buffer, the phase of an encryption is message plus error. *)
Theorem lwe_encrypt_phase w dim ct sk msg mask e : word w -> dim <> O -> length (lwe_a ct) = dim -> length sk = dim -> length mask = dim ->
  exists c, lwe_encrypt w dim ct sk msg mask e = Ok c /\ lwe_a c = mask /\
    lwe_decrypt_raw w dim sk c = Ok ((msg + e) mod 2 ^ w).
Proof.
  intros Hw Hd H1 H2 H3. destruct (lwe_encrypt_ok w dim ct sk msg mask e Hd H1 H2 H3) as (c & E & A & _ & P).
  exists c. split; [assumption|]. split; [assumption|]. rewrite lwe_decrypt_raw_ok by congruence. f_equal. exact P.
Qed.
Print Assumptions lwe_encrypt_phase.

(** [sk.decrypt(sk.encrypt(m))] is [m] whenever the Gaussian error is below half a step. *)
Theorem lwe_decrypt_encrypt pr w dim sk m p mask e : word w -> dim <> O -> length sk = dim -> length mask = dim ->
  0 < p < w -> p < 32 -> 0 <= m < 2 ^ p -> near w (2 ^ (w - p - 1) - 1) e 0 ->
  exists c, lwe_sk_encrypt w dim sk m p mask e = Ok c /\ lwe_decrypt pr w dim sk c p = Ok m.
Proof.
  intros Hw Hd H1 H2 Hp Hp' Hm (z & Hz & He). unfold lwe_sk_encrypt, lwe_encode_encrypt. unfold lwe_dim_valid at 1.
  rewrite (proj2 (Nat.eqb_neq _ _) Hd). destruct (Z.ltb_spec p w); [|lia]. cbn [negb andb]. rewrite t_encode_ok by assumption. cbn [bind].
  destruct (lwe_encrypt_phase w dim (lwe_new dim) sk ((m * 2 ^ (w - p)) mod 2 ^ w) mask e Hw Hd ltac:(cbn; apply repeat_length) H1 H2) as (c & E & A & D).
  exists c. split; [assumption|]. unfold lwe_decrypt, lwe_dim_valid, lwe_valid. rewrite A, H2, Nat.eqb_refl, (proj2 (Nat.eqb_neq _ _) Hd).
  destruct (Z.ltb_spec p w); [|lia]. cbn [negb andb]. rewrite D. cbn [bind].
  rewrite t_decode_ok; [|assumption|lia|lia|apply uwrap_torus; pose proof (word_pos w Hw); lia].
  f_equal. rewrite (decode_near w p m z); [now apply Z.mod_small|assumption|lia|lia|].
  apply uwrap_eq. rewrite He. apply zeq_add; [apply zeq_mod|apply zeq_refl'; ring].
Qed.
Print Assumptions lwe_decrypt_encrypt.
Example lwe_decrypt_encrypt_ex : exists c, lwe_sk_encrypt 64 3 [1; 0; 1] 2 2 [11; 22; 33] (2 ^ 64 - 5) = Ok c /\ lwe_decrypt Debug 64 3 [1; 0; 1] c 2 = Ok 2.
Proof. eexists. split; [vm_compute; reflexivity|]. vm_compute. reflexivity. Qed.

(** A trivial ciphertext decrypts to its message under every key. *)
Theorem lwe_trivial_decrypts w dim c m sk : dim <> O -> length (lwe_a c) = dim ->
  exists c', lwe_trivial dim c m = Ok c' /\ lwe_decrypt_raw w dim sk c' = Ok (m mod 2 ^ w).
Proof.
  intros Hd Hl. destruct (lwe_trivial_ok dim c m Hd Hl) as (c' & E & L & _ & _ & P). exists c'. split; [assumption|].
  rewrite lwe_decrypt_raw_ok by assumption. now rewrite P.
Qed.
Print Assumptions lwe_trivial_decrypts.

(** * C51: LWE operations act on phases, for every key *)

Theorem lwe_add_phase w c a sk : length (lwe_a c) = length (lwe_a a) ->
  exists c', lwe_add_inplace w c a = Ok c' /\ congr w (lwe_phase sk c') (lwe_phase sk c + lwe_phase sk a).
Proof. intros H. destruct (lwe_add_ok w c a H) as (c' & E & _ & _ & _ & P). exists c'. auto. Qed.
Print Assumptions lwe_add_phase.
Theorem lwe_sub_phase w c a b sk : length (lwe_a c) = length (lwe_a a) -> length (lwe_a c) = length (lwe_a b) ->
  exists c', lwe_sub w c a b = Ok c' /\ congr w (lwe_phase sk c') (lwe_phase sk a - lwe_phase sk b).
Proof. intros H H'. destruct (lwe_sub_ok w c a b H H') as (c' & E & _ & _ & _ & P). exists c'. auto. Qed.
Print Assumptions lwe_sub_phase.
Theorem lwe_scalar_mad_phase w c s a sk : length (lwe_a c) = length (lwe_a a) ->
  exists c', lwe_scalar_mad w c s a = Ok c' /\ congr w (lwe_phase sk c') (lwe_phase sk c + s * lwe_phase sk a).
Proof. intros H. destruct (lwe_scalar_mad_ok w c s a H) as (c' & E & _ & _ & _ & P). exists c'. auto. Qed.
Print Assumptions lwe_scalar_mad_phase.
Theorem lwe_neg_phase w c sk : congr w (lwe_phase sk (lwe_neg w c)) (- lwe_phase sk c).
Proof. now destruct (lwe_neg_ok w c) as (_ & _ & P). Qed.
Print Assumptions lwe_neg_phase.
Theorem lwe_rotate_phase w dim out inp amount sk : length (lwe_a out) = dim -> length (lwe_a inp) = dim ->
  exists c', lwe_rotate w dim out inp amount = Ok c' /\ congr w (lwe_phase sk c') (lwe_phase sk inp + amount).
Proof.
  intros H1 H2. unfold lwe_rotate, lwe_valid. rewrite H1, H2, Nat.eqb_refl. cbn [andb]. eexists. split; [reflexivity|].
  unfold lwe_phase. cbn [lwe_a lwe_b]. rewrite tadd_congr. apply zeq_refl'. ring.
Qed.
Print Assumptions lwe_rotate_phase.
(** Ciphertexts of different dimensions are refused. *)
Theorem lwe_dimension_mismatch w c a b s : length (lwe_a c) <> length (lwe_a a) ->
  lwe_add_inplace w c a = Panic /\ lwe_sub w c a b = Panic /\ lwe_scalar_mad w c s a = Panic.
Proof.
  intros H. apply Nat.eqb_neq in H. unfold lwe_add_inplace, lwe_sub, lwe_scalar_mad. rewrite H. cbn [andb]. auto.
Qed.
Print Assumptions lwe_dimension_mismatch.
Example lwe_ops_ex : exists c, lwe_add_inplace 32 {| lwe_a := [1; 4294967295]; lwe_b := 7 |} {| lwe_a := [2; 3]; lwe_b := 9 |} = Ok c /\ lwe_a c = [3; 2] /\ lwe_b c = 16.
Proof. eexists. split; [vm_compute; reflexivity|]. split; reflexivity. Qed.

(** Decrypting the sum of two encryptions yields the sum of the messages, as long as the total noise stays
    below half a step. *)
Theorem lwe_add_decrypts pr w dim sk c1 c2 m1 m2 p E1 E2 : word w -> dim <> O -> length sk = dim -> lwe_wf w dim c1 -> lwe_wf w dim c2 ->
  0 < p < w -> p < 32 -> near w E1 (lwe_phase sk c1) (m1 * 2 ^ (w - p)) -> near w E2 (lwe_phase sk c2) (m2 * 2 ^ (w - p)) ->
  E1 + E2 < 2 ^ (w - p - 1) ->
  exists c, lwe_add_inplace w c1 c2 = Ok c /\ lwe_decrypt pr w dim sk c p = Ok ((m1 + m2) mod 2 ^ p).
Proof.
  intros Hw Hd Hsk (L1 & _ & _) (L2 & _ & _) Hp Hp' N1 N2 HE.
  destruct (lwe_add_ok w c1 c2 ltac:(congruence)) as (c & Ec & Lc & _ & _ & Pc). exists c. split; [assumption|].
  unfold lwe_decrypt, lwe_dim_valid, lwe_valid. rewrite Lc, L1, Nat.eqb_refl, (proj2 (Nat.eqb_neq _ _) Hd).
  destruct (Z.ltb_spec p w); [|lia]. cbn [negb andb]. rewrite lwe_decrypt_raw_ok by congruence. cbn [bind].
  rewrite t_decode_ok; [|assumption|lia|lia|apply uwrap_torus; pose proof (word_pos w Hw); lia]. f_equal.
  destruct (near_add _ _ _ _ _ _ _ N1 N2) as (z & Hz & Hc). apply (decode_near w p (m1 + m2) z); try assumption; [lia|].
  change (congr w (lwe_phase sk c) ((m1 + m2) * 2 ^ (w - p) + z)). rewrite Pc, Hc. apply zeq_refl'. ring.
Qed.
Print Assumptions lwe_add_decrypts.

(** * C52: LWE key switching *)

(** Key generation yields a key-switch key whose noise is the drawn noise, for old keys whose coefficients
    are below 2^log (binary keys in particular), in both build profiles. *)
Theorem keyswitch_key_correct pr w log count oldsk newsk rnd E ksk : word w -> 1 <= log -> (1 <= count)%nat -> log * Z.of_nat count <= w ->
  oldsk <> [] -> newsk <> [] -> ksk_valid (length oldsk) (length newsk) count ksk = true ->
  Forall (fun s => 0 <= s < 2 ^ log) oldsk -> length rnd = length oldsk -> ksk_rnd_ok w E (length newsk) count rnd ->
  exists ksk', lwe_gen_ksk pr w log count (length oldsk) (length newsk) ksk oldsk newsk rnd = Ok ksk' /\
    ksk_valid (length oldsk) (length newsk) count ksk' = true /\ ksk_enc w log E count oldsk newsk ksk'.
Proof.
  intros Hw Hl Hc Hs Ho Hn Hk Hf Lr Hr.
  apply lwe_gen_ksk_ok; try assumption; try reflexivity; try (intros H; apply length_zero_iff_nil in H; contradiction).
  apply Forall_forall. intros s Hin. apply (proj1 (Forall_forall _ _) Hf) in Hin. split; [lia|right; lia].
Qed.
Print Assumptions keyswitch_key_correct.

(** Switching changes the phase by at most  old * (K * 2^(w - log*count - 1) + count * 2^(log-1) * E)
    for key coefficients of magnitude at most K and key noise at most E; the old contents of the output
    buffer do not matter. *)
Theorem keyswitch_phase pr w log count oldsk newsk out ct ksk K E : word w -> 1 <= log -> (1 <= count)%nat -> log * Z.of_nat count < w ->
  oldsk <> [] -> newsk <> [] -> length (lwe_a out) = length newsk -> lwe_wf w (length oldsk) ct ->
  ksk_valid (length oldsk) (length newsk) count ksk = true -> 0 <= E -> Forall (fun s => Z.abs s <= K) oldsk ->
  ksk_enc w log E count oldsk newsk ksk ->
  exists c, lwe_keyswitch pr w log count (length oldsk) (length newsk) out ct ksk = Ok c /\ lwe_wf w (length newsk) c /\
    near w (Z.of_nat (length oldsk) * (K * 2 ^ (w - log * Z.of_nat count - 1) + Z.of_nat count * (2 ^ (log - 1) * E)))
      (lwe_phase newsk c) (lwe_phase oldsk ct).
Proof.
  intros Hw Hl Hc Hs Ho Hn Hout Hct Hk HE HK Henc.
  destruct (lwe_keyswitch_ok pr w log count (length oldsk) (length newsk) out ct ksk Hw Hl Hc Hs) as (c & E1 & W1 & P1);
    try assumption; try (intros H; apply length_zero_iff_nil in H; contradiction).
  exists c. split; [assumption|]. split; [assumption|]. exact (P1 oldsk newsk K E HE HK eq_refl Henc).
Qed.
Print Assumptions keyswitch_phase.

(** End to end: generate a key, switch an encryption of [m], decrypt under the new key. *)
Theorem keyswitch_decrypts pr w log count oldsk newsk out ct ksk0 rnd m p E Ein : word w -> 1 <= log -> (1 <= count)%nat -> log * Z.of_nat count < w ->
  oldsk <> [] -> newsk <> [] -> binary oldsk -> length (lwe_a out) = length newsk -> lwe_wf w (length oldsk) ct ->
  ksk_valid (length oldsk) (length newsk) count ksk0 = true -> 0 <= E -> length rnd = length oldsk -> ksk_rnd_ok w E (length newsk) count rnd ->
  0 < p < w -> p < 32 -> 0 <= m < 2 ^ p -> near w Ein (lwe_phase oldsk ct) (m * 2 ^ (w - p)) ->
  Ein + Z.of_nat (length oldsk) * (2 ^ (w - log * Z.of_nat count - 1) + Z.of_nat count * (2 ^ (log - 1) * E)) < 2 ^ (w - p - 1) ->
  exists ksk c, lwe_gen_ksk pr w log count (length oldsk) (length newsk) ksk0 oldsk newsk rnd = Ok ksk /\
    lwe_keyswitch pr w log count (length oldsk) (length newsk) out ct ksk = Ok c /\
    lwe_decrypt pr w (length newsk) newsk c p = Ok m.
Proof.
  intros Hw Hl Hc Hs Ho Hn Hb Hout Hct Hk HE Lr Hr Hp Hp' Hm Hin Hbound.
  assert (HK : Forall (fun s => Z.abs s <= 1) oldsk) by (apply (Forall_impl (P := fun s => s = 0 \/ s = 1)); [intros; lia|exact Hb]).
  assert (HF : Forall (fun s => 0 <= s < 2 ^ log) oldsk).
  { apply (Forall_impl (P := fun s => s = 0 \/ s = 1)); [intros s Hs'; pose proof (pow_half log Hl); pose proof (pow_pos' (log - 1) ltac:(lia)); lia|exact Hb]. }
  destruct (keyswitch_key_correct pr w log count oldsk newsk rnd E ksk0 Hw Hl Hc ltac:(lia) Ho Hn Hk HF Lr Hr) as (ksk & Eg & Vk & Pk).
  destruct (keyswitch_phase pr w log count oldsk newsk out ct ksk 1 E Hw Hl Hc Hs Ho Hn Hout Hct Vk HE HK Pk) as (c & Ec & (Lc & Wc) & Pc).
  exists ksk, c. split; [assumption|]. split; [assumption|].
  assert (Hd : length newsk <> O) by (intros H; apply length_zero_iff_nil in H; contradiction).
  unfold lwe_decrypt, lwe_dim_valid, lwe_valid. rewrite Lc, Nat.eqb_refl, (proj2 (Nat.eqb_neq _ _) Hd).
  destruct (Z.ltb_spec p w); [|lia]. cbn [negb andb]. rewrite lwe_decrypt_raw_ok by congruence. cbn [bind].
  rewrite t_decode_ok; [|assumption|lia|lia|apply uwrap_torus; pose proof (word_pos w Hw); lia]. f_equal.
  destruct (near_trans _ _ _ _ _ _ Pc Hin) as (z & Hz & Hcg). rewrite Z.mul_1_l in Hz.
  rewrite (decode_near w p m z); [now apply Z.mod_small|assumption|lia|lia|exact Hcg].
Qed.
Print Assumptions keyswitch_decrypts.
(** A concrete instance of all hypotheses: dimension 2 to 1, log 4, count 3 on 32-bit words. *)
Definition ex_rnd : list (list (list Z * Z)) := [[([7], 1); ([8], 2 ^ 32 - 1); ([9], 0)]; [([10], 1); ([11], 1); ([12], 1)]].
Example keyswitch_ex :
  let ct := {| lwe_a := [123456789; 3456789012]; lwe_b := (123456789 + 3456789012 + 2 ^ 30) mod 2 ^ 32 |} in
  exists ksk c, lwe_gen_ksk Debug 32 4 3 2 1 (ksk_new 2 1 3) [1; 1] [1] ex_rnd = Ok ksk /\
    lwe_keyswitch Debug 32 4 3 2 1 (lwe_new 1) ct ksk = Ok c /\ lwe_decrypt Debug 32 1 [1] c 2 = Ok 1.
Proof.
  cbv zeta. let v := eval vm_compute in (lwe_gen_ksk Debug 32 4 3 2 1 (ksk_new 2 1 3) [1; 1] [1] ex_rnd) in match v with Ok ?x => exists x end.
  eexists. split; [vm_compute; reflexivity|]. split; [vm_compute; reflexivity|]. vm_compute. reflexivity.
Qed.
Example keyswitch_ex_rnd : ksk_rnd_ok 32 1 1 3 ex_rnd.
Proof.
  unfold ksk_rnd_ok, ex_rnd. repeat (constructor; cbn; auto); try (exists 1; split; [cbn; lia|reflexivity]); try (exists (-1); split; [cbn; lia|reflexivity]); exists 0; split; [cbn; lia|reflexivity].
Qed.

(** Parameters the validity check accepts (log * count = word size) abort every key switch. *)
Theorem keyswitch_full_width_refuted pr w log count old new out ct ksk : word w -> 1 <= log -> (1 <= count)%nat -> log * Z.of_nat count = w ->
  radix_valid w log count = true /\ lwe_keyswitch pr w log count (S old) new out ct ksk = Panic.
Proof.
  intros Hw Hl Hc Hs. split; [now apply (full_width_radix_refuted pr w log count [])|]. unfold lwe_keyswitch.
  destruct (lwe_dim_valid _ && _ && _ && _ && _ && _) eqn:G; [|reflexivity].
  apply andb_true_iff in G as [G Gk]. apply andb_true_iff in G as [_ Gc]. apply Nat.eqb_eq in Gc. apply ksk_valid_iff in Gk as [Gk _].
  destruct (lwe_a ct) as [|x a] eqn:Ea; [cbn in Gc; lia|]. destruct ksk as [|lev ksk]; [cbn in Gk; lia|].
  cbn [lwe_ks_loop]. destruct (full_width_radix_refuted pr w log count [x] Hw Hl Hc Hs) as [_ ->]. reflexivity.
Qed.
Print Assumptions keyswitch_full_width_refuted.
(** In debug builds a key with a coefficient of at least 2^log aborts key generation (checked multiply). *)
Theorem keyswitch_keygen_uniform_key_refuted w log count oldsk newsk ksk rnd s : word w -> 1 <= log -> (1 <= count)%nat -> log * Z.of_nat count <= w ->
  ksk_valid (S (length oldsk)) (length newsk) count ksk = true -> 2 ^ log <= s -> rnd <> [] -> Forall (fun r => r <> []) rnd ->
  lwe_gen_ksk Debug w log count (S (length oldsk)) (length newsk) ksk (s :: oldsk) newsk rnd = Panic.
Proof.
  intros Hw Hl Hc Hs Hk Hbig Hr1 Hr2. unfold lwe_gen_ksk. destruct (lwe_dim_valid _ && _ && _ && _ && _ && _); [|reflexivity].
  apply ksk_valid_iff in Hk as [Hk1 Hk2]. destruct ksk as [|row ksk]; [cbn in Hk1; lia|]. destruct rnd as [|r rnd]; [contradiction|].
  inversion Hk2 as [|? ? [Hrow _] _]; subst. inversion Hr2; subst. destruct row as [|col row]; [cbn in Hc; lia|]. destruct r as [|[mask e] r]; [contradiction|].
  cbn [ksk_rows ksk_row]. assert (E0 : log * (Z.of_nat 0 + 1) <= w) by (cbn [length] in Hs; nia). rewrite gadget_factor_ok by assumption. cbn [bind]. unfold umul.
  destruct (Z.ltb_spec (2 ^ (w - log * (Z.of_nat 0 + 1)) * s) (2 ^ w)) as [Hlt|]; [exfalso|reflexivity].
  replace (2 ^ w) with (2 ^ (w - log * (Z.of_nat 0 + 1)) * 2 ^ log) in Hlt by (rewrite <- pow_split by lia; f_equal; lia).
  pose proof (pow_pos' (w - log * (Z.of_nat 0 + 1)) ltac:(lia)). nia.
Qed.
Print Assumptions keyswitch_keygen_uniform_key_refuted.

(** * C55: polynomial multiplication and rotation *)

(** [polynomial_mad]: coefficient k of the result is c_k plus the negacyclic convolution of a and b, for
    every power-of-two length. *)
Theorem poly_mad_negacyclic w N c a b : is_pow2 N = true -> poly_wf w N a -> poly_wf w N b -> poly_wf w N c -> word w ->
  exists r, poly_mad w c a b = Ok r /\ poly_wf w N r /\
    forall k, (k < N)%nat -> nth k r 0 = (nth k c 0 + negaconv N (coef a) (coef b) k) mod 2 ^ w.
Proof.
  intros Hp [Ha _] [Hb _] [Hc Hct] Hw. pose proof (word_pos w Hw).
  destruct (poly_mad_ok w N c a b Hp Ha Hb Hc) as (r & E & L & T & P). exists r. split; [assumption|]. split; [split; [assumption|apply T; (lia || assumption)]|].
  intros k Hk. specialize (P k Hk). rewrite <- pmul_negaconv by assumption. change (congr w (nth k r 0) (nth k c 0 + pmul N (coef a) (coef b) k)) in P.
  rewrite <- P. symmetry. apply Z.mod_small. specialize (T ltac:(lia) Hct). apply (proj1 (Forall_forall _ _) T). apply nth_In. lia.
Qed.
Print Assumptions poly_mad_negacyclic.
Example poly_mad_ex : poly_mad 32 [1; 0; 0; 0] [1; 2; 3; 4] [5; 6; 7; 8] = Ok [uwrap 32 (-55); uwrap 32 (-36); 2; 60].
Proof. vm_compute. reflexivity. Qed.
(** Any other shape is refused. *)
Theorem poly_mad_shape w c a b : is_pow2 (length a) = false \/ length a <> length b \/ length a <> length c -> poly_mad w c a b = Panic.
Proof.
  intros [H|[H|H]]; unfold poly_mad; [rewrite H|apply Nat.eqb_neq in H; rewrite H, andb_false_r|apply Nat.eqb_neq in H; rewrite H, andb_false_r]; reflexivity.
Qed.
Print Assumptions poly_mad_shape.
(** The product is commutative and associative: the operation really is multiplication in a ring. *)
Theorem poly_mul_ring w N : ring_theory p0 p1 padd (pmul N) psub popp (peq N (2 ^ w)).
Proof. apply poly_ring. Qed.
Print Assumptions poly_mul_ring.

(** [mul_by_monomial_negacyclic] by any integer n is multiplication by X^n: sign flips exactly at each wrap. *)
Theorem poly_rotation w p n : word w -> toruses w p ->
  poly_wf w (length p) (poly_rot w p n) /\
  forall k, (k < length p)%nat -> nth k (poly_rot w p n) 0 = pmono (length p) n (coef p) k mod 2 ^ w.
Proof.
  intros Hw Hp. pose proof (word_pos w Hw). assert (T : toruses w (poly_rot w p n)) by (apply poly_rot_torus; (lia || assumption)).
  split; [split; [apply poly_rot_len|assumption]|]. intros k Hk. pose proof (poly_rot_ok w p n k Hk) as P.
  change (congr w (nth k (poly_rot w p n) 0) (pmono (length p) n (coef p) k)) in P. rewrite <- P. symmetry. apply Z.mod_small.
  apply (proj1 (Forall_forall _ _) T). apply nth_In. now rewrite poly_rot_len.
Qed.
Print Assumptions poly_rotation.
Example poly_rotation_ex : poly_rot 32 [1; 2; 3; 4] 1 = [uwrap 32 (-4); 1; 2; 3] /\ poly_rot 32 [1; 2; 3; 4] (-5) = [uwrap 32 (-2); uwrap 32 (-3); uwrap 32 (-4); 1] /\ poly_rot 32 [1; 2; 3; 4] 8 = [1; 2; 3; 4].
Proof. repeat split; vm_compute; reflexivity. Qed.

(** Rotation agrees with the ring product by the monomial X^n (0 <= n < N). *)
Theorem rotation_is_multiplication w N p n : word w -> poly_wf w N p -> (n < N)%nat ->
  peq N (2 ^ w) (coef (poly_rot w p (Z.of_nat n))) (pmul N (fun k => if (k =? n)%nat then 1 else 0) (coef p)).
Proof.
  intros Hw [Hp _] Hn. rewrite <- Hp at 1. rewrite poly_rot_ok. rewrite Hp. rewrite <- (pxn_one N (2 ^ w) n Hn). rewrite <- pxn_as_mul.
  apply peq_exact. intros k Hk. symmetry. now apply pmono_pxn.
Qed.
Print Assumptions rotation_is_multiplication.
(** Rotations compose by adding exponents, X^(2N) = 1 and X^N = -1. *)
Theorem rotation_group w p m n : word w -> toruses w p ->
  poly_rot w (poly_rot w p n) m = poly_rot w p (m + n) /\
  poly_rot w p (n + 2 * Z.of_nat (length p)) = poly_rot w p n /\
  poly_rot w (poly_rot w p n) (- n) = p.
Proof.
  intros Hw Hp. destruct (poly_rotation w p n Hw Hp) as [[L1 T1] P1].
  assert (HP : forall a b, (length a = length p -> length b = length p -> (forall k, (k < length p)%nat -> nth k a 0 = nth k b 0) -> a = b)).
  { intros a b La Lb H. apply (nth_ext a b 0 0); [congruence|]. intros k Hk. apply H. lia. }
  assert (C : forall m, poly_rot w (poly_rot w p n) m = poly_rot w p (m + n)).
  { intros m'. destruct (poly_rotation w _ m' Hw T1) as [[L2 T2] P2]. destruct (poly_rotation w p (m' + n) Hw Hp) as [[L3 T3] P3]. apply HP; [congruence|assumption|].
    intros k Hk. rewrite P2 by congruence. rewrite P3 by assumption. rewrite L1. rewrite <- pmono_add by assumption.
    apply (pmono_mor (length p) (2 ^ w) m' (coef (poly_rot w p n)) (pmono (length p) n (coef p))); [apply poly_rot_ok|assumption]. }
  split; [apply C|]. split.
  - destruct (poly_rotation w p (n + 2 * Z.of_nat (length p)) Hw Hp) as [[L2 T2] P2]. apply HP; try assumption. intros k Hk. rewrite P1, P2 by assumption. f_equal. apply pmono_mod; [lia|]. exists 1. lia.
  - rewrite C. destruct (poly_rotation w p (- n + n) Hw Hp) as [[L2 T2] P2]. apply HP; try assumption; [reflexivity|]. intros k Hk. rewrite P2 by assumption.
    replace (- n + n) with 0 by lia. rewrite pmono_0 by assumption. apply Z.mod_small. apply (proj1 (Forall_forall _ _) Hp). now apply nth_In.
Qed.
Print Assumptions rotation_group.
