From Coq Require Import ZifyBool ZifyNat.
From Verif Require Import Base Alu Memory SpecMem SpecAlu BitsLemmas AluProofs AluProofs2 MemoryProofs MemoryProofs2.
Ltac Zify.zify_post_hook ::= Z.div_mod_to_equations.

(** ** Little-endian bytes *)
Lemma from_le_value vs : from_le vs = le_value vs.
Proof. induction vs as [|v vs IH]; cbn [from_le le_value]; congruence. Qed.

Lemma to_le_length n : forall v, length (to_le n v) = n.
Proof. induction n; intros; cbn [to_le length]; auto. Qed.

Lemma pow256_S n : 256 ^ Z.of_nat (S n) = 256 * 256 ^ Z.of_nat n.
Proof. rewrite Nat2Z.inj_succ, Z.pow_succ_r; lia. Qed.

Lemma le_to_le n : forall v, 0 <= v -> le_value (to_le n v) = v mod 256 ^ Z.of_nat n.
Proof.
  induction n as [|n IH]; intros v Hv.
  - cbn [to_le le_value]. change (256 ^ Z.of_nat 0) with 1. now rewrite Z.mod_1_r.
  - cbn [to_le le_value]. rewrite IH by lia. rewrite pow256_S.
    assert (Hp : 0 < 256 ^ Z.of_nat n) by (apply Z.pow_pos_nonneg; lia).
    rewrite Z.rem_mul_r by lia. ring.
Qed.

Lemma le_value_range vs : Forall byte_val vs -> 0 <= le_value vs < 256 ^ Z.of_nat (length vs).
Proof.
  induction 1 as [|v vs Hv H IH]; [cbn; lia|]. cbn [le_value length]. rewrite pow256_S. unfold byte_val in Hv. lia.
Qed.

Lemma to_le_byte n : forall v, Forall byte_val (to_le n v).
Proof. induction n as [|n IH]; intros v; cbn [to_le]; constructor; auto. unfold byte_val. lia. Qed.

Lemma plain_bytes_map vs : plain_bytes (map BPlain vs) = Ok vs.
Proof. induction vs as [|v vs IH]; cbn [map plain_bytes]; auto. now rewrite IH. Qed.

Lemma prim_roundtrip n v : 0 <= v < 256 ^ Z.of_nat n ->
  length (prim_to_bytes n v) = n /\ prim_try_from_bytes n (prim_to_bytes n v) = Ok v.
Proof.
  intros Hv. unfold prim_to_bytes, prim_try_from_bytes. rewrite map_length, to_le_length, Nat.eqb_refl. split; auto.
  cbn [negb]. rewrite plain_bytes_map. cbn [bind]. rewrite from_le_value, le_to_le by lia. now rewrite Z.mod_small.
Qed.

Lemma prim_wrong_size n bs : length bs <> n -> prim_try_from_bytes n bs = Err EOther.
Proof. intros H. unfold prim_try_from_bytes. now replace (Nat.eqb (length bs) n) with false by lia. Qed.

Lemma prim_encrypted n bs : length bs = n -> (exists c, In (BCipher c) bs) ->
  prim_try_from_bytes n bs = Err EEncryptionMismatch.
Proof.
  intros Hl [c Hc]. unfold prim_try_from_bytes. rewrite Hl, Nat.eqb_refl. cbn [negb].
  enough (E : plain_bytes bs = Err EEncryptionMismatch) by now rewrite E. clear Hl.
  induction bs as [|[v|d] bs IH]; [destruct Hc| |reflexivity].
  destruct Hc as [Hc|Hc]; [discriminate|]. cbn [plain_bytes]. now rewrite IH.
Qed.

(** ** Words *)
Lemma byte_num_range b : byte_ok b -> 0 <= byte_num b < 256.
Proof.
  destruct b as [v|c]; cbn [byte_ok byte_num]; intros H; [exact H|].
  pose proof (uval_range c) as Hr. rewrite H in Hr. exact Hr.
Qed.

Lemma uval8_last c : length c = 8%nat -> uval (repeat (last c false) 8) = if 128 <=? uval c then 255 else 0.
Proof.
  intros H. destruct (list_snoc_cases c) as (l & b & ->); [destruct c; discriminate|].
  rewrite last_last. rewrite app_length in H. cbn [length] in H.
  rewrite uval_app. assert (Hl : length l = 7%nat) by lia.
  pose proof (uval_range l) as Hr. rewrite Hl in *. change (2 ^ Z.of_nat 7) with 128 in *.
  destruct b; cbn [uval b2z repeat]; [replace (128 <=? _) with true by lia|replace (128 <=? _) with false by lia]; lia.
Qed.

Lemma existsb_false_plain bs : existsb is_cipher bs = false -> all_plain bs.
Proof.
  induction bs as [|[v|c] bs IH]; cbn [existsb is_cipher orb]; intros H; [constructor| |discriminate].
  constructor; eauto. now apply IH.
Qed.

Lemma existsb_false_cipher bs : existsb is_plain bs = false -> all_cipher bs.
Proof.
  induction bs as [|[v|c] bs IH]; cbn [existsb is_plain orb]; intros H; [constructor|discriminate|].
  constructor; eauto. now apply IH.
Qed.

Lemma word_ext_value b signed : byte_ok b ->
  let ext := match b, signed with
             | BPlain _, false => BPlain 0
             | BCipher _, false => BCipher (repeat false 8)
             | BPlain v, true => if v / 2 ^ 7 =? 1 then BPlain 255 else BPlain 0
             | BCipher c, true => BCipher (repeat (last c false) 8)
             end in
  byte_num ext = (if signed && (128 <=? byte_num b) then 255 else 0) /\ byte_ok ext /\
  (is_cipher ext = is_cipher b).
Proof.
  intros H. destruct b as [v|c], signed; cbn [byte_ok byte_num andb is_cipher] in *.
  - unfold byte_val in H. change (2 ^ 7) with 128. destruct (v / 128 =? 1) eqn:E; cbn [byte_num byte_ok is_cipher]; unfold byte_val.
    + replace (128 <=? v) with true by lia. repeat split; lia.
    + replace (128 <=? v) with false by lia. repeat split; lia.
  - unfold byte_val. repeat split; lia.
  - rewrite uval8_last by auto. repeat split; auto.
  - repeat split; auto.
Qed.

Lemma word_bytes_value bs signed w : Forall byte_ok bs -> bs <> [] -> word_try_from_bytes bs signed = Ok w ->
  length w = 4%nat /\ Forall byte_ok w /\ (all_plain bs /\ all_plain w \/ all_cipher bs /\ all_cipher w) /\
  bytes_value w = (if signed then signed_value (length bs) (bytes_value bs) else bytes_value bs) mod 2 ^ 32.
Proof.
  intros Hok Hne H. unfold word_try_from_bytes in H.
  destruct (4 <? length bs)%nat eqn:El; [discriminate|]. destruct bs as [|b0 bs]; [congruence|].
  destruct (existsb _ (b0 :: bs)) eqn:Ee; [discriminate|].
  assert (Hlast : byte_ok (last (b0 :: bs) b0)).
  { rewrite Forall_forall in Hok. apply Hok. destruct (list_snoc_cases (b0 :: bs)) as (l & x & E); [discriminate|].
    rewrite E, last_last. apply in_or_app. right. now left. }
  pose proof (word_ext_value _ signed Hlast) as Hext. cbv zeta in Hext.
  apply Ok_inj in H. 
  set (ext := match last (b0 :: bs) b0, signed with
             | BPlain _, false => BPlain 0
             | BCipher _, false => BCipher (repeat false 8)
             | BPlain v, true => if v / 2 ^ 7 =? 1 then BPlain 255 else BPlain 0
             | BCipher c, true => BCipher (repeat (last c false) 8)
             end) in *.
  destruct Hext as (Hv & Hbo & Hk).
  assert (Hw : w = (b0 :: bs) ++ repeat ext (4 - length (b0 :: bs))) by (symmetry; exact H). clear H.
  assert (Hlen : length w = 4%nat).
  { rewrite Hw, app_length, repeat_length. lia. }
  split; [exact Hlen|]. split.
  { rewrite Hw. apply Forall_app. split; auto. apply Forall_forall. intros x Hx. apply repeat_spec in Hx. now subst. }
  split.
  { assert (Hin : In (last (b0 :: bs) b0) (b0 :: bs)).
    { destruct (list_snoc_cases (b0 :: bs)) as (l & x & E); [discriminate|].
      rewrite E, last_last. apply in_or_app. right. now left. }
    destruct b0 as [v|c].
    - left. apply existsb_false_plain in Ee. split; auto. rewrite Hw. apply Forall_app. split; auto.
      apply Forall_forall. intros x Hx. apply repeat_spec in Hx. subst x.
      pose proof (proj1 (Forall_forall _ _) Ee _ Hin) as [u Hu]. rewrite Hu in Hk.
      destruct ext; [eauto|discriminate].
    - right. apply existsb_false_cipher in Ee. split; auto. rewrite Hw. apply Forall_app. split; auto.
      apply Forall_forall. intros x Hx. apply repeat_spec in Hx. subst x.
      pose proof (proj1 (Forall_forall _ _) Ee _ Hin) as [u Hu]. rewrite Hu in Hk.
      destruct ext; [discriminate|eauto]. }
  rewrite Hw. clear Hw Hk Hbo Ee Hlen Hlast Hne. unfold bytes_value. clearbody ext.
  rewrite map_app. 
  assert (Hr : map byte_num (repeat ext (4 - length (b0 :: bs))) = repeat (byte_num ext) (4 - length (b0 :: bs))).
  { generalize (4 - length (b0 :: bs))%nat. intros k. induction k; cbn [repeat map]; congruence. }
  rewrite Hr, Hv. clear Hr Hv ext.
  assert (Hrange : Forall (fun b => 0 <= byte_num b < 256) (b0 :: bs)).
  { eapply Forall_impl; [|exact Hok]. intros; now apply byte_num_range. }
  clear Hok. unfold signed_value. change (2 ^ 32) with 4294967296.
  destruct bs as [|b1 [|b2 [|b3 [|b4 bs]]]]; cbn [length Nat.sub repeat map last app le_value] in *.
  - inversion_clear Hrange as [|? ? R0 _]. change (2 ^ (8 * Z.of_nat 1 - 1)) with 128. change (2 ^ (8 * Z.of_nat 1)) with 256.
    destruct signed; cbn [andb].
    + destruct (128 <=? byte_num b0) eqn:E; destruct (byte_num b0 + 256 * 0 <? 128) eqn:E2; lia.
    + lia.
  - inversion_clear Hrange as [|? ? R0 Hr]. inversion_clear Hr as [|? ? R1 _].
    change (2 ^ (8 * Z.of_nat 2 - 1)) with 32768. change (2 ^ (8 * Z.of_nat 2)) with 65536.
    destruct signed; cbn [andb].
    + destruct (128 <=? byte_num b1) eqn:E; destruct (byte_num b0 + 256 * (byte_num b1 + 256 * 0) <? 32768) eqn:E2; lia.
    + lia.
  - inversion_clear Hrange as [|? ? R0 Hr]. inversion_clear Hr as [|? ? R1 Hr']. inversion_clear Hr' as [|? ? R2 _].
    change (2 ^ (8 * Z.of_nat 3 - 1)) with 8388608. change (2 ^ (8 * Z.of_nat 3)) with 16777216.
    destruct signed; cbn [andb].
    + destruct (128 <=? byte_num b2) eqn:E;
      destruct (byte_num b0 + 256 * (byte_num b1 + 256 * (byte_num b2 + 256 * 0)) <? 8388608) eqn:E2; lia.
    + lia.
  - inversion_clear Hrange as [|? ? R0 Hr]. inversion_clear Hr as [|? ? R1 Hr']. inversion_clear Hr' as [|? ? R2 Hr].
    inversion_clear Hr as [|? ? R3 _].
    change (2 ^ (8 * Z.of_nat 4 - 1)) with 2147483648. change (2 ^ (8 * Z.of_nat 4)) with 4294967296.
    destruct signed.
    + destruct (byte_num b0 + 256 * (byte_num b1 + 256 * (byte_num b2 + 256 * (byte_num b3 + 256 * 0))) <? 2147483648) eqn:E2; lia.
    + lia.
  - lia.
Qed.

Lemma word_mixed bs signed v c : (length bs <= 4)%nat -> In (BPlain v) bs -> In (BCipher c) bs ->
  word_try_from_bytes bs signed = Err EMixedData.
Proof.
  intros Hl Hp Hc. unfold word_try_from_bytes. replace (4 <? length bs)%nat with false by lia.
  destruct bs as [|b0 bs]; [destruct Hp|].
  replace (existsb _ (b0 :: bs)) with true; auto. symmetry. apply existsb_exists.
  destruct b0; [exists (BCipher c)|exists (BPlain v)]; auto.
Qed.

Lemma word_too_long bs signed : (4 < length bs)%nat -> word_try_from_bytes bs signed = Err ETooManyBytes /\
  word_from_slice bs = Err ETooManyBytes.
Proof.
  intros H. unfold word_try_from_bytes, word_from_slice. now replace (4 <? length bs)%nat with true by lia.
Qed.

Lemma word_accepts bs signed : (length bs <= 4)%nat -> all_plain bs \/ all_cipher bs ->
  exists w, word_try_from_bytes bs signed = Ok w.
Proof.
  intros Hl Hk. unfold word_try_from_bytes. replace (4 <? length bs)%nat with false by lia.
  destruct bs as [|b0 bs]; [eauto|].
  destruct (existsb _ (b0 :: bs)) eqn:E; [|eauto]. exfalso.
  apply existsb_exists in E. destruct E as (x & Hx & Hb).
  destruct Hk as [Hk|Hk]; pose proof (proj1 (Forall_forall _ _) Hk) as Hk';
    destruct (Hk' b0 (or_introl eq_refl)) as [u ->]; destruct (Hk' x Hx) as [u' ->]; discriminate.
Qed.

(** ** Encrypted integers as bytes *)
Lemma chunks_fuel_concat {A} n : (0 < n)%nat -> forall fuel (l : list A), (length l <= fuel)%nat -> concat (chunks_fuel fuel n l) = l.
Proof.
  intros Hn. induction fuel as [|fuel IH]; intros l Hl; destruct l as [|x l]; auto; [cbn [length] in Hl; lia|].
  cbn [chunks_fuel concat]. rewrite IH; [apply firstn_skipn|]. rewrite skipn_length. cbn [length] in *. lia.
Qed.

Lemma chunks_concat {A} n (l : list A) : (0 < n)%nat -> concat (chunks n l) = l.
Proof. intros. now apply chunks_fuel_concat. Qed.

Lemma chunks_fuel_uniform {A} n : (0 < n)%nat -> forall fuel k (l : list A), (length l <= fuel)%nat -> length l = (k * n)%nat ->
  Forall (fun c => length c = n) (chunks_fuel fuel n l) /\ length (chunks_fuel fuel n l) = k.
Proof.
  intros Hn. induction fuel as [|fuel IH]; intros k l Hl Hk.
  - destruct l; [|cbn [length] in Hl; lia]. cbn [chunks_fuel length] in *. split; [constructor|nia].
  - destruct l as [|x l]; [cbn [chunks_fuel length] in *; split; [constructor|nia]|].
    destruct k as [|k]; [cbn [length] in Hk; lia|].
    cbn [chunks_fuel length]. destruct (IH k (skipn n (x :: l))) as [H1 H2].
    { rewrite skipn_length. cbn [length] in *. lia. }
    { rewrite skipn_length, Hk. lia. }
    split; [constructor; auto; rewrite firstn_length, Hk; lia|now rewrite H2].
Qed.

Lemma mapM_byte_try l : Forall (fun c => length c = 8%nat) l ->
  mapM (fun c => match byte_try_from c with Ok b => Ok b | _ => Panic end) l = Ok (map BCipher l).
Proof.
  intros H. apply mapM_ok. intros c Hc. unfold byte_try_from. rewrite Forall_forall in H. now rewrite (H c Hc).
Qed.

Lemma cipher_bytes_map l : cipher_bytes (map BCipher l) = Ok (concat l).
Proof. induction l as [|c l IH]; cbn [map cipher_bytes concat]; auto. now rewrite IH. Qed.

Lemma int_roundtrip N bits e : N = (2 ^ e)%nat -> (3 <= e)%nat -> length bits = N ->
  exists bs, int_to_bytes N bits = Ok bs /\ length bs = (N / 8)%nat /\ all_cipher bs /\ int_try_from_bytes N bs = Ok bits.
Proof.
  intros HN He Hl.
  assert (HN8 : exists q, N = (q * 8)%nat).
  { exists (2 ^ (e - 3))%nat. rewrite HN. replace e with (e - 3 + 3)%nat at 1 by lia. now rewrite Nat.pow_add_r. }
  destruct HN8 as [q Hq].
  assert (Hp2 : is_pow2 (Z.of_nat N) = true).
  { unfold is_pow2. rewrite HN, Nat2Z.inj_pow. change (Z.of_nat 2) with 2.
    assert (Hpos : 0 < 2 ^ Z.of_nat e) by (apply Z.pow_pos_nonneg; lia).
    replace (0 <? 2 ^ Z.of_nat e) with true by lia. cbn [andb].
    rewrite land_mask by lia. rewrite Z.mod_same by lia. reflexivity. }
  unfold int_to_bytes. rewrite Hp2. replace (Z.of_nat N mod 8 =? 0) with true by lia. cbn [andb].
  destruct (chunks_fuel_uniform 8 ltac:(lia) (length bits) q bits) as [H1 H2]; [lia|lia|].
  fold (chunks 8 bits) in *.
  rewrite mapM_byte_try by auto. eexists. split; [reflexivity|]. rewrite map_length, H2.
  assert (Hdiv : q = (N / 8)%nat) by (rewrite Hq; rewrite Nat.div_mul; lia).
  split; [exact Hdiv|]. split.
  - apply Forall_map. apply Forall_forall. eauto.
  - unfold int_try_from_bytes. rewrite map_length, H2, Hdiv, Nat.eqb_refl. cbn [negb].
    rewrite cipher_bytes_map, chunks_concat by lia. reflexivity.
Qed.

Lemma int_plaintext N bs v : length bs = (N / 8)%nat -> In (BPlain v) bs ->
  int_try_from_bytes N bs = Err EEncryptionMismatch.
Proof.
  intros Hl Hv. unfold int_try_from_bytes. rewrite Hl, Nat.eqb_refl. cbn [negb]. clear Hl.
  induction bs as [|[u|c] bs IH]; [destruct Hv|reflexivity|]. destruct Hv as [Hv|Hv]; [discriminate|].
  cbn [cipher_bytes]. now rewrite IH.
Qed.

(** ** Arrays *)

Lemma chunks_concat_uniform {A} n (ls : list (list A)) : (0 < n)%nat -> Forall (fun c => length c = n) ls -> chunks n (concat ls) = ls.
Proof.
  intros Hn H. unfold chunks.
  assert (Hg : forall fuel, (length (concat ls) <= fuel)%nat -> chunks_fuel fuel n (concat ls) = ls).
  2: { now apply Hg. }
  induction H as [|c ls Hc H IH]; intros fuel Hf.
  - cbn [concat] in *. destruct fuel; reflexivity.
  - cbn [concat] in *. rewrite app_length in Hf.
    destruct fuel as [|fuel]; [lia|].
    assert (Hne : exists x l, c ++ concat ls = x :: l).
    { destruct c as [|x c]; [cbn [length] in Hc; lia|]. cbn [app]. eauto. }
    destruct Hne as (x & l & E). cbn [chunks_fuel]. rewrite E. rewrite <- E.
    rewrite firstn_app_exact, skipn_app_exact by auto. f_equal. apply IH. lia.
Qed.

Lemma mapM_length {A B} (f : A -> res B) l : forall r, mapM f l = Ok r -> length r = length l.
Proof.
  induction l as [|x l IH]; intros r H; cbn [mapM] in H.
  - apply Ok_inj in H. now subst.
  - destruct (f x); try discriminate. cbn [bind] in H. destruct (mapM f l) eqn:E; try discriminate.
    cbn [bind] in H. apply Ok_inj in H. subst r. cbn [length]. f_equal. now apply IH.
Qed.

Lemma array_roundtrip {T} (ty : argtype T) P xs :
  ty_ok ty P -> Forall P xs -> (0 < ty_align ty)%nat -> (0 < ty_size ty)%nat -> (ty_size ty mod ty_align ty = 0)%nat ->
  exists bs, array_to_bytes ty xs = Ok bs /\ length bs = (ty_size ty * length xs)%nat /\
    array_from_bytes ty (length xs) bs = Ok xs.
Proof.
  intros Hty HP Ha Hs Hm. unfold array_to_bytes, array_from_bytes.
  destruct (ty_size ty) as [|sz] eqn:Esz; [lia|].
  assert (Hn : nat_next_multiple (S sz) (ty_align ty) = S sz) by (unfold nat_next_multiple; now rewrite Hm).
  rewrite Hn.
  assert (Hls : exists ls,
    mapM (fun x => bs <- ty_to_bytes ty x ;;
      match bs with [] => Panic | b0 :: _ => Ok (firstn (S sz) (bs ++ repeat b0 (S sz))) end) xs = Ok ls /\
    Forall (fun c => length c = S sz) ls /\ mapM (ty_from_bytes ty) ls = Ok xs).
  { induction HP as [|x xs Hx HP IH].
    - exists []. repeat split; auto.
    - destruct IH as (ls & H1 & H2 & H3). destruct (Hty x Hx) as (bs & B1 & B2 & B3).
      exists (bs :: ls). cbn [mapM]. rewrite B1, H1. cbn [bind].
      destruct bs as [|b0 bs]; [cbn [length] in B2; lia|].
      rewrite firstn_app_exact by lia. cbn [bind]. rewrite B3, H3. cbn [bind]. repeat split; auto.
      constructor; auto. lia. }
  destruct Hls as (ls & H1 & H2 & H3).
  cbv zeta. rewrite H1. cbn [bind]. eexists. split; [reflexivity|].
  pose proof (mapM_length _ _ _ H3) as Hlen. split.
  - rewrite Hlen. clear - H2. induction H2 as [|c ls Hc H IH]; cbn [concat length]; [lia|]. rewrite app_length, IH, Hc. lia.
  - rewrite chunks_concat_uniform by (auto; lia). rewrite H3. cbn [bind]. now rewrite Nat.eqb_refl.
Qed.
