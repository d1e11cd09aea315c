From Coq Require Import ZifyBool ZifyNat.
From Verif Require Import Base Alu Memory SpecMem SpecAlu BitsLemmas AluProofs AluProofs2 MemoryProofs MemoryProofs2 MemoryProofs3 MemoryProofs4 MemoryProofs5.
Ltac Zify.zify_post_hook ::= Z.div_mod_to_equations.


Lemma is_pow2_small n : 0 < n <= 16 -> is_pow2 n = true -> acc_size n.
Proof.
  intros H E. unfold acc_size.
  assert (C : n = 1 \/ n = 2 \/ n = 3 \/ n = 4 \/ n = 5 \/ n = 6 \/ n = 7 \/ n = 8 \/ n = 9 \/ n = 10 \/ n = 11 \/ n = 12 \/ n = 13 \/ n = 14 \/ n = 15 \/ n = 16) by lia.
  repeat (destruct C as [C|C]; [subst n; try (vm_compute in E; discriminate); lia|]). lia.
Qed.

Lemma valid_alignment addr n : 0 <= n -> (invalid_alignment addr n = false <-> acc_size n /\ addr mod n = 0).
Proof.
  intros Hn. unfold invalid_alignment. split.
  - intros H. apply orb_false_iff in H. destruct H as [H H4]. apply orb_false_iff in H. destruct H as [H H3].
    apply orb_false_iff in H. destruct H as [H1 H2]. split; [|lia]. apply is_pow2_small; [lia|]. now destruct (is_pow2 n).
  - intros [H1 H2]. rewrite H2. destruct H1 as [->|[->|[->|[->| ->]]]]; reflexivity.
Qed.

Lemma acc_bound addr n : acc_size n -> addr_ok addr -> addr mod n = 0 -> addr + n <= 2 ^ 32.
Proof.
  unfold addr_ok. change (2 ^ 32) with 4294967296. intros [->|[->|[->|[->| ->]]]] H1 H2; lia.
Qed.

Lemma bytes_value_cons b bs : bytes_value (b :: bs) = byte_num b + 256 * bytes_value bs.
Proof. reflexivity. Qed.

Lemma pow256_2 i : 0 <= i -> 2 ^ (8 * (i + 1)) = 2 ^ (8 * i) * 256.
Proof. intros. replace (8 * (i + 1)) with (8 * i + 8) by lia. rewrite Z.pow_add_r by lia. reflexivity. Qed.

Lemma load_plain_rest_ok n : forall addr i m acc vs, 0 <= addr -> 0 <= i -> addr + i + Z.of_nat n <= 2 ^ 32 ->
  length vs = n -> holds m (addr + i) (map BPlain vs) -> 0 <= acc < 2 ^ (8 * i) -> Forall byte_val vs ->
  load_plain_rest addr i n m acc = Ok (acc + 2 ^ (8 * i) * le_value vs).
Proof.
  induction n as [|n IH]; intros addr i m acc vs Ha Hi Hb Hl Hh Hacc Hv; destruct vs as [|v vs]; try discriminate; cbn [load_plain_rest].
  - cbn [le_value]. f_equal. lia.
  - injection Hl as Hl. cbn [map] in Hh. apply holds_cons in Hh. destruct Hh as [H0 Hh]. inversion Hv as [|? ? Hv0 Hv']; subst.
    unfold ptr_offset. replace (addr + i <? 2 ^ 32) with true by lia. cbn [unwrap bind].
    rewrite try_load_peek by (unfold addr_ok; lia). rewrite H0. cbn [bind].
    rewrite Z.lor_comm, lor_shifted by lia. unfold byte_val in Hv0.
    rewrite (IH addr (i + 1) m _ vs); auto; try lia.
    + cbn [le_value]. rewrite pow256_2 by lia. f_equal. ring.
    + now replace (addr + (i + 1)) with (addr + i + 1) by lia.
    + rewrite pow256_2 by lia. nia.
Qed.

Lemma load_cipher_rest_ok n : forall addr i m acc cs, 0 <= addr -> 0 <= i -> addr + i + Z.of_nat n <= 2 ^ 32 ->
  length cs = n -> holds m (addr + i) (map BCipher cs) ->
  load_cipher_rest addr i n m acc = Ok (acc ++ concat cs).
Proof.
  induction n as [|n IH]; intros addr i m acc cs Ha Hi Hb Hl Hh; destruct cs as [|c cs]; try discriminate; cbn [load_cipher_rest].
  - cbn [concat]. now rewrite app_nil_r.
  - injection Hl as Hl. cbn [map] in Hh. apply holds_cons in Hh. destruct Hh as [H0 Hh].
    unfold ptr_offset. replace (addr + i <? 2 ^ 32) with true by lia. cbn [unwrap bind].
    rewrite try_load_peek by (unfold addr_ok; lia). rewrite H0. cbn [bind].
    rewrite (IH addr (i + 1) m _ cs); auto; try lia.
    + cbn [concat]. now rewrite app_assoc.
    + now replace (addr + (i + 1)) with (addr + i + 1) by lia.
Qed.

Lemma all_plain_map bs : all_plain bs -> exists vs, bs = map BPlain vs /\ length vs = length bs.
Proof.
  induction 1 as [|b bs [v ->] H (vs & -> & Hl)]; [exists []; auto|]. exists (v :: vs). cbn [map length]. auto.
Qed.

Lemma all_cipher_map bs : all_cipher bs -> exists cs, bs = map BCipher cs /\ length cs = length bs.
Proof.
  induction 1 as [|b bs [v ->] H (vs & -> & Hl)]; [exists []; auto|]. exists (v :: vs). cbn [map length]. auto.
Qed.

Lemma bytes_value_plain vs : bytes_value (map BPlain vs) = le_value vs.
Proof. unfold bytes_value. rewrite map_map. cbn [byte_num]. now rewrite map_id. Qed.

Lemma bytes_value_cipher cs : Forall (fun c => length c = 8%nat) cs -> bytes_value (map BCipher cs) = uval (concat cs).
Proof.
  induction 1 as [|c cs Hc H IH]; cbn [map concat]; [reflexivity|]. rewrite bytes_value_cons, IH, uval_app, Hc. reflexivity.
Qed.

Lemma concat8_length (cs : list (list bool)) : Forall (fun c => length c = 8%nat) cs -> length (concat cs) = (8 * length cs)%nat.
Proof. induction 1 as [|c cs Hc H IH]; cbn [concat length]; [lia|]. rewrite app_length, Hc, IH. lia. Qed.

(** What a load returns. *)
Lemma op_load_ok ptr w0 off w addr bs m : addr = ptr mod 2 ^ 32 + off -> addr_ok addr ->
  acc_size (w / 8) -> addr mod (w / 8) = 0 -> Z.of_nat (length bs) = w / 8 -> Forall byte_ok bs -> holds m addr bs ->
  (all_plain bs -> op_load (RPlain ptr w0) off w m = Ok (RPlain (bytes_value bs) w)) /\
  (all_cipher bs -> exists d, op_load (RPlain ptr w0) off w m = Ok (RCipher KL1Glwe d) /\
      Z.of_nat (length d) = 8 * (w / 8) /\ uval d = bytes_value bs).
Proof.
  intros Haddr Hok Hn Hal Hl Hb Hh.
  assert (E1 : ptr_signed_offset (uwrap 32 ptr) off = Ok addr).
  { unfold ptr_signed_offset, uwrap. rewrite <- Haddr. unfold addr_ok in Hok. now replace ((0 <=? addr) && (addr <? 2 ^ 32)) with true by lia. }
  pose proof (acc_bound _ _ Hn Hok Hal) as Hbound.
  assert (Hn0 : 0 < w / 8) by (destruct Hn as [->|[->|[->|[->| ->]]]]; lia).
  assert (E2 : invalid_alignment addr (w / 8) = false) by (apply valid_alignment; [lia|auto]).
  unfold op_load. rewrite E1. cbn [bind]. rewrite E2. rewrite try_load_peek by auto.
  destruct bs as [|b bs]; [cbn [length] in Hl; lia|]. apply holds_cons in Hh. destruct Hh as [H0 Hh]. rewrite H0. cbn [bind].
  cbn [length] in Hl. apply Forall_cons_iff in Hb. destruct Hb as [Hb0 Hb']. unfold addr_ok in Hok. split; intros Hk.
  - inversion Hk as [|? ? [v ->] Hk']; subst. apply all_plain_map in Hk'. destruct Hk' as (vs & -> & Hvl).
    rewrite (load_plain_rest_ok (Z.to_nat (w / 8 - 1)) _ 1 m v vs); try lia; auto.
    + cbn [bind]. rewrite bytes_value_cons, bytes_value_plain. cbn [byte_num]. change (2 ^ (8 * 1)) with 256. reflexivity.
    + rewrite Forall_map in Hb'. exact Hb'.
  - inversion Hk as [|? ? [c ->] Hk']; subst. apply all_cipher_map in Hk'. destruct Hk' as (cs & -> & Hvl).
    rewrite (load_cipher_rest_ok (Z.to_nat (w / 8 - 1)) _ 1 m c cs); try lia; auto.
    cbn [bind]. eexists. split; [reflexivity|]. rewrite Forall_map in Hb'. cbn [byte_ok] in *.
    rewrite app_length, Hb0, concat8_length by auto. rewrite map_length in Hl. split; [lia|].
    rewrite bytes_value_cons, bytes_value_cipher, uval_app, Hb0 by auto. reflexivity.
Qed.

(** A load of a range holding both kinds of byte fails. *)
Lemma load_rest_mixed m n : forall addr i bs, 0 <= addr -> 0 <= i -> addr + i + Z.of_nat n <= 2 ^ 32 -> length bs = n ->
  holds m (addr + i) bs ->
  (forall acc, (exists c, In (BCipher c) bs) -> load_plain_rest addr i n m acc = Err ENotPlaintext) /\
  (forall acc, (exists v, In (BPlain v) bs) -> load_cipher_rest addr i n m acc = Err ENotCiphertext).
Proof.
  induction n as [|n IH]; intros addr i bs Ha Hi Hb Hl Hh; destruct bs as [|b bs]; try discriminate.
  - split; intros acc [x []].
  - injection Hl as Hl. apply holds_cons in Hh. destruct Hh as [H0 Hh]. cbn [load_plain_rest load_cipher_rest].
    unfold ptr_offset. replace (addr + i <? 2 ^ 32) with true by lia. cbn [unwrap bind].
    rewrite try_load_peek by (unfold addr_ok; lia). rewrite H0. cbn [bind].
    destruct (IH addr (i + 1) bs) as [I1 I2]; auto; try lia; [now replace (addr + (i + 1)) with (addr + i + 1) by lia|].
    destruct b as [v|c]; split; intros acc [x Hx]; auto; destruct Hx as [Hx|Hx]; try discriminate; eauto.
Qed.

Lemma op_load_mixed ptr w0 off w addr bs m v c : addr = ptr mod 2 ^ 32 + off -> addr_ok addr ->
  acc_size (w / 8) -> addr mod (w / 8) = 0 -> Z.of_nat (length bs) = w / 8 -> holds m addr bs ->
  In (BPlain v) bs -> In (BCipher c) bs ->
  op_load (RPlain ptr w0) off w m = Err ENotPlaintext \/ op_load (RPlain ptr w0) off w m = Err ENotCiphertext.
Proof.
  intros Haddr Hok Hn Hal Hl Hh Hv Hc.
  assert (E1 : ptr_signed_offset (uwrap 32 ptr) off = Ok addr).
  { unfold ptr_signed_offset, uwrap. rewrite <- Haddr. unfold addr_ok in Hok. now replace ((0 <=? addr) && (addr <? 2 ^ 32)) with true by lia. }
  pose proof (acc_bound _ _ Hn Hok Hal) as Hbound.
  assert (Hn0 : 0 < w / 8) by (destruct Hn as [->|[->|[->|[->| ->]]]]; lia).
  assert (E2 : invalid_alignment addr (w / 8) = false) by (apply valid_alignment; [lia|auto]).
  unfold op_load. rewrite E1. cbn [bind]. rewrite E2. rewrite try_load_peek by auto.
  destruct bs as [|b bs]; [destruct Hv|]. apply holds_cons in Hh. destruct Hh as [H0 Hh]. rewrite H0. cbn [bind].
  cbn [length] in Hl. unfold addr_ok in Hok.
  destruct (load_rest_mixed m (Z.to_nat (w / 8 - 1)) addr 1 bs) as [M1 M2]; try lia; auto.
  destruct b as [u|d].
  - left. rewrite M1; auto. destruct Hc as [Hc|Hc]; [discriminate|]. eauto.
  - right. rewrite M2; auto. destruct Hv as [Hv|Hv]; [discriminate|]. eauto.
Qed.

(** Rejected accesses: no effect on memory. *)
Lemma op_mem_rejected p src ptr w0 off w addr m : addr = ptr mod 2 ^ 32 + off -> 0 <= w ->
  (~ addr_ok addr -> op_load (RPlain ptr w0) off w m = Err EPtrOverflow /\ op_store p src (RPlain ptr w0) off w m = (m, Err EPtrOverflow)) /\
  (addr_ok addr -> ~ (acc_size (w / 8) /\ addr mod (w / 8) = 0) ->
     op_load (RPlain ptr w0) off w m = Err EUnaligned /\ op_store p src (RPlain ptr w0) off w m = (m, Err EUnaligned)).
Proof.
  intros Haddr Hw. unfold op_load, op_store, mbind, mres, ptr_signed_offset, uwrap. rewrite <- Haddr. unfold addr_ok. split.
  - intros H. now replace ((0 <=? addr) && (addr <? 2 ^ 32)) with false by lia.
  - intros H Hn. replace ((0 <=? addr) && (addr <? 2 ^ 32)) with true by lia. cbn [bind].
    destruct (invalid_alignment addr (w / 8)) eqn:E; [auto|]. apply valid_alignment in E; [tauto|lia].
Qed.

Lemma op_mem_encrypted_pointer p src k d off w m :
  op_load (RCipher k d) off w m = Err EIllegalOperands /\ op_store p src (RCipher k d) off w m = (m, Err EIllegalOperands).
Proof. split; reflexivity. Qed.

(** ** Store *)
Lemma store_bytes_plain p v w0 n : forall addr i m, 0 <= addr -> 0 <= i -> 8 * (i + Z.of_nat n) <= 128 ->
  addr + i + Z.of_nat n <= 2 ^ 32 ->
  store_bytes p (RPlain v w0) addr i n m = store_from addr i (map BPlain (to_le n (v / 2 ^ (8 * i)))) m.
Proof.
  induction n as [|n IH]; intros addr i m Ha Hi Hw Hb; cbn [store_bytes to_le map store_from]; auto.
  unfold mbind, mres. cbn [store_byte_of]. rewrite ushr_ok by lia. cbn [bind].
  unfold ptr_offset. replace (addr + i <? 2 ^ 32) with true by lia. cbn [unwrap].
  unfold uwrap. change (2 ^ 8) with 256.
  destruct (try_store (addr + i) (BPlain ((v / 2 ^ (8 * i)) mod 256)) m) as [m' [[]| |]]; auto.
  rewrite IH by lia. rewrite pow256_2 by lia. rewrite Z.div_div by lia. reflexivity.
Qed.

Fixpoint cbytes (n : nat) (d : list bool) : list (list bool) :=
  match n with O => [] | S n => firstn 8 d :: cbytes n (skipn 8 d) end.

Lemma cbytes_spec n : forall d, (8 * n <= length d)%nat ->
  length (cbytes n d) = n /\ Forall (fun c => length c = 8%nat) (cbytes n d) /\ concat (cbytes n d) = firstn (8 * n) d.
Proof.
  induction n as [|n IH]; intros d Hd; cbn [cbytes length concat]; [repeat split; auto|].
  destruct (IH (skipn 8 d)) as (H1 & H2 & H3); [rewrite skipn_length; lia|].
  split; [now rewrite H1|]. split; [constructor; auto; rewrite firstn_length; lia|].
  rewrite H3. replace (8 * S n)%nat with (8 + 8 * n)%nat by lia.
  rewrite <- (firstn_skipn 8 d) at 3. rewrite firstn_app, firstn_length, Nat.min_l by lia.
  rewrite firstn_firstn, Nat.min_r by lia. f_equal. f_equal. lia.
Qed.

Lemma skipn_skipn' {A} (a b : nat) (l : list A) : skipn a (skipn b l) = skipn (b + a) l.
Proof.
  revert l. induction b as [|b IH]; intros l; [reflexivity|]. destruct l as [|x l]; [now rewrite !skipn_nil|]. cbn [skipn Nat.add]. apply IH.
Qed.

Lemma store_bytes_cipher p d n : forall addr i m, 0 <= addr -> 0 <= i -> 8 * (i + Z.of_nat n) <= Z.of_nat (length d) ->
  addr + i + Z.of_nat n <= 2 ^ 32 ->
  store_bytes p (RCipher KL1Glwe d) addr i n m = store_from addr i (map BCipher (cbytes n (skipn (Z.to_nat (8 * i)) d))) m.
Proof.
  induction n as [|n IH]; intros addr i m Ha Hi Hw Hb; cbn [store_bytes cbytes map store_from]; auto.
  unfold mbind, mres. cbn [store_byte_of]. replace (8 * i + 8 <=? Z.of_nat (length d)) with true by lia.
  unfold ptr_offset. replace (addr + i <? 2 ^ 32) with true by lia. cbn [unwrap].
  destruct (try_store _ _ m) as [m' [[]| |]]; auto.
  rewrite IH by lia. rewrite skipn_skipn'. now replace (Z.to_nat (8 * i) + 8)%nat with (Z.to_nat (8 * (i + 1))) by lia.
Qed.

(** The bytes a store writes. *)
Definition store_image (src : reg) (n : nat) : list byte :=
  match src with RPlain v _ => map BPlain (to_le n v) | RCipher _ d => map BCipher (cbytes n d) end.

Lemma op_store_ok p src ptr w0 off w addr m : addr = ptr mod 2 ^ 32 + off -> addr_ok addr ->
  acc_size (w / 8) -> addr mod (w / 8) = 0 -> reg_ok src -> (reg_enc src = true -> 8 * (w / 8) <= reg_width src) ->
  range_mapped m addr (w / 8) ->
  exists m', op_store p src (RPlain ptr w0) off w m = (m', Ok tt) /\ sp m' = sp m /\
    holds m' addr (store_image src (Z.to_nat (w / 8))) /\ same_outside m m' addr (w / 8).
Proof.
  intros Haddr Hok Hn Hal Hreg Henc Hr.
  pose proof (acc_bound _ _ Hn Hok Hal) as Hbound.
  assert (Hn0 : 0 < w / 8 <= 16) by (destruct Hn as [->|[->|[->|[->| ->]]]]; lia).
  assert (E2 : invalid_alignment addr (w / 8) = false) by (apply valid_alignment; [lia|auto]).
  unfold op_store, mbind, mres, ptr_signed_offset, uwrap. rewrite <- Haddr. unfold addr_ok in Hok.
  replace ((0 <=? addr) && (addr <? 2 ^ 32)) with true by lia. rewrite E2.
  assert (Hst : store_bytes p src addr 0 (Z.to_nat (w / 8)) m = store_from addr 0 (store_image src (Z.to_nat (w / 8))) m).
  { destruct src as [v wv|k d]; cbn [store_image].
    - rewrite store_bytes_plain by lia. change (2 ^ (8 * 0)) with 1. now rewrite Z.div_1_r.
    - destruct Hreg as [_ Hk]. cbn in Hk. subst k. cbn [reg_enc reg_width] in Henc. rewrite store_bytes_cipher; auto; try lia.
      }
  rewrite Hst.
  assert (Hlen : length (store_image src (Z.to_nat (w / 8))) = Z.to_nat (w / 8)).
  { destruct src as [v wv|k d]; cbn [store_image]; rewrite map_length; [apply to_le_length|].
    cbn [reg_enc reg_width] in Henc. specialize (Henc eq_refl). apply cbytes_spec. lia. }
  destruct (store_from_ok (store_image src (Z.to_nat (w / 8))) addr 0 m) as (m' & S1 & S2 & S3); try lia.
  { rewrite Z.add_0_r, Hlen, Z2Nat.id by lia. exact Hr. }
  rewrite Z.add_0_r in S3. exists m'. split; [exact S1|]. split; [exact S2|]. split.
  - apply peek_holds. intros x Hx. rewrite S3.
    now replace ((addr <=? x) && (x <? addr + Z.of_nat (length (store_image src (Z.to_nat (w / 8)))))) with true by lia.
  - intros x Hx. rewrite S3. destruct (_ && _) eqn:E; auto. lia.
Qed.

Lemma store_image_value src n : reg_ok src -> (reg_enc src = true -> 8 * Z.of_nat n <= reg_width src) ->
  length (store_image src n) = n /\ Forall byte_ok (store_image src n) /\
  bytes_value (store_image src n) = reg_value src mod 2 ^ (8 * Z.of_nat n) /\
  (if reg_enc src then all_cipher (store_image src n) else all_plain (store_image src n)).
Proof.
  intros Hreg Henc. destruct src as [v wv|k d]; cbn [store_image reg_value reg_enc].
  - destruct Hreg as [_ Hv]. cbn in Hv. rewrite map_length, to_le_length. split; [auto|]. split; [apply Forall_map; apply to_le_byte|].
    split; [|apply Forall_map, Forall_forall; eauto]. rewrite bytes_value_plain, le_to_le by lia.
    rewrite Z.pow_mul_r by lia. reflexivity.
  - cbn [reg_enc reg_width] in Henc. specialize (Henc eq_refl).
    destruct (cbytes_spec n d) as (C1 & C2 & C3); [lia|]. rewrite map_length, C1. split; [auto|]. split; [apply Forall_map; exact C2|].
    split; [|apply Forall_map, Forall_forall; eauto].
    rewrite bytes_value_cipher by auto. rewrite C3, uval_firstn by lia. f_equal. f_equal. lia.
Qed.

Lemma access_width_size w : access_width w -> acc_size (w / 8) /\ 8 * (w / 8) = w /\ 1 <= w <= 128.
Proof. unfold access_width, acc_size. intros [->|[->|[->|[->| ->]]]]; repeat split; try lia; vm_compute; tauto. Qed.

Lemma load_after_store p src ptr w0 w1 off w addr m : addr = ptr mod 2 ^ 32 + off -> addr_ok addr ->
  access_width w -> addr mod (w / 8) = 0 -> reg_ok src -> (reg_enc src = true -> w <= reg_width src) ->
  range_mapped m addr (w / 8) ->
  exists m' r, op_store p src (RPlain ptr w0) off w m = (m', Ok tt) /\ same_outside m m' addr (w / 8) /\
    op_load (RPlain ptr w1) off w m' = Ok r /\ reg_ok r /\ reg_width r = w /\ reg_enc r = reg_enc src /\
    reg_value r = reg_value src mod 2 ^ w.
Proof.
  intros Haddr Hok Hw Hal Hreg Henc Hr. destruct (access_width_size w Hw) as (Hn & Hw8 & Hw1).
  destruct (op_store_ok p src ptr w0 off w addr m) as (m' & S1 & S2 & S3 & S4); auto.
  { intros E. specialize (Henc E). lia. }
  destruct (store_image_value src (Z.to_nat (w / 8)) Hreg) as (I1 & I2 & I3 & I4).
  { intros E. specialize (Henc E). lia. }
  destruct (op_load_ok ptr w1 off w addr (store_image src (Z.to_nat (w / 8))) m') as [L1 L2]; auto; try lia.
  rewrite Z2Nat.id in I3 by lia. rewrite Hw8 in I3.
  pose proof (Z.mod_pos_bound (reg_value src) (2 ^ w) ltac:(apply Z.pow_pos_nonneg; lia)) as Hmod.
  destruct (reg_enc src) eqn:E.
  - destruct (L2 I4) as (d & D1 & D2 & D3). exists m', (RCipher KL1Glwe d). repeat split; auto; cbn [reg_width reg_value]; try lia.
  - exists m', (RPlain (bytes_value (store_image src (Z.to_nat (w / 8)))) w).
    repeat split; auto; cbn [reg_width reg_value]; try lia.
Qed.

(** Storing and reloading a whole register gives the register back. *)
Lemma load_store_same p src ptr w0 w1 off w addr m : addr = ptr mod 2 ^ 32 + off -> addr_ok addr ->
  access_width w -> addr mod (w / 8) = 0 -> reg_ok src -> reg_width src = w -> range_mapped m addr (w / 8) ->
  exists m', op_store p src (RPlain ptr w0) off w m = (m', Ok tt) /\ op_load (RPlain ptr w1) off w m' = Ok src.
Proof.
  intros Haddr Hok Hw Hal Hreg Hwid Hr.
  destruct (load_after_store p src ptr w0 w1 off w addr m) as (m' & r & S1 & S2 & S3 & S4 & S5 & S6 & S7); auto; [lia|].
  exists m'. split; [exact S1|]. rewrite S3. f_equal.
  rewrite Z.mod_small in S7 by (rewrite <- Hwid; now apply reg_value_range).
  destruct src as [v wv|k d], r as [v' wv'|k' d']; cbn [reg_width reg_value reg_enc] in *; try discriminate; [congruence|].
  destruct Hreg as [_ H1], S4 as [_ H2]. cbn in H1, H2. subst k k'. f_equal. apply uval_inj; [lia|auto].
Qed.

(** A width that is not a multiple of 8 transfers only whole bytes, yet labels the result with the full width. *)
Lemma load_store_odd_width p v ptr w0 w1 m : ptr mod 2 ^ 32 = ptr -> mapped m ptr -> 0 <= v < 2 ^ 12 ->
  exists m', op_store p (RPlain v 12) (RPlain ptr w0) 0 12 m = (m', Ok tt) /\
    op_load (RPlain ptr w1) 0 12 m' = Ok (RPlain (v mod 256) 12).
Proof.
  intros Hp Hm Hv. assert (Hok : addr_ok ptr) by (unfold addr_ok; pose proof (Z.mod_pos_bound ptr (2 ^ 32)); lia).
  assert (Hreg : reg_ok (RPlain v 12)) by (split; cbn [reg_width]; lia).
  destruct (op_store_ok p (RPlain v 12) ptr w0 0 12 ptr m) as (m' & S1 & S2 & S3 & S4); auto.
  - lia.
  - vm_compute. tauto.
  - change (12 / 8) with 1. apply Z.mod_1_r.
  - discriminate.
  - change (12 / 8) with 1. intros x Hx. assert (x = ptr) by lia. subst x. auto.
  - exists m'. split; [exact S1|].
    destruct (store_image_value (RPlain v 12) (Z.to_nat (12 / 8)) Hreg) as (I1 & I2 & I3 & I4); [discriminate|].
    destruct (op_load_ok ptr w1 0 12 ptr (store_image (RPlain v 12) (Z.to_nat (12 / 8))) m') as [L1 L2]; auto.
    + lia.
    + vm_compute. tauto.
    + change (12 / 8) with 1. apply Z.mod_1_r.
    + rewrite L1 by exact I4. rewrite I3. reflexivity.
Qed.
