From Coq Require Import ZifyBool ZifyNat.
From Verif Require Import Base Alu Memory SpecMem SpecAlu BitsLemmas AluProofs AluProofs2 MemoryProofs MemoryProofs2 MemoryProofs3 MemoryProofs4.
Ltac Zify.zify_post_hook ::= Z.div_mod_to_equations.

(** ** Pointers *)
Lemma ptr_offset_exact a v r : addr_ok a -> addr_ok v ->
  (ptr_offset a v = Ok r <-> r = a + v /\ addr_ok r) /\ (ptr_offset a v = Err EPtrOverflow <-> ~ addr_ok (a + v)).
Proof.
  unfold ptr_offset, addr_ok. intros Ha Hv. destruct (a + v <? 2 ^ 32) eqn:E; split; split; intros H; try discriminate; try lia.
  - apply Ok_inj in H. lia.
  - f_equal. lia.
  - reflexivity.
Qed.

Lemma ptr_signed_exact a v r : addr_ok a ->
  (ptr_signed_offset a v = Ok r <-> r = a + v /\ addr_ok r) /\ (ptr_signed_offset a v = Err EPtrOverflow <-> ~ addr_ok (a + v)).
Proof.
  unfold ptr_signed_offset, addr_ok. intros Ha. destruct ((0 <=? a + v) && (a + v <? 2 ^ 32)) eqn:E; split; split; intros H; try discriminate; try lia.
  - apply Ok_inj in H. lia.
  - f_equal. lia.
  - reflexivity.
Qed.

(** ** Push *)
Lemma neg_len_ok p len : 0 <= len < 2 ^ 31 -> neg_len p len = Ok (- len).
Proof.
  intros H. unfold neg_len, uwrap, sint. change (2 ^ (32 - 1)) with (2 ^ 31).
  rewrite Z.mod_small by (change (2 ^ 32) with (2 * 2 ^ 31); lia). replace (len <? 2 ^ 31) with true by lia.
  replace (len =? - 2 ^ 31) with false by lia. reflexivity.
Qed.

Lemma peek_set_sp m s x : peek (set_sp m s) x = peek m x.
Proof. reflexivity. Qed.

Lemma push_aligned p a m : let len := Z.of_nat (length (bytes a)) in
  addr_ok (sp m) -> sp m <> 0 -> 0 < alignment a -> sp m mod alignment a = 0 ->
  len < 2 ^ 31 -> len <= sp m -> range_mapped m (sp m - len) len ->
  exists m', try_push p a m = (m', Ok (sp m - len)) /\ sp m' = sp m - len /\
    forall x, peek m' x = if (sp m - len <=? x) && (x <? sp m) then nth_error (bytes a) (Z.to_nat (x - (sp m - len))) else peek m x.
Proof.
  intros len Hs H0 Ha Hal Hl Hle Hr. unfold try_push. replace (sp m =? 0) with false by lia.
  replace (alignment a =? 0) with false by lia. rewrite Hal, Z.sub_0_r, Z.mod_same by lia.
  change (Z.to_nat 0) with O. cbn [push_padding]. unfold mbind at 1, mret at 1.
  fold len. unfold mbind at 1, mres at 1. rewrite neg_len_ok by (unfold len; lia).
  unfold ptr_signed_offset. unfold addr_ok in Hs. replace ((0 <=? sp m + - len) && (sp m + - len <? 2 ^ 32)) with true by (unfold len in *; lia).
  replace (sp m + - len) with (sp m - len) by lia.
  destruct (store_from_ok (bytes a) (sp m - len) 0 (set_sp m (sp m - len))) as (m' & H1 & H2 & H3).
  { lia. } { lia. }
  { rewrite Z.add_0_r. exact Hr. }
  unfold mbind. rewrite H1. exists m'. split; [reflexivity|]. split; [exact H2|].
  intros x. rewrite H3, Z.add_0_r. fold len. replace (sp m - len + len) with (sp m) by lia. reflexivity.
Qed.

(** The padding loop: n stores of zero going down from the old stack pointer, the first one AT it. *)
Lemma push_padding_ok n : forall m, 0 <= sp m - Z.of_nat n -> addr_ok (sp m) -> 
  (forall x, sp m - Z.of_nat n < x <= sp m -> mapped m x) ->
  exists m', push_padding n m = (m', Ok tt) /\ sp m' = sp m - Z.of_nat n /\
    forall x, peek m' x = if (sp m - Z.of_nat n <? x) && (x <=? sp m) then Some (BPlain 0) else peek m x.
Proof.
  induction n as [|n IH]; intros m Hn Ha Hr; cbn [push_padding].
  - exists m. repeat split; [lia|]. intros x. destruct (_ && _) eqn:E; auto. lia.
  - unfold mbind, mres. destruct (try_store_ok (sp m) (BPlain 0) m Ha) as (m1 & S1 & S2 & S3); [apply Hr; lia|]. rewrite S1.
    unfold ptr_signed_offset. unfold addr_ok in Ha. replace ((0 <=? sp m + -1) && (sp m + -1 <? 2 ^ 32)) with true by lia.
    destruct (IH (set_sp m1 (sp m + -1))) as (m2 & I1 & I2 & I3); cbn [sp set_sp].
    { lia. } { unfold addr_ok. lia. }
    { intros x Hx. unfold mapped. rewrite peek_set_sp, S3. destruct (x =? sp m); [congruence|]. apply Hr. lia. }
    exists m2. split; [exact I1|]. cbn [sp set_sp] in *. split; [lia|]. intros x. rewrite I3, peek_set_sp, S3.
    destruct (x =? sp m) eqn:E.
    + replace ((sp m + -1 - Z.of_nat n <? x) && (x <=? sp m + -1)) with false by lia.
      now replace ((sp m - Z.of_nat (S n) <? x) && (x <=? sp m)) with true by lia.
    + destruct ((sp m + -1 - Z.of_nat n <? x) && (x <=? sp m + -1)) eqn:E1;
      destruct ((sp m - Z.of_nat (S n) <? x) && (x <=? sp m)) eqn:E2; auto; lia.
Qed.

(** A push from a stack pointer that is r above an aligned address, 0 < r < align, ends r above (or 2r - align above)
    an aligned address, and clears the byte at the old stack pointer. *)
Lemma push_misaligned p a m : let len := Z.of_nat (length (bytes a)) in let k := alignment a in let r := sp m mod k in
  addr_ok (sp m) -> 0 < k -> r <> 0 -> len < 2 ^ 31 -> len mod k = 0 -> len + k <= sp m ->
  (forall x, sp m - len - k <= x <= sp m -> mapped m x) ->
  exists m' s, try_push p a m = (m', Ok s) /\ s mod k = (2 * r) mod k /\ peek m' (sp m) = Some (BPlain 0).
Proof.
  intros len k r Hs Hk Hr Hl Hlm Hle Hm. pose proof (Z.mod_pos_bound (sp m) k Hk) as Hb. fold r in Hb.
  unfold try_push. replace (sp m =? 0) with false by (unfold len in *; lia). fold k. replace (k =? 0) with false by lia. fold r.
  rewrite (Z.mod_small (k - r)) by lia.
  destruct (push_padding_ok (Z.to_nat (k - r)) m) as (m1 & P1 & P2 & P3); auto.
  { unfold len in *; lia. }
  { intros x Hx. apply Hm. unfold len in *; lia. }
  unfold mbind at 1. rewrite P1. fold len. unfold mbind at 1, mres at 1. rewrite neg_len_ok by (unfold len in *; lia).
  rewrite P2. rewrite Z2Nat.id in P2, P3 |- * by lia.
  set (s := sp m - (k - r) - len). unfold ptr_signed_offset. replace (sp m - (k - r) + - len) with s by (unfold s; lia).
  unfold addr_ok in Hs. replace ((0 <=? s) && (s <? 2 ^ 32)) with true by (unfold s, len in *; lia).
  destruct (store_from_ok (bytes a) s 0 (set_sp m1 s)) as (m2 & S1 & S2 & S3).
  { unfold s, len in *; lia. } { lia. }
  { rewrite Z.add_0_r. fold len. intros x Hx. split; [unfold addr_ok, s, len in *; lia|]. unfold mapped. rewrite peek_set_sp, P3.
    destruct (_ && _) eqn:E; [congruence|]. apply Hm. unfold s in *. lia. }
  unfold mbind. rewrite S1. exists m2, s. split; [reflexivity|]. split.
  - pose proof (Z.div_mod (sp m) k ltac:(lia)) as Hd. fold r in Hd. rewrite Z.mod_divide in Hlm by lia. destruct Hlm as [q Hq].
    replace s with (2 * r + (sp m / k - 1 - q) * k) by (unfold s; rewrite Hq; lia). now rewrite Z.mod_add by lia.
  - rewrite S3, Z.add_0_r. fold len. replace ((s <=? sp m) && (sp m <? s + len)) with false by (unfold s; lia).
    rewrite peek_set_sp, P3. now replace ((sp m - (k - r) <? sp m) && (sp m <=? sp m)) with true by lia.
Qed.

(** ** Call set-up *)
Lemma write_bytes_ok bs : forall cur m, 0 <= cur -> cur + Z.of_nat (length bs) < 2 ^ 32 ->
  range_mapped m cur (Z.of_nat (length bs)) ->
  exists m', write_bytes cur bs m = (m', Ok (cur + Z.of_nat (length bs))) /\ sp m' = sp m /\
    forall x, peek m' x = if (cur <=? x) && (x <? cur + Z.of_nat (length bs)) then nth_error bs (Z.to_nat (x - cur)) else peek m x.
Proof.
  induction bs as [|b bs IH]; intros cur m Hc Hb Hr; cbn [write_bytes length].
  - exists m. unfold mret. rewrite Z.add_0_r. repeat split; auto. intros x. destruct (_ && _) eqn:E; auto. lia.
  - cbn [length] in *. destruct (Hr cur) as [Ha Hm]; [lia|]. unfold mbind, mres.
    destruct (try_store_ok cur b m Ha Hm) as (m1 & S1 & S2 & S3). rewrite S1.
    unfold ptr_offset. replace (cur + 1 <? 2 ^ 32) with true by lia.
    destruct (IH (cur + 1) m1) as (m2 & I1 & I2 & I3); try lia.
    { intros x Hx. destruct (Hr x) as [Ax Mx]; [lia|]. split; auto. unfold mapped. rewrite S3. destruct (x =? cur); congruence. }
    exists m2. rewrite I1. split; [f_equal; f_equal; lia|]. split; [congruence|]. intros x. rewrite I3, S3.
    destruct (x =? cur) eqn:E.
    + apply Z.eqb_eq in E. subst x. replace (cur + 1 <=? cur) with false by lia. cbn [andb].
      replace ((cur <=? cur) && (cur <? cur + Z.of_nat (S (length bs)))) with true by lia.
      now replace (cur - cur) with 0 by lia.
    + destruct ((cur + 1 <=? x) && (x <? cur + 1 + Z.of_nat (length bs))) eqn:E1;
      destruct ((cur <=? x) && (x <? cur + Z.of_nat (S (length bs)))) eqn:E2; try lia; auto.
      rewrite nth_error_shift by lia. f_equal. lia.
Qed.

Lemma abi_align_spec k : abi_align k -> 0 < k /\ (k | 16).
Proof. intros [H|[H|[H|[H|H]]]]; subst; split; try lia; [exists 16|exists 8|exists 4|exists 2|exists 1]; reflexivity. Qed.

Lemma align_up_spec x k : 0 < k -> x <= align_up x k < x + k /\ (k | align_up x k).
Proof.
  intros Hk. unfold align_up. pose proof (Z.mod_pos_bound (k - x mod k) k Hk) as H1. split; [lia|].
  pose proof (Z.mod_pos_bound x k Hk) as H2. pose proof (Z.div_mod x k ltac:(lia)) as H3.
  destruct (Z.eq_dec (x mod k) 0) as [E|E].
  - rewrite E, Z.sub_0_r, Z.mod_same by lia. exists (x / k). lia.
  - rewrite Z.mod_small by lia. exists (x / k + 1). lia.
Qed.

Lemma align_ptr_ok pr s off k : abi_align k -> 0 <= s -> 0 <= off -> (16 | s) -> s + align_up off k < 2 ^ 32 ->
  align_ptr pr (s + off) k = Ok (s + align_up off k).
Proof.
  intros Hk Hs Ho Hd Hb. apply abi_align_spec in Hk. destruct Hk as [Hk Hdk]. unfold align_ptr, align_up in *.
  replace (k =? 0) with false by lia.
  assert (E : (s + off) mod k = off mod k).
  { destruct (Z.divide_trans _ _ _ Hdk Hd) as [q ->]. rewrite Z.add_comm. now rewrite Z.mod_add by lia. }
  rewrite E. unfold uadd. replace (s + off + (k - off mod k) mod k <? 2 ^ 32) with true by lia. f_equal. lia.
Qed.

Definition frame_end (args : list arg) (off : Z) : Z :=
  fold_left (fun off a => align_up off (alignment a) + Z.of_nat (length (bytes a))) args off.

Lemma frame_end_ge args : Forall (fun a => abi_align (alignment a)) args -> forall off, off <= frame_end args off.
Proof.
  induction 1 as [|a args Ha H IH]; intros off; cbn [frame_end fold_left]; [lia|].
  pose proof (align_up_spec off (alignment a) (proj1 (abi_align_spec _ Ha))) as [H1 _].
  specialize (IH (align_up off (alignment a) + Z.of_nat (length (bytes a)))). unfold frame_end in IH. lia.
Qed.

Lemma layout_bounds off args os e : layout off args os e -> off <= e /\
  forall i a o, nth_error args i = Some a -> nth_error os i = Some o -> off <= o /\ o + Z.of_nat (length (bytes a)) <= e.
Proof.
  induction 1 as [off|off a args o os e H1 H2 H3 [IH1 IH2]].
  - split; [lia|]. intros [|i]; discriminate.
  - split; [lia|]. intros [|i] a' o' Ha Ho; cbn [nth_error] in *.
    + injection Ha as <-. injection Ho as <-. lia.
    + specialize (IH2 i a' o' Ha Ho). lia.
Qed.


Lemma write_args_ok pr s args : Forall (fun a => abi_align (alignment a)) args -> 0 <= s -> (16 | s) ->
  forall off m, 0 <= off -> s + frame_end args off < 2 ^ 32 ->
  range_mapped m (s + off) (frame_end args off - off) ->
  exists m' os, layout off args os (frame_end args off) /\
    write_args pr (s + off) args m = (m', Ok (s + frame_end args off)) /\ sp m' = sp m /\
    (forall i a o, nth_error args i = Some a -> nth_error os i = Some o -> holds m' (s + o) (bytes a)) /\
    (forall x, ~ in_args s args os x -> peek m' x = peek m x).
Proof.
  intros Hall Hs Hd. induction Hall as [|a args Ha Hall IH]; intros off m Ho Hb Hr.
  - exists m, []. cbn [frame_end fold_left write_args]. split; [constructor|]. split; [reflexivity|]. split; [reflexivity|].
    split; [intros [|i]; discriminate|auto].
  - cbn [write_args]. set (o := align_up off (alignment a)). set (n := Z.of_nat (length (bytes a))).
    assert (Hfe : frame_end (a :: args) off = frame_end args (o + n)) by reflexivity.
    rewrite Hfe in *. pose proof (frame_end_ge args Hall (o + n)) as Hge.
    destruct (align_up_spec off (alignment a) (proj1 (abi_align_spec _ Ha))) as [U1 U2]. fold o in U1, U2.
    unfold mbind, mres. rewrite (align_ptr_ok pr s off (alignment a)); auto; [|fold o; unfold n in *; lia]. fold o.
    destruct (write_bytes_ok (bytes a) (s + o) m) as (m1 & W1 & W2 & W3); try (unfold n in *; lia).
    { intros x Hx. apply Hr. unfold n in *; lia. }
    fold n in W1, W3. rewrite W1.
    replace (s + o + n) with (s + (o + n)) in * by lia.
    destruct (IH (o + n) m1) as (m2 & os & I1 & I2 & I3 & I4 & I5); auto; try (unfold n in *; lia).
    { intros x Hx. destruct (Hr x) as [Ax Mx]; [unfold n in *; lia|]. split; auto. unfold mapped. rewrite W3.
      destruct (_ && _) eqn:E; [|auto]. intros Hc. apply nth_error_None in Hc. unfold n in *. lia. }
    destruct (layout_bounds _ _ _ _ I1) as [_ LB].
    exists m2, (o :: os). split; [constructor; auto|]. split; [exact I2|]. split; [congruence|]. split.
    + intros [|i] a' o' Hi Hio; cbn [nth_error] in *.
      * injection Hi as <-. injection Hio as <-. apply peek_holds. intros x Hx. fold n in Hx. rewrite I5.
        -- rewrite W3. now replace ((s + o <=? x) && (x <? s + (o + n))) with true by lia.
        -- intros (i & a' & o' & N1 & N2 & N3). specialize (LB i a' o' N1 N2). lia.
      * now apply (I4 i).
    + intros x Hx. rewrite I5.
      * rewrite W3. destruct (_ && _) eqn:E; auto. exfalso. apply Hx. exists O, a, o. cbn [nth_error]. repeat split; unfold n in *; lia.
      * intros (i & a' & o' & N1 & N2 & N3). apply Hx. exists (S i), a', o'. auto.
Qed.

Lemma divide_mod a b : 0 < b -> (b | a) <-> a mod b = 0.
Proof. intros. symmetry. apply Z.mod_divide. lia. Qed.

Lemma call_setup_ok pr args ra rs m : let size := alloc_size args ra rs in
  Forall (fun a => abi_align (alignment a)) args -> abi_align ra -> 0 <= rs ->
  addr_ok (sp m) -> sp m <> 0 -> sp m mod 16 = 0 -> size < 2 ^ 31 -> size <= sp m ->
  range_mapped m (sp m - size) size ->
  exists m' os e rp, set_up_call pr args ra rs m = (m', Ok (rp, sp m - size)) /\ sp m' = sp m - size /\
    (sp m - size) mod 16 = 0 /\
    layout 0 args os e /\ 0 <= e <= size /\
    (forall i a o, nth_error args i = Some a -> nth_error os i = Some o ->
       holds m' (sp m - size + o) (bytes a) /\ (sp m - size + o) mod alignment a = 0) /\
    (0 < rs -> exists ro, rp = sp m - size + ro /\ e <= ro /\ ro + rs <= size /\ rp mod ra = 0) /\
    (rs = 0 -> rp = 0) /\
    (forall x, sp m - size <= x < sp m -> ~ in_args (sp m - size) args os x -> peek m' x = Some (BPlain 0)) /\
    same_outside m m' (sp m - size) size.
Proof.
  intros size Hall Hra Hrs Hsp H0 H16 Hsz Hle Hr.
  pose proof (frame_end_ge args Hall 0) as Hfe. set (e := frame_end args 0) in *.
  destruct (abi_align_spec _ Hra) as [Kra Dra].
  assert (Hsize : size = align_up (if 0 <? rs then align_up e ra + rs else e) 16) by reflexivity.
  destruct (align_up_spec (if 0 <? rs then align_up e ra + rs else e) 16 ltac:(lia)) as [A1 A2]. rewrite <- Hsize in A1, A2.
  destruct (align_up_spec e ra Kra) as [B1 B2].
  assert (Hes : e <= size) by (destruct (0 <? rs); lia).
  set (s := sp m - size) in *. assert (Hs : 0 <= s) by lia.
  assert (Hs16 : (16 | s)).
  { unfold s. apply Z.divide_sub_r; auto. apply divide_mod; lia. }
  unfold set_up_call. fold size. unfold mbind at 1.
  destruct (push_aligned pr {| alignment := 16; bytes := repeat (BPlain 0) (Z.to_nat size) |} m) as (m1 & P1 & P2 & P3);
    cbn [alignment bytes]; rewrite ?repeat_length, ?Z2Nat.id by lia; auto; try lia.
  cbn [alignment bytes] in *. rewrite repeat_length, Z2Nat.id in P1, P2, P3 by lia. fold s in P1, P2, P3. rewrite P1.
  unfold mbind at 1, mread at 1. rewrite P2.
  assert (Hz : forall x, s <= x < sp m -> peek m1 x = Some (BPlain 0)).
  { intros x Hx. rewrite P3. replace ((s <=? x) && (x <? sp m)) with true by lia.
    rewrite nth_error_repeat; auto. lia. }
  destruct (write_args_ok pr s args Hall Hs Hs16 0 m1) as (m2 & os & W1 & W2 & W3 & W4 & W5); try lia.
  { fold e. unfold addr_ok in Hsp. lia. }
  { rewrite Z.add_0_r. fold e. intros x Hx. split; [unfold addr_ok in *; lia|]. unfold mapped. rewrite Hz by lia. congruence. }
  fold e in W1, W2. rewrite Z.add_0_r in W2. unfold mbind at 1. rewrite W2.
  destruct (layout_bounds _ _ _ _ W1) as [_ LB].
  assert (Hrp : (if 0 <? rs then mres (align_ptr pr (s + e) ra) else mret 0) m2 =
                (m2, Ok (if 0 <? rs then s + align_up e ra else 0))).
  { destruct (0 <? rs) eqn:E; [|reflexivity]. unfold mres. rewrite align_ptr_ok; auto; try lia. unfold addr_ok in Hsp. lia. }
  unfold mbind. rewrite Hrp. exists m2, os, e, (if 0 <? rs then s + align_up e ra else 0).
  split; [reflexivity|]. split; [congruence|]. split; [apply divide_mod; [lia|auto]|]. split; [exact W1|]. split; [lia|]. split; [|split; [|split; [|split]]].
  - intros i a o Hi Ho. split; [now apply (W4 i)|].
    assert (Haa : abi_align (alignment a)) by (rewrite Forall_forall in Hall; apply Hall; eapply nth_error_In; eauto).
    destruct (abi_align_spec _ Haa) as [K1 K2]. apply divide_mod; auto.
    apply Z.divide_add_r; [eapply Z.divide_trans; eauto|].
    clear - W1 Hi Ho. revert i Hi Ho. induction W1 as [|off a0 args o0 os e H1 H2 H3 IH]; intros [|i] Hi Ho; try discriminate; cbn [nth_error] in *.
    + injection Hi as <-. injection Ho as <-. auto.
    + now apply (IH i).
  - intros Hp. replace (0 <? rs) with true in * by lia. exists (align_up e ra). split; [reflexivity|]. split; [lia|]. split; [lia|].
    apply divide_mod; auto. apply Z.divide_add_r; auto. exact (Z.divide_trans _ _ _ Dra Hs16).
  - intros ->. reflexivity.
  - intros x Hx Hn. rewrite W5 by auto. now apply Hz.
  - intros x Hx. rewrite W5.
    + rewrite P3. destruct (_ && _) eqn:E; auto. unfold s in *. lia.
    + intros (i & a & o & N1 & N2 & N3). specialize (LB i a o N1 N2). lia.
Qed.
