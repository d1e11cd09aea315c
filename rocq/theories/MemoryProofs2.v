From Coq Require Import ZifyBool ZifyNat.
From Verif Require Import Base Alu Memory SpecMem AluProofs MemoryProofs.
Ltac Zify.zify_post_hook ::= Z.div_mod_to_equations.

(** ** Histories *)

Lemma alloc_loop_keep fuel : forall base num m x b, peek m x = Some b ->
  peek (fst (alloc_loop fuel base num m)) x = Some b.
Proof.
  induction fuel as [|fuel IH]; intros base num m x b H; cbn [alloc_loop]; auto.
  destruct (base + num <? TOTAL_PAGES); auto.
  destruct (find_mapped m base (Z.to_nat num)) as [i|] eqn:E; auto.
  cbn [fst]. rewrite peek_map_pages. destruct (_ && _) eqn:E1; auto.
  pose proof (find_mapped_none _ _ _ E (x / 4096)) as Hn. unfold peek in H. rewrite Hn in H; [discriminate|lia].
Qed.

Lemma try_allocate_keep p len m x b : peek m x = Some b -> peek (fst (try_allocate p len m)) x = Some b.
Proof.
  intros H. unfold try_allocate. destruct (len =? 0); auto.
  destruct (next_multiple_of p len PAGE_SIZE); auto. now apply alloc_loop_keep.
Qed.

Lemma try_allocate_at_keep a len m x b : peek m x = Some b -> peek (fst (try_allocate_at a len m)) x = Some b.
Proof.
  intros H. unfold try_allocate_at. destruct (len =? 0); auto. destruct (ptr_offset a len); auto.
  cbn [fst]. now rewrite peek_map_missing, H.
Qed.

Lemma store_from_outside bs : forall ptr i m x, 0 <= ptr -> 0 <= i ->
  ~ (ptr + i <= x < ptr + i + Z.of_nat (length bs)) -> peek (fst (store_from ptr i bs m)) x = peek m x.
Proof.
  induction bs as [|b bs IH]; intros ptr i m x Hp Hi Hx; cbn [store_from]; auto.
  unfold mbind, mres, ptr_offset. destruct (ptr + i <? 2 ^ 32) eqn:E; auto. cbn [length] in Hx.
  destruct (try_store_peek (ptr + i) b m) as [[_ H]|[_ (m1 & H & _ & H1)]]; [unfold addr_ok; lia| |]; rewrite H; auto.
  rewrite IH by lia. rewrite H1. destruct (x =? ptr + i) eqn:E1; auto. lia.
Qed.

Lemma store_from_mapped bs : forall ptr i m x, 0 <= ptr -> 0 <= i ->
  mapped m x <-> mapped (fst (store_from ptr i bs m)) x.
Proof.
  induction bs as [|b bs IH]; intros ptr i m x Hp Hi; cbn [store_from]; [tauto|].
  unfold mbind, mres, ptr_offset. destruct (ptr + i <? 2 ^ 32) eqn:E; [|cbn [fst]; tauto].
  destruct (try_store_peek (ptr + i) b m) as [[_ H]|[Hm (m1 & H & _ & H1)]]; [unfold addr_ok; lia| |]; rewrite H;
    [cbn [fst]; tauto|].
  rewrite <- IH by lia. unfold mapped. rewrite H1. destruct (x =? ptr + i) eqn:E1; [|tauto].
  apply Z.eqb_eq in E1. subst x. split; [congruence|auto].
Qed.

Lemma apply_keep p o m x b : memop_ok o -> ~ touches o x -> peek m x = Some b -> peek (apply p o m) x = Some b.
Proof.
  destruct o as [a c|len|a len|ptr align bs]; cbn [memop_ok touches apply]; intros Hok Ht H.
  - destruct (try_store_peek a c m Hok) as [[_ E]|[_ (m1 & E & _ & H1)]]; rewrite E; auto.
    cbn [fst]. rewrite H1. destruct (x =? a) eqn:E1; auto. lia.
  - now apply try_allocate_keep.
  - now apply try_allocate_at_keep.
  - unfold try_write_type. destruct (align =? 0); auto. destruct (negb _); auto.
    unfold mbind, mread. destruct (check_range_is_mapped p ptr (Z.of_nat (length bs)) m); auto.
    rewrite store_from_outside; auto; unfold addr_ok in Hok; lia.
Qed.

Lemma history_keep p os : forall m x b, Forall memop_ok os -> Forall (fun o => ~ touches o x) os ->
  peek m x = Some b -> peek (history p os m) x = Some b.
Proof.
  unfold history. induction os as [|o os IH]; intros m x b Hok Ht H; auto.
  inversion Hok; inversion Ht; subst. cbn [fold_left]. apply IH; auto. now apply apply_keep.
Qed.

Lemma apply_mapped p o m x : memop_ok o -> mapped m x -> mapped (apply p o m) x.
Proof.
  intros Hok H. destruct o as [a c|len|a len|ptr align bs]; cbn [memop_ok apply] in *.
  - destruct (try_store_peek a c m Hok) as [[_ E]|[_ (m1 & E & _ & H1)]]; rewrite E; auto.
    cbn [fst]. unfold mapped. rewrite H1. destruct (x =? a); congruence.
  - unfold mapped in *. destruct (peek m x) as [b|] eqn:E; [|congruence].
    rewrite (try_allocate_keep _ _ _ _ _ E). congruence.
  - unfold mapped in *. destruct (peek m x) as [b|] eqn:E; [|congruence].
    rewrite (try_allocate_at_keep _ _ _ _ _ E). congruence.
  - unfold try_write_type. destruct (align =? 0); auto. destruct (negb _); auto.
    unfold mbind, mread. destruct (check_range_is_mapped p ptr (Z.of_nat (length bs)) m); auto.
    apply store_from_mapped; auto; unfold addr_ok in Hok; lia.
Qed.

Lemma history_mapped p os : forall m x, Forall memop_ok os -> mapped m x -> mapped (history p os m) x.
Proof.
  unfold history. induction os as [|o os IH]; intros m x Hok H; auto.
  inversion Hok; subst. cbn [fold_left]. apply IH; auto. now apply apply_mapped.
Qed.

Lemma read_last_write p m1 m2 a b os : addr_ok a -> Forall memop_ok os -> Forall (fun o => ~ touches o a) os ->
  try_store a b m1 = (m2, Ok tt) -> try_load a (history p os m2) = Ok b.
Proof.
  intros Ha Hok Ht H. rewrite try_load_peek by auto.
  destruct (try_store_peek a b m1 Ha) as [[_ E]|[_ (m' & E & _ & H1)]]; [congruence|].
  assert (m' = m2) by congruence. subst m'.
  rewrite (history_keep p os m2 a b); auto. now rewrite H1, Z.eqb_refl.
Qed.

Lemma store_frame m1 m2 a b x : addr_ok a -> try_store a b m1 = (m2, Ok tt) -> x <> a -> peek m2 x = peek m1 x.
Proof.
  intros Ha H Hx. destruct (try_store_peek a b m1 Ha) as [[_ E]|[_ (m' & E & _ & H1)]]; [congruence|].
  assert (m' = m2) by congruence. subst m'. rewrite H1. destruct (x =? a) eqn:E1; auto. lia.
Qed.


Lemma alloc_loop_null fuel : forall base num m x, 1 <= base -> 0 <= num -> x < 4096 ->
  peek (fst (alloc_loop fuel base num m)) x = peek m x.
Proof.
  induction fuel as [|fuel IH]; intros base num m x Hb Hn Hx; cbn [alloc_loop]; auto.
  destruct (base + num <? TOTAL_PAGES); auto.
  destruct (find_mapped m base (Z.to_nat num)) as [i|] eqn:E.
  - apply IH; auto. apply find_mapped_some in E. lia.
  - cbn [fst]. rewrite peek_map_pages. destruct (_ && _) eqn:E1; auto. lia.
Qed.

Lemma uadd_nonneg p w a b r : 0 <= a -> 0 <= b -> uadd p w a b = Ok r -> 0 <= r.
Proof.
  unfold uadd. intros Ha Hb. destruct (_ <? _); [intros H; apply Ok_inj in H; lia|]. destruct p; [discriminate|].
  intros H. apply Ok_inj in H. subst r. unfold uwrap.
  destruct (Z.le_gt_cases 0 w).
  - apply Z.mod_pos_bound. apply Z.pow_pos_nonneg; lia.
  - rewrite Z.pow_neg_r by lia. rewrite Zmod_0_r. lia.
Qed.

Lemma next_multiple_nonneg p a k r : 0 <= a -> 0 <= k -> next_multiple_of p a k = Ok r -> 0 <= r.
Proof.
  unfold next_multiple_of. intros Ha Hk. destruct (k =? 0) eqn:E; [discriminate|].
  destruct (a mod k =? 0); [intros H; apply Ok_inj in H; lia|]. apply uadd_nonneg; auto.
  pose proof (Z.mod_pos_bound a k). lia.
Qed.

Lemma apply_null p o m x : memop_ok o -> never_at o -> x < 4096 -> peek m x = None -> peek (apply p o m) x = None.
Proof.
  intros Hok Hn Hx H. destruct o as [a c|len|a len|ptr align bs]; cbn [memop_ok apply never_at] in *; [| |tauto|].
  - destruct (try_store_peek a c m Hok) as [[_ E]|[Hm (m1 & E & _ & H1)]]; rewrite E; auto.
    cbn [fst]. rewrite H1. destruct (x =? a) eqn:E1; auto. apply Z.eqb_eq in E1. congruence.
  - unfold try_allocate. destruct (len =? 0); auto.
    destruct (next_multiple_of p len PAGE_SIZE) as [l| |] eqn:E; auto.
    apply next_multiple_nonneg in E; [|unfold addr_ok in Hok; lia|unfold PAGE_SIZE; lia].
    rewrite alloc_loop_null; auto; try lia. unfold PAGE_SIZE. lia.
  - unfold try_write_type. destruct (align =? 0); auto. destruct (negb _); auto.
    unfold mbind, mread. destruct (check_range_is_mapped p ptr (Z.of_nat (length bs)) m); auto.
    destruct (peek (fst (store_from ptr 0 bs m)) x) eqn:E; auto. exfalso.
    assert (Hmm : mapped (fst (store_from ptr 0 bs m)) x) by (unfold mapped; congruence).
    apply store_from_mapped in Hmm; [|unfold addr_ok in Hok; lia|lia]. unfold mapped in Hmm. congruence.
Qed.

Lemma history_null p os : forall m x, Forall memop_ok os -> Forall never_at os -> x < 4096 ->
  peek m x = None -> peek (history p os m) x = None.
Proof.
  unfold history. induction os as [|o os IH]; intros m x Hok Hn Hx H; auto.
  inversion Hok; inversion Hn; subst. cbn [fold_left]. apply IH; auto. now apply apply_null.
Qed.

(** ** C03 *)
Lemma allocate_ok p len m m' ptr : 0 < len <= 4294963200 -> try_allocate p len m = (m', Ok ptr) ->
  ptr mod 4096 = 0 /\ 4096 <= ptr /\ ptr + len < 2 ^ 32 /\
  (forall x, ptr <= x < ptr + len -> peek m x = None /\ peek m' x = Some (BPlain 0)) /\
  (forall x b, peek m x = Some b -> peek m' x = Some b) /\ sp m' = sp m.
Proof.
  intros Hl H. apply try_allocate_spec in H; auto.
  destruct H as [(b & E & H1 & H2 & H3 & H4 & H5)|(E & _)]; [|discriminate].
  apply Ok_inj in E. subst ptr m'. unfold TOTAL_PAGES in H2. change (2 ^ 32) with 4294967296.
  set (num := (len + 4095) / 4096) in *.
  assert (Hnum : len <= num * 4096 /\ 0 <= num) by (unfold num; lia).
  split; [apply Z.mod_mul; lia|]. split; [lia|]. split; [lia|]. split; [|split].
  - intros x Hx. assert (Hpg : b <= x / 4096 < b + num) by lia. split.
    + unfold peek. now rewrite H3.
    + rewrite peek_map_pages. replace ((b <=? x / 4096) && (x / 4096 <? b + Z.of_nat (Z.to_nat num))) with true by lia.
      reflexivity.
  - intros x c Hc. rewrite peek_map_pages. destruct (_ && _) eqn:E; auto.
    unfold peek in Hc. rewrite H3 in Hc by lia. discriminate.
  - apply map_pages_sp.
Qed.

Lemma allocate_total p len m m' r : 0 < len <= 4294963200 -> try_allocate p len m = (m', r) ->
  (exists ptr, r = Ok ptr) \/
  (r = Err EOutOfMemory /\ m' = m /\
   forall ptr, ptr mod 4096 = 0 -> 4096 <= ptr -> ptr + len <= 2 ^ 32 - 4096 ->
     exists x, ptr <= x < ptr + len /\ mapped m x).
Proof.
  intros Hl H. apply try_allocate_spec in H; auto. destruct H as [(b & E & _)|(E & H1 & H2)]; [left; eauto|right].
  repeat split; auto. intros ptr Hp0 Hp1 Hp2. change (2 ^ 32) with 4294967296 in Hp2.
  destruct (H2 (ptr / 4096)) as (i & Hi & Hpi); [lia|unfold TOTAL_PAGES; lia|].
  exists (i * 4096). split; [lia|]. unfold mapped. rewrite <- peek_pages_none. auto.
Qed.

Lemma allocations_disjoint p m1 m1' m2 m2' len1 len2 p1 p2 os :
  0 < len1 <= 4294963200 -> 0 < len2 <= 4294963200 -> Forall memop_ok os ->
  try_allocate p len1 m1 = (m1', Ok p1) -> m2 = history p os m1' ->
  try_allocate p len2 m2 = (m2', Ok p2) ->
  p1 + len1 <= p2 \/ p2 + len2 <= p1.
Proof.
  intros Hl1 Hl2 Hos H1 -> H2. apply allocate_ok in H1; auto. apply allocate_ok in H2; auto.
  destruct H1 as (_ & _ & _ & H1 & _). destruct H2 as (_ & _ & _ & H2 & _).
  destruct (Z_le_gt_dec (p1 + len1) p2); [now left|]. destruct (Z_le_gt_dec (p2 + len2) p1); [now right|].
  exfalso. set (x := Z.max p1 p2).
  assert (Hm : mapped (history p os m1') x).
  { apply history_mapped; auto. unfold mapped. destruct (H1 x) as [_ E]; [lia|]. congruence. }
  destruct (H2 x) as [E _]; [lia|]. unfold mapped in Hm. congruence.
Qed.

(** In the release profile a request within 4095 of 2^32 maps nothing and yet succeeds. *)
Lemma allocate_huge m len : 4294963200 < len < 2 ^ 32 ->
  try_allocate Release len m = (m, Ok 4096) /\ try_allocate Debug len m = (m, Panic).
Proof.
  intros H. change (2 ^ 32) with 4294967296 in H. unfold try_allocate, next_multiple_of, uadd, PAGE_SIZE.
  replace (len =? 0) with false by lia. change (4096 =? 0) with false. cbv iota.
  replace (len mod 4096 =? 0) with false by lia. change (2 ^ 32) with 4294967296.
  replace (len + (4096 - len mod 4096) <? 4294967296) with false by lia.
  split; auto. unfold uwrap. change (2 ^ 32) with 4294967296.
  replace (len + (4096 - len mod 4096)) with 4294967296 by lia.
  change (4294967296 mod 4294967296 / 4096) with 0.
  assert (Hk : exists k, Z.to_nat TOTAL_PAGES = S k).
  { exists (Z.to_nat (Z.pred TOTAL_PAGES)). rewrite <- Z2Nat.inj_succ by (unfold TOTAL_PAGES; lia).
    now rewrite Z.succ_pred. }
  destruct Hk as [k ->]. reflexivity.
Qed.

(** ** Typed access *)
Lemma check_pages_ok m ptr n : forall i,
  (forall j, i <= j < i + Z.of_nat n -> pages m j <> None) -> check_pages m ptr i n = Ok tt.
Proof.
  induction n as [|n IH]; intros i H; cbn [check_pages]; auto.
  destruct (pages m i) eqn:E; [|exfalso; apply (H i); auto; lia]. apply IH. intros j Hj. apply H. lia.
Qed.

Lemma check_pages_err m ptr n : forall i j, i <= j < i + Z.of_nat n -> pages m j = None ->
  check_pages m ptr i n = Err EAccessViolation \/ check_pages m ptr i n = Err EPtrOverflow.
Proof.
  induction n as [|n IH]; intros i j Hj H; cbn [check_pages]; [lia|].
  destruct (pages m i) eqn:E.
  - apply (IH (i + 1) j); auto. assert (i <> j) by congruence. lia.
  - unfold ptr_offset. destruct (_ <? _); auto.
Qed.

Lemma check_range_ok p ptr len m : addr_ok ptr -> 0 <= len -> range_mapped m ptr (len + 1) ->
  check_range_is_mapped p ptr len m = Ok tt.
Proof.
  intros Hp Hl Hr. unfold check_range_is_mapped, uadd.
  destruct (Hr (ptr + len)) as [Ha _]; [lia|]. unfold addr_ok in Ha. replace (ptr + len <? 2 ^ 32) with true by lia.
  cbn [bind]. apply check_pages_ok. unfold PAGE_SIZE. unfold addr_ok in Hp. intros j Hj Hnone.
  assert (Hc : exists x, ptr <= x < ptr + (len + 1) /\ x / 4096 = j).
  { exists (Z.max ptr (j * 4096)). lia. }
  destruct Hc as (x & Hx & Hxj). destruct (Hr x Hx) as [_ Hm]. unfold mapped, peek in Hm. rewrite Hxj, Hnone in Hm. congruence.
Qed.

Lemma range_mapped_le m a n n' : n' <= n -> range_mapped m a n -> range_mapped m a n'.
Proof. intros Hle H x Hx. apply H. lia. Qed.

Lemma check_range_err p ptr len m : addr_ok ptr -> 0 <= len -> ptr + len < 2 ^ 32 -> ~ mapped m (ptr + len) ->
  check_range_is_mapped p ptr len m = Err EAccessViolation \/ check_range_is_mapped p ptr len m = Err EPtrOverflow.
Proof.
  intros Hp Hl Ha Hm. unfold check_range_is_mapped, uadd. replace (ptr + len <? 2 ^ 32) with true by lia. cbn [bind].
  apply (check_pages_err m ptr _ (ptr / PAGE_SIZE) ((ptr + len) / PAGE_SIZE)).
  - unfold PAGE_SIZE. unfold addr_ok in Hp. lia.
  - unfold PAGE_SIZE. unfold mapped, peek in Hm. destruct (pages m ((ptr + len) / 4096)); auto. exfalso. apply Hm. congruence.
Qed.

Lemma write_type_ok p ptr align bs m : addr_ok ptr -> 0 < align -> ptr mod align = 0 ->
  range_mapped m ptr (Z.of_nat (length bs) + 1) ->
  exists m', try_write_type p ptr align bs m = (m', Ok tt) /\ holds m' ptr bs /\
    same_outside m m' ptr (Z.of_nat (length bs)) /\ sp m' = sp m /\
    try_load_type p ptr align (length bs) m' = Ok bs.
Proof.
  intros Hp Ha Hal Hr. unfold try_write_type, try_load_type. replace (align =? 0) with false by lia. rewrite Hal.
  cbn [Z.eqb negb]. unfold mbind, mread. rewrite check_range_ok; auto; try lia.
  destruct (store_from_ok bs ptr 0 m) as (m' & H1 & H2 & H3).
  { unfold addr_ok in Hp; lia. } { lia. }
  { rewrite Z.add_0_r. eapply range_mapped_le; [|exact Hr]. lia. }
  rewrite Z.add_0_r in H3. exists m'. split; [exact H1|].
  assert (Hh : holds m' ptr bs).
  { apply peek_holds. intros x Hx. rewrite H3. now replace ((ptr <=? x) && (x <? ptr + Z.of_nat (length bs))) with true by lia. }
  split; [exact Hh|]. split.
  { intros x Hx. rewrite H3. destruct (_ && _) eqn:E; auto. lia. }
  split; [exact H2|].
  rewrite check_range_ok; auto; try lia.
  - cbn [bind]. apply load_from_ok; auto; try lia.
    + unfold addr_ok in Hp; lia.
    + intros k. rewrite Z.add_0_r. destruct (Z_le_gt_dec ptr k); [|right; lia].
      destruct (Z_lt_le_dec k (ptr + Z.of_nat (length bs))); [left|right; lia]. apply Hr. lia.
    + now rewrite Z.add_0_r.
  - intros x Hx. destruct (Hr x Hx) as [Hax Hmx]. split; auto. unfold mapped. rewrite H3.
    destruct (_ && _) eqn:E; auto. intros Hc. apply nth_error_None in Hc. lia.
Qed.

(** The write is refused when the byte just past the end is not mapped. *)
Lemma write_type_boundary p ptr align bs m : addr_ok ptr -> 0 < align -> ptr mod align = 0 ->
  ptr + Z.of_nat (length bs) < 2 ^ 32 -> ~ mapped m (ptr + Z.of_nat (length bs)) ->
  exists e, try_write_type p ptr align bs m = (m, Err e).
Proof.
  intros Hp Ha Hal Hl Hm. unfold try_write_type. replace (align =? 0) with false by lia. rewrite Hal.
  cbn [Z.eqb negb]. unfold mbind, mread.
  destruct (check_range_err p ptr (Z.of_nat (length bs)) m) as [E|E]; auto; try lia; rewrite E; eauto.
Qed.

Lemma write_type_misaligned p ptr align bs m : 0 < align -> ptr mod align <> 0 ->
  try_write_type p ptr align bs m = (m, Err EUnaligned) /\
  (forall n, try_load_type p ptr align n m = Err EUnaligned).
Proof.
  intros Ha Hal. unfold try_write_type, try_load_type. replace (align =? 0) with false by lia.
  replace (ptr mod align =? 0) with false by lia. auto.
Qed.

Lemma allocate_type_ok p align bs m m' ptr :
  0 < Z.of_nat (length bs) <= 4294963200 -> 0 < align -> (align | 4096) ->
  try_allocate_type p align bs m = (m', Ok ptr) ->
  ptr mod align = 0 /\ 4096 <= ptr /\ holds m' ptr bs /\
  (forall x, ptr <= x < ptr + Z.of_nat (length bs) -> peek m x = None) /\
  (forall x b, peek m x = Some b -> peek m' x = Some b) /\
  try_load_type p ptr align (length bs) m' = Ok bs.
Proof.
  intros Hl Ha Hd H. unfold try_allocate_type, mbind in H.
  destruct (try_allocate p (Z.of_nat (length bs)) m) as [m1 [ptr1| |]] eqn:Ea; try discriminate.
  destruct (allocate_ok _ _ _ _ _ Hl Ea) as (H1 & H2 & H3 & H4 & H5 & H6).
  assert (Hpa : ptr1 mod align = 0).
  { destruct Hd as [q Hq]. rewrite Z.mod_divide in * by lia. destruct H1 as [r Hr]. exists (r * q). rewrite Hr, Hq. ring. }
  assert (Hok : addr_ok ptr1) by (unfold addr_ok; lia).
  destruct (peek m1 (ptr1 + Z.of_nat (length bs))) as [b|] eqn:Eb.
  - destruct (write_type_ok p ptr1 align bs m1) as (m2 & W1 & W2 & W3 & W4 & W5); auto.
    { intros x Hx. split; [unfold addr_ok; lia|]. unfold mapped.
      destruct (Z.eq_dec x (ptr1 + Z.of_nat (length bs))); [congruence|]. destruct (H4 x); [lia|congruence]. }
    rewrite W1 in H. unfold mret in H. injection H as <- <-. repeat split; auto; try lia.
    + intros x Hx. now apply H4.
    + intros x c Hc. rewrite W3; [now apply H5|]. intros Hx. destruct (H4 x Hx). congruence.
  - destruct (write_type_boundary p ptr1 align bs m1) as [e E]; auto.
    rewrite E in H. discriminate.
Qed.

(** A typed allocation whose size is a positive multiple of the page size fails when the following page is free. *)
Lemma allocate_type_page_multiple p align bs m m' ptr :
  0 < Z.of_nat (length bs) <= 4294963200 -> 0 < align -> (align | 4096) -> Z.of_nat (length bs) mod 4096 = 0 ->
  try_allocate p (Z.of_nat (length bs)) m = (m', Ok ptr) -> ~ mapped m (ptr + Z.of_nat (length bs)) ->
  exists e, try_allocate_type p align bs m = (m', Err e).
Proof.
  intros Hl Ha Hd Hmul Hal Hm.
  destruct (allocate_ok _ _ _ _ _ Hl Hal) as (H1 & H2 & H3 & H4 & H5 & H6).
  assert (Hpa : ptr mod align = 0).
  { destruct Hd as [q Hq]. rewrite Z.mod_divide in * by lia. destruct H1 as [r Hr]. exists (r * q). rewrite Hr, Hq. ring. }
  unfold try_allocate_type, mbind. rewrite Hal.
  destruct (write_type_boundary p ptr align bs m') as [e E]; auto.
  { unfold addr_ok; lia. }
  { pose proof (try_allocate_spec _ _ _ _ _ Hl Hal) as [(b & E & B1 & B2 & B3 & B4 & B5)|(E & _)]; [|discriminate].
    apply Ok_inj in E. subst ptr m'. unfold mapped. rewrite peek_map_pages.
    destruct (_ && _) eqn:Eb; [|exact Hm]. exfalso. clear - Eb Hmul Hl.
    set (len := Z.of_nat (length bs)) in *. lia. }
  rewrite E. eauto.
Qed.
