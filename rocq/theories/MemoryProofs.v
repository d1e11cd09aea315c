From Coq Require Import ZifyBool ZifyNat.
From Verif Require Import Base Alu Memory SpecMem AluProofs.
Ltac Zify.zify_post_hook ::= Z.div_mod_to_equations.

Lemma Ok_inj {A} (a b : A) : Ok a = Ok b -> a = b.
Proof. congruence. Qed.

Lemma page_id_eq a : addr_ok a -> page_id a = a / 4096.
Proof.
  intros [H1 H2]. unfold page_id, PAGE_ID_MASK, LOG2_PAGE_SIZE.
  rewrite Z.shiftr_land. change (Z.shiftr 4294963200 12) with (Z.ones 20).
  rewrite Z.land_ones by lia. rewrite Z.shiftr_div_pow2 by lia. change (2 ^ 12) with 4096.
  apply Z.mod_small. change (2 ^ 32) with 4294967296 in H2. change (2 ^ 20) with 1048576. lia.
Qed.

Lemma page_off_eq a : addr_ok a -> page_off a = a mod 4096.
Proof.
  intros _. unfold page_off, PAGE_OFFSET_MASK. change 4095 with (Z.ones 12). now rewrite Z.land_ones by lia.
Qed.

Lemma try_load_peek a m : addr_ok a ->
  try_load a m = match peek m a with Some b => Ok b | None => Err EAccessViolation end.
Proof.
  intros H. unfold try_load, peek, load_byte. rewrite page_id_eq, page_off_eq by auto.
  now destruct (pages m (a / 4096)).
Qed.

Lemma page_eq a x : x / 4096 = a / 4096 -> x mod 4096 = a mod 4096 -> x = a.
Proof. lia. Qed.

Lemma try_store_peek a b m : addr_ok a ->
  (peek m a = None /\ try_store a b m = (m, Err EAccessViolation)) \/
  (peek m a <> None /\ exists m', try_store a b m = (m', Ok tt) /\ sp m' = sp m /\
    forall x, peek m' x = if x =? a then Some b else peek m x).
Proof.
  intros H. unfold try_store, peek. rewrite page_id_eq, page_off_eq by auto.
  destruct (pages m (a / 4096)) as [pg|] eqn:Ep; [right|left]; split; try congruence; auto.
  eexists; split; [reflexivity|]. split; [reflexivity|]. intros x. cbn [pages set_page].
  destruct (x / 4096 =? a / 4096) eqn:E1.
  - apply Z.eqb_eq in E1. rewrite E1, Ep. unfold store_byte. destruct (x mod 4096 =? a mod 4096) eqn:E2.
    + apply Z.eqb_eq in E2. rewrite (page_eq _ _ E1 E2), Z.eqb_refl. reflexivity.
    + destruct (x =? a) eqn:E3; auto. apply Z.eqb_eq in E3. subst. rewrite Z.eqb_refl in E2. discriminate.
  - destruct (x =? a) eqn:E3; auto. apply Z.eqb_eq in E3. subst. rewrite Z.eqb_refl in E1. discriminate.
Qed.

Lemma try_store_ok a b m : addr_ok a -> peek m a <> None -> exists m', try_store a b m = (m', Ok tt) /\ sp m' = sp m /\
    forall x, peek m' x = if x =? a then Some b else peek m x.
Proof. intros H Hm. destruct (try_store_peek a b m H) as [[H1 _]|[_ H2]]; [congruence|auto]. Qed.

(** ** Storing and loading byte sequences *)

Lemma nth_error_shift {A} (b : A) bs k : 0 < k -> nth_error (b :: bs) (Z.to_nat k) = nth_error bs (Z.to_nat (k - 1)).
Proof. intros. replace (Z.to_nat k) with (S (Z.to_nat (k - 1))) by lia. reflexivity. Qed.

Lemma store_from_ok bs : forall ptr i m,
  0 <= ptr -> 0 <= i -> range_mapped m (ptr + i) (Z.of_nat (length bs)) ->
  exists m', store_from ptr i bs m = (m', Ok tt) /\ sp m' = sp m /\
    forall x, peek m' x = if (ptr + i <=? x) && (x <? ptr + i + Z.of_nat (length bs))
                          then nth_error bs (Z.to_nat (x - (ptr + i))) else peek m x.
Proof.
  induction bs as [|b bs IH]; intros ptr i m Hp Hi Hr; cbn [store_from length].
  - exists m. repeat split; auto. intros x. destruct (_ && _) eqn:E; auto. lia.
  - destruct (Hr (ptr + i)) as [Ha Hm]; [cbn [length]; lia|].
    unfold mbind, mres, ptr_offset. destruct (ptr + i <? 2 ^ 32) eqn:E; [|unfold addr_ok in Ha; lia].
    destruct (try_store_ok (ptr + i) b m Ha Hm) as (m1 & Hs & Hsp & Hpk). rewrite Hs.
    destruct (IH ptr (i + 1) m1) as (m2 & H2 & Hsp2 & Hpk2); try lia.
    { intros x Hx. destruct (Hr x) as [Hax Hmx]; [cbn [length]; lia|]. split; auto. unfold mapped.
      rewrite Hpk. destruct (x =? ptr + i); congruence. }
    exists m2. split; [exact H2|]. split; [congruence|]. intros x. rewrite Hpk2, Hpk.
    destruct (x =? ptr + i) eqn:E1.
    + apply Z.eqb_eq in E1. subst x.
      replace (ptr + (i + 1) <=? ptr + i) with false by lia. cbn [andb].
      replace ((ptr + i <=? ptr + i) && (ptr + i <? ptr + i + Z.of_nat (S (length bs)))) with true by lia.
      replace (ptr + i - (ptr + i)) with 0 by lia. reflexivity.
    + destruct ((ptr + (i + 1) <=? x) && (x <? ptr + (i + 1) + Z.of_nat (length bs))) eqn:E2;
      destruct ((ptr + i <=? x) && (x <? ptr + i + Z.of_nat (S (length bs)))) eqn:E3; try lia; auto.
      rewrite nth_error_shift by lia. f_equal. lia.
Qed.

Lemma load_from_ok n : forall ptr i m bs,
  0 <= ptr -> 0 <= i -> length bs = n -> (forall k, addr_ok k \/ ~ (ptr + i <= k < ptr + i + Z.of_nat n)) ->
  holds m (ptr + i) bs -> load_from ptr i n m = Ok bs.
Proof.
  induction n as [|n IH]; intros ptr i m bs Hp Hi Hl Ha Hh; destruct bs as [|b bs]; try discriminate; auto.
  cbn [load_from]. injection Hl as Hl.
  assert (Hai : addr_ok (ptr + i)) by (destruct (Ha (ptr + i)); auto; lia).
  unfold ptr_offset. destruct (ptr + i <? 2 ^ 32) eqn:E; [|unfold addr_ok in Hai; lia]. cbn [bind].
  rewrite try_load_peek by auto. pose proof (Hh O b eq_refl) as H0. rewrite Z.add_0_r in H0. rewrite H0. cbn [bind].
  rewrite (IH ptr (i + 1) m bs); auto; try lia.
  - intros k. destruct (Ha k); [now left|right; lia].
  - intros j c Hj. replace (ptr + (i + 1) + Z.of_nat j) with (ptr + i + Z.of_nat (S j)) by lia. apply Hh. exact Hj.
Qed.

Lemma holds_peek m a bs x : holds m a bs -> a <= x < a + Z.of_nat (length bs) -> peek m x = nth_error bs (Z.to_nat (x - a)).
Proof.
  intros Hh Hx. destruct (nth_error bs (Z.to_nat (x - a))) as [b|] eqn:E.
  - apply Hh in E. rewrite Z2Nat.id in E by lia. rewrite <- E. f_equal. lia.
  - apply nth_error_None in E. lia.
Qed.

Lemma peek_holds m a bs : (forall x, a <= x < a + Z.of_nat (length bs) -> peek m x = nth_error bs (Z.to_nat (x - a))) -> holds m a bs.
Proof.
  intros H i b Hi. rewrite H.
  - now replace (Z.to_nat (a + Z.of_nat i - a)) with i by lia.
  - assert (i < length bs)%nat by (apply nth_error_Some; congruence). lia.
Qed.

(** ** Allocation *)

Lemma find_mapped_none m n : forall base, find_mapped m base n = None ->
  forall i, base <= i < base + Z.of_nat n -> pages m i = None.
Proof.
  induction n as [|n IH]; intros base H i Hi; [lia|]. cbn [find_mapped] in H.
  destruct (pages m base) eqn:E; [discriminate|]. destruct (Z.eq_dec i base); [congruence|]. apply (IH (base + 1)); auto. lia.
Qed.

Lemma find_mapped_some m n : forall base i, find_mapped m base n = Some i ->
  base <= i < base + Z.of_nat n /\ pages m i <> None.
Proof.
  induction n as [|n IH]; intros base i H; cbn [find_mapped] in H; [discriminate|].
  destruct (pages m base) eqn:E.
  - injection H as <-. split; [lia|congruence].
  - apply IH in H. lia || (destruct H; split; [lia|auto]).
Qed.

Lemma map_pages_spec n : forall m base j,
  pages (map_pages m base n) j = if (base <=? j) && (j <? base + Z.of_nat n) then Some fresh_page else pages m j.
Proof.
  induction n as [|n IH]; intros m base j; cbn [map_pages].
  - destruct (_ && _) eqn:E; auto. lia.
  - rewrite IH. cbn [set_page pages]. destruct (j =? base) eqn:E.
    + replace ((base <=? j) && (j <? base + Z.of_nat (S n))) with true by lia.
      destruct (_ && _) eqn:E2; auto.
    + destruct ((base + 1 <=? j) && (j <? base + 1 + Z.of_nat n)) eqn:E1;
      destruct ((base <=? j) && (j <? base + Z.of_nat (S n))) eqn:E2; auto; lia.
Qed.

Lemma map_pages_sp n : forall m base, sp (map_pages m base n) = sp m.
Proof. induction n as [|n IH]; intros; cbn [map_pages]; auto. now rewrite IH. Qed.

Lemma map_missing_spec n : forall m base j,
  pages (map_missing m base n) j =
  match pages m j with Some pg => Some pg
  | None => if (base <=? j) && (j <? base + Z.of_nat n) then Some fresh_page else None end.
Proof.
  induction n as [|n IH]; intros m base j; cbn [map_missing].
  - destruct (pages m j); auto. destruct (_ && _) eqn:E; auto. lia.
  - rewrite IH. destruct (pages m base) as [pg|] eqn:Eb.
    + destruct (pages m j) eqn:Ej; auto.
      assert (j <> base) by congruence.
      destruct ((base + 1 <=? j) && (j <? base + 1 + Z.of_nat n)) eqn:E1;
      destruct ((base <=? j) && (j <? base + Z.of_nat (S n))) eqn:E2; auto; lia.
    + cbn [set_page pages]. destruct (j =? base) eqn:E.
      * apply Z.eqb_eq in E. subst j. rewrite Eb.
        now replace ((base <=? base) && (base <? base + Z.of_nat (S n))) with true by lia.
      * destruct (pages m j) eqn:Ej; auto.
        destruct ((base + 1 <=? j) && (j <? base + 1 + Z.of_nat n)) eqn:E1;
        destruct ((base <=? j) && (j <? base + Z.of_nat (S n))) eqn:E2; auto; lia.
Qed.

Lemma map_missing_sp n : forall m base, sp (map_missing m base n) = sp m.
Proof.
  induction n as [|n IH]; intros m base; cbn [map_missing]; auto. rewrite IH.
  destruct (pages m base); auto.
Qed.

(** What the search loop returns: the first fit. *)
Lemma alloc_loop_spec fuel : forall base num m m' r,
  1 <= base -> 0 < num -> alloc_loop fuel base num m = (m', r) ->
  TOTAL_PAGES <= base + Z.of_nat fuel ->
  (forall b, 1 <= b < base -> exists i, b <= i < b + num /\ pages m i <> None) ->
  (exists b, r = Ok (b * 4096) /\ 1 <= b /\ b + num < TOTAL_PAGES /\
     (forall i, b <= i < b + num -> pages m i = None) /\
     m' = map_pages m b (Z.to_nat num) /\
     (forall b', 1 <= b' < b -> exists i, b' <= i < b' + num /\ pages m i <> None)) \/
  (r = Err EOutOfMemory /\ m' = m /\
     forall b', 1 <= b' -> b' + num < TOTAL_PAGES -> exists i, b' <= i < b' + num /\ pages m i <> None).
Proof.
  induction fuel as [|fuel IH]; intros base num m m' r Hb Hn H Hf Hpre; cbn [alloc_loop] in H.
  - injection H as <- <-. right. repeat split; auto. intros b' H1 H2. apply Hpre. lia.
  - destruct (base + num <? TOTAL_PAGES) eqn:E.
    + destruct (find_mapped m base (Z.to_nat num)) as [i|] eqn:Ef.
      * apply find_mapped_some in Ef. destruct Ef as [Hi Hpi].
        apply (IH (i + 1)) in H; auto; try lia.
        intros b Hbb. destruct (Z_lt_le_dec b base) as [Hlt|Hge]; [apply Hpre; lia|].
        exists i. split; [lia|auto].
      * injection H as <- <-. left. exists base. repeat split; auto; try lia.
        intros i Hi. apply (find_mapped_none _ _ _ Ef). lia.
    + injection H as <- <-. right. repeat split; auto. intros b' H1 H2. apply Hpre. lia.
Qed.

Lemma next_multiple_page p len l : 0 < len < 2 ^ 32 -> next_multiple_of p len PAGE_SIZE = Ok l ->
  len <= 4294963200 -> len <= l /\ l mod 4096 = 0 /\ l < len + 4096 /\ 0 < l <= 4294963200.
Proof.
  intros [Hl0 Hl1] H Hl. unfold next_multiple_of, PAGE_SIZE, uadd in H. cbn [Z.eqb] in H.
  destruct (len mod 4096 =? 0) eqn:E.
  - injection H as <-. lia.
  - destruct (len + (4096 - len mod 4096) <? 2 ^ 32) eqn:E2.
    + apply Ok_inj in H. subst l. assert (Hm := Z.div_mod len 4096). assert (Hb := Z.mod_pos_bound len 4096).
      replace (len + (4096 - len mod 4096)) with ((len / 4096 + 1) * 4096) by lia.
      rewrite Z.mod_mul by lia. lia.
    + change (2 ^ 32) with 4294967296 in E2. lia.
Qed.

Lemma next_multiple_page_ok p len : 0 < len <= 4294963200 -> exists l, next_multiple_of p len PAGE_SIZE = Ok l.
Proof.
  intros H. unfold next_multiple_of, PAGE_SIZE, uadd. cbn [Z.eqb].
  destruct (len mod 4096 =? 0) eqn:E; [eauto|].
  destruct (len + (4096 - len mod 4096) <? 2 ^ 32) eqn:E2; [eauto|]. change (2 ^ 32) with 4294967296 in E2. lia.
Qed.

(** The full description of an allocation. *)
Lemma try_allocate_spec p len m m' r : 0 < len <= 4294963200 -> try_allocate p len m = (m', r) ->
  let num := (len + 4095) / 4096 in
  (exists b, r = Ok (b * 4096) /\ 1 <= b /\ b + num < TOTAL_PAGES /\
     (forall i, b <= i < b + num -> pages m i = None) /\
     m' = map_pages m b (Z.to_nat num) /\
     (forall b', 1 <= b' < b -> exists i, b' <= i < b' + num /\ pages m i <> None)) \/
  (r = Err EOutOfMemory /\ m' = m /\
     forall b', 1 <= b' -> b' + num < TOTAL_PAGES -> exists i, b' <= i < b' + num /\ pages m i <> None).
Proof.
  intros Hl H num. unfold try_allocate in H. replace (len =? 0) with false in H by lia.
  destruct (next_multiple_page_ok p len Hl) as [l El]. rewrite El in H.
  apply next_multiple_page in El; try (change (2 ^ 32) with 4294967296; lia).
  destruct El as (H1 & H2 & H3 & H4). unfold PAGE_SIZE in H.
  replace (l / 4096) with num in H by (unfold num; lia).
  assert (Hf : TOTAL_PAGES <= 1 + Z.of_nat (Z.to_nat TOTAL_PAGES)) by (rewrite Z2Nat.id; unfold TOTAL_PAGES; lia).
  generalize dependent (Z.to_nat TOTAL_PAGES). intros fuel H Hf.
  apply (alloc_loop_spec fuel 1 num m m' r); auto; try lia; unfold num; lia.
Qed.

Lemma peek_map_pages m b n x :
  peek (map_pages m b n) x =
  if (b <=? x / 4096) && (x / 4096 <? b + Z.of_nat n) then Some (BPlain 0) else peek m x.
Proof. unfold peek. rewrite map_pages_spec. destruct (_ && _); reflexivity. Qed.

Lemma peek_map_missing m b n x :
  peek (map_missing m b n) x =
  match peek m x with Some v => Some v
  | None => if (b <=? x / 4096) && (x / 4096 <? b + Z.of_nat n) then Some (BPlain 0) else None end.
Proof.
  unfold peek. rewrite map_missing_spec. destruct (pages m (x / 4096)); auto.
  destruct (_ && _); reflexivity.
Qed.

Lemma peek_pages_none m i : pages m i = None <-> peek m (i * 4096) = None.
Proof.
  unfold peek. rewrite Z.div_mul by lia. destruct (pages m i); split; congruence.
Qed.
