From Coq Require Import ZifyBool ZifyNat.
From Verif Require Import Base Alu Memory SpecMem SpecAlu BitsLemmas AluProofs AluProofs2 MemoryProofs MemoryProofs2 MemoryProofs3.
Ltac Zify.zify_post_hook ::= Z.div_mod_to_equations.

Lemma holds_app_l m a l1 l2 : holds m a (l1 ++ l2) -> holds m a l1.
Proof.
  intros H i b Hi. apply H. rewrite nth_error_app1; auto. apply nth_error_Some. congruence.
Qed.

Lemma holds_app_r m a l1 l2 : holds m a (l1 ++ l2) -> holds m (a + Z.of_nat (length l1)) l2.
Proof.
  intros H i b Hi. replace (a + Z.of_nat (length l1) + Z.of_nat i) with (a + Z.of_nat (length l1 + i)) by lia.
  apply H. rewrite nth_error_app2 by lia. now replace (length l1 + i - length l1)%nat with i by lia.
Qed.

Lemma holds_cons m a b bs : holds m a (b :: bs) -> peek m a = Some b /\ holds m (a + 1) bs.
Proof.
  intros H. split.
  - pose proof (H O b eq_refl) as H0. now rewrite Z.add_0_r in H0.
  - apply (holds_app_r m a [b] bs H).
Qed.

(** ** Fetching the program *)
Lemma load_plain_from_ok n : forall ptr i m vs,
  0 <= ptr -> 0 <= i -> length vs = n -> ptr + i + Z.of_nat n <= 2 ^ 32 ->
  holds m (ptr + i) (map BPlain vs) -> load_plain_from ptr i n m = Ok vs.
Proof.
  induction n as [|n IH]; intros ptr i m vs Hp Hi Hl Ha Hh; destruct vs as [|v vs]; try discriminate; auto.
  injection Hl as Hl. cbn [load_plain_from map] in *. apply holds_cons in Hh. destruct Hh as [H0 Hh].
  unfold ptr_offset. replace (ptr + i <? 2 ^ 32) with true by lia. cbn [bind].
  unfold try_load_plaintext_byte. rewrite try_load_peek by (unfold addr_ok; lia). rewrite H0. cbn [bind].
  rewrite (IH ptr (i + 1) m vs); auto; try lia. now replace (ptr + (i + 1)) with (ptr + i + 1) by lia.
Qed.

Lemma store_ignore_ok bs : forall ptr i m,
  0 <= ptr -> 0 <= i -> range_mapped m (ptr + i) (Z.of_nat (length bs)) ->
  exists m', store_ignore ptr i bs m = (m', Ok tt) /\ sp m' = sp m /\
    forall x, peek m' x = if (ptr + i <=? x) && (x <? ptr + i + Z.of_nat (length bs))
                          then nth_error bs (Z.to_nat (x - (ptr + i))) else peek m x.
Proof.
  induction bs as [|b bs IH]; intros ptr i m Hp Hi Hr; cbn [store_ignore length].
  - exists m. repeat split; auto. intros x. destruct (_ && _) eqn:E; auto. lia.
  - destruct (Hr (ptr + i)) as [Ha Hm]; [cbn [length]; lia|].
    unfold ptr_offset. destruct (ptr + i <? 2 ^ 32) eqn:E; [|unfold addr_ok in Ha; lia].
    destruct (try_store_ok (ptr + i) b m Ha Hm) as (m1 & Hs & Hsp & Hpk). rewrite Hs. cbn [fst].
    destruct (IH ptr (i + 1) m1) as (m2 & H2 & Hsp2 & Hpk2); try lia.
    { intros x Hx. destruct (Hr x) as [Hax Hmx]; [cbn [length]; lia|]. split; auto. unfold mapped.
      rewrite Hpk. destruct (x =? ptr + i); congruence. }
    exists m2. split; [exact H2|]. split; [congruence|]. intros x. rewrite Hpk2, Hpk.
    destruct (x =? ptr + i) eqn:E1.
    + apply Z.eqb_eq in E1. subst x.
      replace (ptr + (i + 1) <=? ptr + i) with false by lia. cbn [andb].
      replace ((ptr + i <=? ptr + i) && (ptr + i <? ptr + i + Z.of_nat (S (length bs)))) with true by lia.
      replace (ptr + i - (ptr + i)) with 0 by lia. reflexivity.
    + destruct ((ptr + (i + 1) <=? x) && (x <? ptr + (i + 1) + Z.of_nat (length bs))) eqn:E2;
      destruct ((ptr + i <=? x) && (x <? ptr + i + Z.of_nat (S (length bs)))) eqn:E3; try lia; auto.
      rewrite nth_error_shift by lia. f_equal. lia.
Qed.

Lemma concat_le_length n words : length (concat (map (to_le n) words)) = (n * length words)%nat.
Proof. induction words as [|w ws IH]; cbn [map concat length]; [lia|]. rewrite app_length, IH, to_le_length. lia. Qed.

Lemma program_fetch p words m m' addr :
  0 < Z.of_nat (length words) * 8 <= 4294963200 -> Forall (fun w => 0 <= w < 2 ^ 64) words ->
  allocate_program p words m = (m', Ok addr) ->
  addr mod 4096 = 0 /\ 4096 <= addr /\ sp m' = sp m /\
  (forall x b, peek m x = Some b -> peek m' x = Some b) /\
  (forall i w, nth_error words i = Some w -> try_load_plaintext_dword (addr + 8 * Z.of_nat i) m' = Ok w).
Proof.
  intros Hl Hw H. unfold allocate_program in H.
  replace (uwrap 32 (Z.of_nat (length words) * 8)) with (Z.of_nat (length words) * 8) in H
    by (unfold uwrap; rewrite Z.mod_small; [reflexivity|change (2 ^ 32) with 4294967296; lia]).
  destruct (try_allocate p (Z.of_nat (length words) * 8) m) as [m1 [a| |]] eqn:Ea; try discriminate.
  destruct (allocate_ok _ _ _ _ _ Hl Ea) as (A1 & A2 & A3 & A4 & A5 & A6).
  unfold mbind in H.
  set (bs := map BPlain (concat (map (to_le 8) words))) in *.
  assert (Hbl : Z.of_nat (length bs) = Z.of_nat (length words) * 8)
    by (unfold bs; rewrite map_length, concat_le_length; lia).
  destruct (store_ignore_ok bs a 0 m1) as (m2 & S1 & S2 & S3); [lia|lia| |].
  { rewrite Z.add_0_r, Hbl. intros x Hx. split; [unfold addr_ok; lia|]. unfold mapped. destruct (A4 x Hx). congruence. }
  rewrite S1 in H. unfold mret in H. injection H as <- <-. rewrite Z.add_0_r in S3.
  split; [auto|]. split; [auto|]. split; [congruence|]. split.
  - intros x b Hb. rewrite S3. destruct (_ && _) eqn:E; [|now apply A5].
    destruct (A4 x) as [Hn _]; [lia|congruence].
  - intros i w Hi.
    assert (Hil : (i < length words)%nat) by (apply nth_error_Some; congruence).
    assert (Hh : holds m2 a bs).
    { apply peek_holds. intros x Hx. rewrite S3.
      now replace ((a <=? x) && (x <? a + Z.of_nat (length bs))) with true by lia. }
    destruct (nth_error_split words i Hi) as (l1 & l2 & E & El).
    assert (Eb : bs = map BPlain (concat (map (to_le 8) l1)) ++ (map BPlain (to_le 8 w) ++ map BPlain (concat (map (to_le 8) l2)))).
    { unfold bs. rewrite E, map_app, concat_app, !map_app. cbn [map concat]. now rewrite map_app. }
    rewrite Eb in Hh. apply holds_app_r in Hh. apply holds_app_l in Hh.
    rewrite map_length, concat_le_length, El in Hh.
    unfold try_load_plaintext_dword. replace ((a + 8 * Z.of_nat i) mod 8 =? 0) with true by lia. cbn [negb].
    rewrite (load_plain_from_ok 8 _ 0 m2 (to_le 8 w)).
    + cbn [bind]. rewrite from_le_value, le_to_le.
      * rewrite Z.mod_small; auto. rewrite Forall_forall in Hw. apply Hw. rewrite E. apply in_or_app. right. now left.
      * rewrite Forall_forall in Hw. apply Hw. rewrite E. apply in_or_app. right. now left.
    + lia.
    + lia.
    + apply to_le_length.
    + change (2 ^ 32) with 4294967296 in *. lia.
    + rewrite Z.add_0_r. now replace (a + 8 * Z.of_nat i) with (a + Z.of_nat (8 * i)) by lia.
Qed.

(** ** ELF segments *)


Lemma copy_file_ok file n : forall f v m, 0 <= f -> f + Z.of_nat n <= Z.of_nat (length file) -> 0 <= v ->
  range_mapped m v (Z.of_nat n) ->
  exists m', copy_file file f v n m = (m', Ok tt) /\ sp m' = sp m /\
    forall x, peek m' x = if (v <=? x) && (x <? v + Z.of_nat n)
                          then Some (BPlain (nth (Z.to_nat (f + (x - v))) file 0)) else peek m x.
Proof.
  induction n as [|n IH]; intros f v m Hf Hl Hv Hr; cbn [copy_file].
  - exists m. repeat split; auto. intros x. destruct (_ && _) eqn:E; auto. lia.
  - destruct (nth_error file (Z.to_nat f)) as [b|] eqn:E; [|apply nth_error_None in E; lia].
    destruct (Hr v) as [Ha Hm]; [lia|]. unfold mbind.
    destruct (try_store_ok v (BPlain b) m Ha Hm) as (m1 & S1 & S2 & S3). rewrite S1.
    destruct (IH (f + 1) (v + 1) m1) as (m2 & I1 & I2 & I3); try lia.
    { intros x Hx. destruct (Hr x) as [Hax Hmx]; [lia|]. split; auto. unfold mapped. rewrite S3. destruct (x =? v); congruence. }
    exists m2. split; [exact I1|]. split; [congruence|]. intros x. rewrite I3, S3.
    destruct (x =? v) eqn:Ex.
    + apply Z.eqb_eq in Ex. subst x. replace (v + 1 <=? v) with false by lia. cbn [andb].
      replace ((v <=? v) && (v <? v + Z.of_nat (S n))) with true by lia.
      replace (f + (v - v)) with f by lia. now rewrite (nth_error_nth _ _ 0 E).
    + destruct ((v + 1 <=? x) && (x <? v + 1 + Z.of_nat n)) eqn:E1;
      destruct ((v <=? x) && (x <? v + Z.of_nat (S n))) eqn:E2; try lia; auto.
      replace (f + 1 + (x - (v + 1))) with (f + (x - v)) by lia. reflexivity.
Qed.

Lemma load_segment_ok file s m : seg_ok file s ->
  (forall x, vaddr s <= x < vaddr s + memsz s -> peek m x = None \/ peek m x = Some (BPlain 0)) ->
  exists m', load_segment file s m = (m', Ok tt) /\ sp m' = sp m /\
    (forall k, 0 <= k < memsz s -> peek m' (vaddr s + k) = Some (seg_byte file s k)) /\
    (forall x, ~ (vaddr s <= x < vaddr s + memsz s) ->
       peek m' x = peek m x \/ (peek m x = None /\ peek m' x = Some (BPlain 0))).
Proof.
  intros (H1 & H2 & H3 & H4 & H5 & H6 & H7) Hz. unfold load_segment.
  destruct (memsz s =? 0) eqn:E0.
  { exists m. repeat split; auto. intros k Hk. lia. }
  unfold mbind, mres, ptr_offset, try_allocate_at. rewrite E0.
  replace (vaddr s + memsz s <? 2 ^ 32) with true by lia.
  replace (foffset s + filesz s <? 2 ^ 32) with true by lia. unfold ptr_offset.
  replace (vaddr s + memsz s <? 2 ^ 32) with true by lia.
  set (m1 := map_missing m (page_id (vaddr s)) (Z.to_nat (page_id (vaddr s + memsz s) + 1 - page_id (vaddr s)))).
  assert (Hm1 : forall x, peek m1 x = match peek m x with Some v => Some v
      | None => if (vaddr s / 4096 <=? x / 4096) && (x / 4096 <=? (vaddr s + memsz s) / 4096) then Some (BPlain 0) else None end).
  { intros x. unfold m1. rewrite peek_map_missing. rewrite !page_id_eq by (unfold addr_ok; lia).
    destruct (peek m x); auto.
    replace ((vaddr s / 4096 <=? x / 4096) && (x / 4096 <? vaddr s / 4096 + Z.of_nat (Z.to_nat ((vaddr s + memsz s) / 4096 + 1 - vaddr s / 4096))))
      with ((vaddr s / 4096 <=? x / 4096) && (x / 4096 <=? (vaddr s + memsz s) / 4096)) by lia.
    reflexivity. }
  assert (Hin : forall x, vaddr s <= x < vaddr s + memsz s -> peek m1 x = Some (BPlain 0)).
  { intros x Hx. rewrite Hm1. replace ((vaddr s / 4096 <=? x / 4096) && (x / 4096 <=? (vaddr s + memsz s) / 4096)) with true by lia.
    destruct (Hz x Hx) as [->| ->]; reflexivity. }
  destruct (copy_file_ok file (Z.to_nat (Z.min (filesz s) (memsz s))) (foffset s) (vaddr s) m1) as (m2 & C1 & C2 & C3);
    try lia.
  { intros x Hx. split; [unfold addr_ok; lia|]. unfold mapped. rewrite Hin by lia. congruence. }
  exists m2. split; [exact C1|]. split.
  { rewrite C2. unfold m1. apply map_missing_sp. }
  split.
  - intros k Hk. rewrite C3. unfold seg_byte.
    destruct (k <? filesz s) eqn:Ek.
    + replace ((vaddr s <=? vaddr s + k) && (vaddr s + k <? vaddr s + Z.of_nat (Z.to_nat (Z.min (filesz s) (memsz s))))) with true by lia.
      replace (foffset s + (vaddr s + k - vaddr s)) with (foffset s + k) by lia. reflexivity.
    + replace ((vaddr s <=? vaddr s + k) && (vaddr s + k <? vaddr s + Z.of_nat (Z.to_nat (Z.min (filesz s) (memsz s))))) with false by lia.
      apply Hin. lia.
  - intros x Hx. rewrite C3. destruct (_ && _) eqn:E; [lia|]. rewrite Hm1.
    destruct (peek m x); auto. match goal with |- context [if ?c then _ else _] => destruct c end; auto.
Qed.

Lemma load_segments_ok file ss : forall m,
  Forall (seg_ok file) ss ->
  ForallOrdPairs (fun s t => disjoint (vaddr s) (memsz s) (vaddr t) (memsz t)) ss ->
  (forall s x, In s ss -> vaddr s <= x < vaddr s + memsz s -> peek m x = None \/ peek m x = Some (BPlain 0)) ->
  exists m', load_segments file ss m = (m', Ok tt) /\ sp m' = sp m /\
    (forall s k, In s ss -> 0 <= k < memsz s -> peek m' (vaddr s + k) = Some (seg_byte file s k)) /\
    (forall x, (forall s, In s ss -> ~ (vaddr s <= x < vaddr s + memsz s)) ->
       peek m' x = peek m x \/ (peek m x = None /\ peek m' x = Some (BPlain 0))).
Proof.
  induction ss as [|s ss IH]; intros m Hok Hd Hz; cbn [load_segments].
  - exists m. repeat split; auto. intros s k [].
  - inversion Hok as [|? ? Hs Hok']; subst. inversion Hd as [|? ? Hds Hd']; subst. rewrite Forall_forall in Hds.
    destruct (load_segment_ok file s m Hs) as (m1 & L1 & L2 & L3 & L4).
    { intros x Hx. apply (Hz s); auto. now left. }
    unfold mbind. rewrite L1.
    destruct (IH m1 Hok' Hd') as (m2 & I1 & I2 & I3 & I4).
    { intros t x Ht Hx.
      destruct (L4 x) as [E|[_ E]]; [| |now right].
      - specialize (Hds t Ht). unfold disjoint in Hds. lia.
      - rewrite E. apply (Hz t); auto. now right. }
    exists m2. split; [exact I1|]. split; [congruence|]. split.
    + intros t k [<-|Ht] Hk; [|now apply I3].
      destruct (I4 (vaddr s + k)) as [E|[E _]].
      * intros t Ht. specialize (Hds t Ht). unfold disjoint in Hds. lia.
      * rewrite E. now apply L3.
      * rewrite L3 in E by auto. discriminate.
    + intros x Hx. destruct (L4 x) as [E1|[E1 E1']]; [apply Hx; now left| |];
        destruct (I4 x) as [E2|[E2 E2']]; try (intros t Ht; apply Hx; now right).
      * left. congruence.
      * right. split; congruence.
      * right. split; congruence.
      * congruence.
Qed.

(** ** Packed allocations *)
Definition alloc_inv (e : allocation) (m : mem) : Prop :=
  abase e mod 4096 = 0 /\ 4096 <= abase e /\ 0 < asize e /\ abase e + asize e < 2 ^ 32 /\ 0 <= next_free e /\
  range_mapped m (abase e) (asize e).

Lemma allocation_new_ok p len m m' e ptr : 0 < len <= 4294963200 -> allocation_new p len m = (m', Ok (e, ptr)) ->
  alloc_inv e m' /\ ptr = abase e /\ ptr + len = abase e + next_free e /\
  (forall x, ptr <= x < ptr + len -> addr_ok x /\ peek m x = None /\ mapped m' x) /\
  (forall x, abase e <= x < abase e + asize e -> peek m x = None) /\
  (forall x b, peek m x = Some b -> peek m' x = Some b).
Proof.
  intros Hl H. unfold allocation_new, mbind, mres, mret in H.
  destruct (try_allocate p len m) as [m1 [b| |]] eqn:Ea; try discriminate.
  destruct (next_multiple_of p len PAGE_SIZE) as [sz| |] eqn:En; try discriminate.
  injection H as <- <- <-.
  destruct (allocate_ok _ _ _ _ _ Hl Ea) as (A1 & A2 & A3 & A4 & A5 & A6).
  apply next_multiple_page in En; try (change (2 ^ 32) with 4294967296; lia). destruct En as (N1 & N2 & N3 & N4).
  pose proof (try_allocate_spec _ _ _ _ _ Hl Ea) as [(q & E & B1 & B2 & B3 & B4 & B5)|(E & _)]; [|discriminate].
  apply Ok_inj in E. set (num := (len + 4095) / 4096) in *.
  assert (Hsz : sz = num * 4096) by (unfold num; lia).
  assert (Hall : forall x, b <= x < b + sz -> peek m x = None /\ peek m1 x = Some (BPlain 0)).
  { intros x Hx. assert (Hpg : q <= x / 4096 < q + num) by lia. split.
    - unfold peek. now rewrite B3.
    - rewrite B4, peek_map_pages. now replace ((q <=? x / 4096) && (x / 4096 <? q + Z.of_nat (Z.to_nat num))) with true by lia. }
  unfold TOTAL_PAGES in B2. change (2 ^ 32) with 4294967296 in *.
  split; [|split; [reflexivity|split; [reflexivity|split; [|split]]]].
  - unfold alloc_inv. cbn [abase asize next_free]. repeat split; auto; try lia; try (change (2 ^ 32) with 4294967296; lia).
    unfold mapped. destruct (Hall x); [lia|congruence].
  - intros x Hx. split; [unfold addr_ok; change (2 ^ 32) with 4294967296; lia|]. destruct (A4 x Hx). split; auto.
    unfold mapped. congruence.
  - intros x Hx. cbn [abase asize] in Hx. now apply Hall.
  - auto.
Qed.

Lemma next_multiple_ok p a k : 0 < k -> 0 <= a -> a + k <= 2 ^ 32 -> exists r, next_multiple_of p a k = Ok r /\
  a <= r < a + k /\ r mod k = 0.
Proof.
  intros Hk Ha Hb. unfold next_multiple_of. replace (k =? 0) with false by lia.
  destruct (a mod k =? 0) eqn:E; [exists a; repeat split; lia|].
  pose proof (Z.mod_pos_bound a k Hk) as Hm. unfold uadd.
  replace (a + (k - a mod k) <? 2 ^ 32) with true by lia. eexists. split; [reflexivity|].
  split; [lia|]. pose proof (Z.div_mod a k ltac:(lia)) as Hd.
  replace (a + (k - a mod k)) with ((a / k + 1) * k) by lia. apply Z.mod_mul. lia.
Qed.

(** One request: the returned range is aligned, mapped, and either fresh or in the still unused tail. *)
Lemma packed_step p e len align m m' e' ptr :
  alloc_inv e m -> 0 < len <= 4294963200 -> 0 < align -> (align | 4096) -> next_free e + align + len < 2 ^ 32 ->
  allocation_try_allocate p (Some e) len align m = (m', Ok (e', ptr)) ->
  alloc_inv e' m' /\ ptr mod align = 0 /\ range_mapped m' ptr len /\ ptr + len <= abase e' + next_free e' /\
  (forall x b, peek m x = Some b -> peek m' x = Some b) /\
  ((forall x, ptr <= x < ptr + len -> peek m x = None) /\ (forall x, abase e' <= x < abase e' + asize e' -> peek m x = None) \/
   (abase e' = abase e /\ asize e' = asize e /\ abase e + next_free e <= ptr /\ ptr + len <= abase e + asize e)).
Proof.
  intros Hinv Hl Ha Hd Hov H. unfold allocation_try_allocate in H. unfold mbind at 1, mres at 1 in H.
  destruct Hinv as (V1 & V2 & V3 & V4 & V5 & V6).
  destruct (next_multiple_ok p (next_free e) align) as (pad & E1 & E2 & E3); [auto|auto|lia|].
  rewrite E1 in H. unfold mbind at 1, mres at 1, uadd at 1 in H. replace (pad + len <? 2 ^ 32) with true in H by lia.
  destruct (asize e <=? pad + len) eqn:Esz.
  - destruct (allocation_new_ok _ _ _ _ _ _ Hl H) as (N1 & N2 & N3 & N4 & N5 & N6).
    split; [auto|]. split.
    { destruct N1 as (W1 & _). subst ptr. destruct Hd as [q Hq]. rewrite Z.mod_divide in * by lia. destruct W1 as [r Hr].
      exists (r * q). rewrite Hr, Hq. ring. }
    split; [intros x Hx; destruct (N4 x Hx) as (? & ? & ?); auto|]. split; [lia|]. split; [auto|].
    left. split; auto. intros x Hx. now apply N4.
  - unfold mbind at 1, mres at 1, ptr_offset in H. replace (abase e + pad <? 2 ^ 32) with true in H by lia.
    unfold mbind, mres, uadd, mret in H. replace (abase e + pad + len <? 2 ^ 32) with true in H by lia.
    injection H as <- <- <-. cbn [abase asize next_free].
    split; [unfold alloc_inv; cbn [abase asize next_free]; intuition lia|]. split.
    { destruct Hd as [q Hq]. rewrite Z.mod_divide in * by lia. destruct V1 as [r Hr]. destruct E3 as [r' Hr'].
      exists (r * q + r'). rewrite Hr, Hq, Hr'. ring. }
    split; [intros x Hx; apply V6; lia|]. split; [lia|]. split; [auto|]. right. repeat split; lia.
Qed.



Lemma uadd_debug w a b r : uadd Debug w a b = Ok r -> a + b < 2 ^ w /\ r = a + b.
Proof. unfold uadd. destruct (a + b <? 2 ^ w) eqn:E; [|discriminate]. intros H. apply Ok_inj in H. lia. Qed.

Lemma next_multiple_debug a k r : 0 < k -> 0 <= a < 2 ^ 32 -> next_multiple_of Debug a k = Ok r -> a <= r < a + k /\ r mod k = 0 /\ r < 2 ^ 32.
Proof.
  intros Hk Ha H. unfold next_multiple_of in H. replace (k =? 0) with false in H by lia.
  destruct (a mod k =? 0) eqn:E; [apply Ok_inj in H; subst; lia|].
  apply uadd_debug in H. destruct H as [H ->]. pose proof (Z.mod_pos_bound a k Hk) as Hm.
  pose proof (Z.div_mod a k ltac:(lia)) as Hd. split; [lia|]. split; [|lia].
  replace (a + (k - a mod k)) with ((a / k + 1) * k) by lia. apply Z.mod_mul. lia.
Qed.

Lemma ranges_disjoint m a n b k : 0 < n -> 0 < k -> (forall x, a <= x < a + n -> mapped m x) ->
  (forall x, b <= x < b + k -> peek m x = None) -> disjoint a n b k.
Proof.
  intros Hn Hk H1 H2. unfold disjoint. destruct (Z_le_gt_dec (a + n) b); [now left|].
  destruct (Z_le_gt_dec (b + k) a); [now right|]. exfalso.
  apply (H1 (Z.max a b)); [lia|]. apply H2. lia.
Qed.

Lemma packed_step_debug e len align m m' e' ptr :
  alloc_inv e m -> next_free e < 2 ^ 32 -> 0 < len <= 4294963200 -> 0 < align -> (align | 4096) ->
  allocation_try_allocate Debug (Some e) len align m = (m', Ok (e', ptr)) ->
  alloc_inv e' m' /\ next_free e' < 2 ^ 32 /\ ptr mod align = 0 /\ range_mapped m' ptr len /\ ptr + len <= abase e' + next_free e' /\
  (forall x b, peek m x = Some b -> peek m' x = Some b) /\
  ((forall x, ptr <= x < ptr + len -> peek m x = None) /\ (forall x, abase e' <= x < abase e' + asize e' -> peek m x = None) \/
   (abase e' = abase e /\ asize e' = asize e /\ abase e + next_free e <= ptr /\ ptr + len <= abase e + asize e)).
Proof.
  intros Hinv Hnf Hl Ha Hd H. unfold allocation_try_allocate in H. unfold mbind at 1, mres at 1 in H.
  destruct Hinv as (V1 & V2 & V3 & V4 & V5 & V6).
  destruct (next_multiple_of Debug (next_free e) align) as [pad| |] eqn:E1; try discriminate.
  apply next_multiple_debug in E1; auto. destruct E1 as (E2 & E3 & E4).
  unfold mbind at 1, mres at 1 in H. destruct (uadd Debug 32 pad len) as [tot| |] eqn:Et; try discriminate.
  apply uadd_debug in Et. destruct Et as [Et ->].
  destruct (asize e <=? pad + len) eqn:Esz.
  - destruct (allocation_new_ok _ _ _ _ _ _ Hl H) as (N1 & N2 & N3 & N4 & N5 & N6).
    split; [auto|]. split.
    { assert (next_free e' = len) by lia. change (2 ^ 32) with 4294967296. lia. }
    split.
    { destruct N1 as (W1 & _). subst ptr. destruct Hd as [q Hq]. rewrite Z.mod_divide in * by lia. destruct W1 as [r Hr].
      exists (r * q). rewrite Hr, Hq. ring. }
    split; [intros x Hx; destruct (N4 x Hx) as (? & ? & ?); auto|]. split; [lia|]. split; [auto|].
    left. split; auto. intros x Hx. now apply N4.
  - unfold mbind at 1, mres at 1, ptr_offset in H. replace (abase e + pad <? 2 ^ 32) with true in H by lia.
    unfold mbind, mres, uadd, mret in H. replace (abase e + pad + len <? 2 ^ 32) with true in H by lia.
    injection H as <- <- <-. cbn [abase asize next_free].
    split; [unfold alloc_inv; cbn [abase asize next_free]; intuition lia|]. split; [lia|]. split.
    { destruct Hd as [q Hq]. rewrite Z.mod_divide in * by lia. destruct V1 as [r Hr]. destruct E3 as [r' Hr'].
      exists (r * q + r'). rewrite Hr, Hq, Hr'. ring. }
    split; [intros x Hx; apply V6; lia|]. split; [lia|]. split; [auto|]. right. repeat split; lia.
Qed.


Lemma packed_run_inv : forall reqs e m l K,
  alloc_inv e m -> next_free e < 2 ^ 32 -> Forall req_ok reqs ->
  (forall k, In k K -> 0 < snd k /\ range_mapped m (fst k) (snd k) /\
     (fst k + snd k <= abase e + next_free e \/ abase e + asize e <= fst k)) ->
  packed_run Debug (Some e) reqs m = Some l ->
  ForallOrdPairs rdisj l /\ (forall k r, In k K -> In r l -> rdisj k r).
Proof.
  induction reqs as [|[len align] reqs IH]; intros e m l K Hinv Hnf Hreq HK H; cbn [packed_run] in H.
  - injection H as <-. split; [constructor|intros k r _ []].
  - destruct (allocation_try_allocate Debug (Some e) len align m) as [m' [[e' ptr]| |]] eqn:Es; try discriminate.
    destruct (packed_run Debug (Some e') reqs m') as [l'|] eqn:Er; [|discriminate]. injection H as <-.
    inversion Hreq as [|? ? Hr Hreq']; subst. destruct Hr as (R1 & R2 & R3). cbn [fst snd] in *.
    destruct (packed_step_debug _ _ _ _ _ _ _ Hinv Hnf R1 R2 R3 Es) as (S1 & S2 & S3 & S4 & S5 & S6 & S7).
    assert (Hnew : forall k, In k K -> rdisj k (ptr, len)).
    { intros k Hk. destruct (HK k Hk) as (K1 & K2 & K3). unfold rdisj. cbn [fst snd].
      destruct S7 as [[F1 F2]|(T1 & T2 & T3 & T4)].
      - apply (ranges_disjoint m); auto; [lia|]. intros x Hx. now apply K2.
      - unfold disjoint. lia. }
    destruct (IH e' m' l' ((ptr, len) :: K)) as [I1 I2]; auto.
    { intros k [<-|Hk]; cbn [fst snd].
      - split; [lia|]. split; [auto|]. left. lia.
      - destruct (HK k Hk) as (K1 & K2 & K3). split; [auto|]. split.
        + intros x Hx. destruct (K2 x Hx) as [Ax Mx]. split; auto. unfold mapped in *.
          destruct (peek m x) as [b|] eqn:Eb; [|congruence]. rewrite (S6 _ _ Eb). congruence.
        + destruct S7 as [[F1 F2]|(T1 & T2 & T3 & T4)].
          * destruct S1 as (W1 & W2 & W3 & W4 & W5 & W6).
            destruct (ranges_disjoint m (fst k) (snd k) (abase e') (asize e')) as [D|D]; auto.
            { intros x Hx. now apply K2. } lia.
          * lia. }
    split.
    + constructor; [|auto]. apply Forall_forall. intros r Hr. apply (I2 (ptr, len) r); auto. now left.
    + intros k r Hk [<-|Hr]; [now apply Hnew|]. apply I2; auto. now right.
Qed.

Lemma packed_disjoint reqs m l : Forall req_ok reqs -> packed_run Debug None reqs m = Some l -> ForallOrdPairs rdisj l.
Proof.
  intros Hreq H. destruct reqs as [|[len align] reqs]; cbn [packed_run] in H.
  - injection H as <-. constructor.
  - cbn [allocation_try_allocate] in H.
    destruct (allocation_new Debug len m) as [m' [[e ptr]| |]] eqn:Es; try discriminate.
    destruct (packed_run Debug (Some e) reqs m') as [l'|] eqn:Er; [|discriminate]. injection H as <-.
    inversion Hreq as [|? ? Hr Hreq']; subst. destruct Hr as (R1 & R2 & R3). cbn [fst snd] in *.
    destruct (allocation_new_ok _ _ _ _ _ _ R1 Es) as (N1 & N2 & N3 & N4 & N5 & N6).
    destruct (packed_run_inv reqs e m' l' [(ptr, len)]) as [I1 I2]; auto.
    { assert (next_free e = len) by lia. change (2 ^ 32) with 4294967296. lia. }
    { intros k [<-|[]]. cbn [fst snd]. split; [lia|]. split; [|left; lia].
      intros x Hx. destruct (N4 x Hx) as (? & ? & ?). auto. }
    constructor; auto. apply Forall_forall. intros r Hr. apply I2; auto. now left.
Qed.
