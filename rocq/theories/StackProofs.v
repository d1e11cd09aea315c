(** Lemmas for Props_Stack.v. *)
From Coq Require Import ZifyBool ZifyNat.
From Verif Require Import Base Alu Memory SpecMem SpecAlu BitsLemmas AluProofs AluProofs2 MemoryProofs MemoryProofs2 MemoryProofs3 MemoryProofs4
  MemoryProofs5 MemoryProofs6 SpecStack.
Ltac Zify.zify_post_hook ::= Z.div_mod_to_equations.

Lemma mbind_fst_sp {A B} (c : M A) (k : A -> M B) m s :
  sp (fst (c m)) = s -> (forall a m1, c m = (m1, Ok a) -> sp m1 = s -> sp (fst (k a m1)) = s) -> sp (fst (mbind c k m)) = s.
Proof. intros H1 H2. unfold mbind. destruct (c m) as [m1 [a|e|]] eqn:E; cbn [fst] in *; auto. Qed.
Lemma try_store_sp a b m : sp (fst (try_store a b m)) = sp m.
Proof. unfold try_store. destruct (pages m (page_id a)); reflexivity. Qed.
Lemma mres_sp {A} (r : res A) m : sp (fst (mres r m)) = sp m.
Proof. reflexivity. Qed.
Lemma store_from_sp bs : forall ptr i m, sp (fst (store_from ptr i bs m)) = sp m.
Proof.
  induction bs as [|b bs IH]; intros ptr i m; cbn [store_from]; [reflexivity|].
  apply mbind_fst_sp; [apply mres_sp|]. intros a m1 _ H1. apply mbind_fst_sp; [now rewrite try_store_sp|].
  intros _ m2 _ H2. now rewrite IH.
Qed.
Lemma write_bytes_sp bs : forall cur m, sp (fst (write_bytes cur bs m)) = sp m.
Proof.
  induction bs as [|b bs IH]; intros cur m; cbn [write_bytes]; [reflexivity|].
  apply mbind_fst_sp; [apply try_store_sp|]. intros _ m1 _ H1. apply mbind_fst_sp; [now rewrite mres_sp|].
  intros a m2 _ H2. now rewrite IH.
Qed.
Lemma write_args_sp pr args : forall cur m, sp (fst (write_args pr cur args m)) = sp m.
Proof.
  induction args as [|a args IH]; intros cur m; cbn [write_args]; [reflexivity|].
  apply mbind_fst_sp; [apply mres_sp|]. intros c m1 _ H1. apply mbind_fst_sp; [now rewrite write_bytes_sp|].
  intros c' m2 _ H2. now rewrite IH.
Qed.
Lemma alloc_loop_sp fuel : forall base num m, sp (fst (alloc_loop fuel base num m)) = sp m.
Proof.
  induction fuel as [|fuel IH]; intros base num m; cbn [alloc_loop]; [reflexivity|].
  destruct (base + num <? TOTAL_PAGES); [|reflexivity]. destruct (find_mapped m base (Z.to_nat num)); [apply IH|].
  cbn [fst]. apply map_pages_sp.
Qed.
Lemma apply_sp p o m : sp (apply p o m) = sp m.
Proof.
  destruct o as [a b|len|a len|ptr align bs]; cbn [apply].
  - apply try_store_sp.
  - unfold try_allocate. destruct (len =? 0); [reflexivity|]. destruct (next_multiple_of p len PAGE_SIZE); try reflexivity. apply alloc_loop_sp.
  - unfold try_allocate_at. destruct (len =? 0); [reflexivity|]. destruct (ptr_offset a len); try reflexivity. apply map_missing_sp.
  - unfold try_write_type. destruct (align =? 0); [reflexivity|]. destruct (negb _); [reflexivity|].
    apply mbind_fst_sp; [reflexivity|]. intros _ m1 _ H1. now rewrite store_from_sp.
Qed.

(** A push onto an aligned stack: the stack pointer moves by exactly the length, or (when the target address does not
    exist, or the stack pointer is 0, or the length does not fit) not at all. *)
Lemma push_sp p a m : let len := Z.of_nat (length (bytes a)) in
  0 < alignment a -> sp m mod alignment a = 0 -> len < 2 ^ 31 ->
  (sp (fst (try_push p a m)) = sp m - len /\ 0 <= sp m - len) \/
  (sp (fst (try_push p a m)) = sp m /\ exists e, snd (try_push p a m) = Err e).
Proof.
  intros len Ha Hal Hl. unfold try_push. destruct (sp m =? 0); [right; split; [reflexivity|eexists; reflexivity]|].
  replace (alignment a =? 0) with false by lia. rewrite Hal, Z.sub_0_r, Z.mod_same by lia.
  change (Z.to_nat 0) with O. cbn [push_padding]. unfold mbind at 1 4 7, mret at 1 3 5. cbv beta iota.
  fold len. unfold mbind, mres. rewrite neg_len_ok by (unfold len; lia). unfold ptr_signed_offset.
  replace (sp m + - len) with (sp m - len) by lia.
  destruct ((0 <=? sp m - len) && (sp m - len <? 2 ^ 32)) eqn:E; [|right; split; [reflexivity|eexists; reflexivity]].
  left. split; [|lia]. 
  pose proof (store_from_sp (bytes a) (sp m - len) 0 (set_sp m (sp m - len))) as H.
  destruct (store_from (sp m - len) 0 (bytes a) (set_sp m (sp m - len))) as [m1 [u|e|]]; exact H.
Qed.

Lemma alloc_size_16 args ra rs : alloc_size args ra rs mod 16 = 0.
Proof.
  unfold alloc_size. cbv zeta. set (o := if 0 <? rs then _ else _). destruct (align_up_spec o 16 ltac:(lia)) as [_ [q Hq]].
  rewrite Hq. now apply Z.mod_mul.
Qed.

(** Setting up a call from an aligned stack pointer. *)
Lemma call_sp pr args ra rs m : let size := alloc_size args ra rs in
  sp m mod 16 = 0 -> 0 <= size < 2 ^ 31 ->
  (sp (fst (set_up_call pr args ra rs m)) = sp m - size /\ 0 <= sp m - size) \/
  (sp (fst (set_up_call pr args ra rs m)) = sp m /\ exists e, snd (set_up_call pr args ra rs m) = Err e).
Proof.
  intros size H16 Hsz. unfold set_up_call. fold size.
  set (a := {| alignment := 16; bytes := repeat (BPlain 0) (Z.to_nat size) |}).
  assert (Hlen : Z.of_nat (length (bytes a)) = size) by (cbn [bytes a]; rewrite repeat_length; lia).
  destruct (push_sp pr a m) as [[H1 H2]|[H1 [e He]]]; [cbn [alignment a]; lia|exact H16|lia| |].
  - rewrite Hlen in H1, H2. left. split; [|exact H2].
    apply mbind_fst_sp; [exact H1|]. intros _ m1 _ E1. apply mbind_fst_sp; [exact E1|].
    intros s m2 _ E2. apply mbind_fst_sp; [now rewrite write_args_sp|]. intros c m3 _ E3.
    apply mbind_fst_sp; [destruct (0 <? rs); exact E3|]. intros rp m4 _ E4. exact E4.
  - right. unfold mbind. destruct (try_push pr a m) as [m1 r]. cbn [snd fst] in *. subst r. split; [exact H1|now exists e].
Qed.

Lemma session_sp pr m evs m' : session pr m evs m' -> sp m mod 16 = 0 -> Forall call_ok evs ->
  sp m' = sp m - calls_total evs /\ sp m' mod 16 = 0 /\ (0 <= sp m -> 0 <= sp m').
Proof.
  induction 1 as [m|m c m1 r evs m2 Hc Hs IH|m o evs m2 Hs IH]; intros H16 Hall; cbn [calls_total].
  - split; [lia|]. split; auto.
  - apply Forall_cons_iff in Hall. destruct Hall as [Hok Hall]. cbn [call_ok] in Hok. unfold frame_size in *.
    pose proof (alloc_size_16 (cargs c) (cret_align c) (cret_size c)) as Hm.
    destruct (call_sp pr (cargs c) (cret_align c) (cret_size c) m H16 Hok) as [[H1 H2]|[H1 [e He]]]; [|rewrite Hc in He; discriminate].
    rewrite Hc in H1. cbn [fst] in H1. destruct IH as (I1 & I2 & I3); [rewrite H1; lia|exact Hall|].
    split; [lia|]. split; [exact I2|]. intros _. apply I3. lia.
  - apply Forall_cons_iff in Hall. destruct Hall as [_ Hall]. pose proof (apply_sp pr o m) as Ha. rewrite Ha in *. apply IH; auto.
Qed.
Lemma session_snoc pr m evs m1 : session pr m evs m1 -> forall c m2 r, set_up_call pr (cargs c) (cret_align c) (cret_size c) m1 = (m2, Ok r) ->
  session pr m (evs ++ [EvCall c]) m2.
Proof.
  induction 1 as [m|m c0 m1 r0 evs m2 Hc Hs IH|m o evs m2 Hs IH]; intros c m3 r H; cbn [app].
  - econstructor; [exact H|constructor].
  - econstructor; [exact Hc|]. eapply IH. exact H.
  - constructor. eapply IH. exact H.
Qed.

(** Push failures. *)
Lemma store_first_unmapped ptr b bs m : addr_ok ptr -> peek m ptr = None -> store_from ptr 0 (b :: bs) m = (m, Err EAccessViolation).
Proof.
  intros Ha Hp. cbn [store_from]. unfold mbind, mres, ptr_offset. rewrite Z.add_0_r. unfold addr_ok in Ha.
  replace (ptr <? 2 ^ 32) with true by lia. unfold try_store. rewrite page_id_eq by exact Ha.
  unfold peek in Hp. destruct (pages m (ptr / 4096)); [discriminate|reflexivity].
Qed.
Lemma push_unmapped p a m : let len := Z.of_nat (length (bytes a)) in
  addr_ok (sp m) -> sp m <> 0 -> 0 < alignment a -> sp m mod alignment a = 0 -> 0 < len < 2 ^ 31 -> len <= sp m ->
  peek m (sp m - len) = None -> snd (try_push p a m) = Err EAccessViolation.
Proof.
  intros len Hs H0 Ha Hal Hl Hle Hp. unfold try_push. replace (sp m =? 0) with false by lia.
  replace (alignment a =? 0) with false by lia. rewrite Hal, Z.sub_0_r, Z.mod_same by lia.
  change (Z.to_nat 0) with O. cbn [push_padding]. unfold mbind at 1, mret at 1. cbv beta iota.
  fold len. unfold mbind at 1, mres at 1. rewrite neg_len_ok by (unfold len; lia).
  unfold ptr_signed_offset. unfold addr_ok in Hs. replace ((0 <=? sp m + - len) && (sp m + - len <? 2 ^ 32)) with true by (unfold len in *; lia).
  replace (sp m + - len) with (sp m - len) by lia.
  destruct (bytes a) as [|b bs] eqn:Eb; [unfold len in Hl; cbn [length] in Hl; lia|].
  unfold mbind. rewrite store_first_unmapped; [reflexivity|unfold addr_ok, len in *; lia|exact Hp].
Qed.
Lemma push_underflow p a m : let len := Z.of_nat (length (bytes a)) in
  addr_ok (sp m) -> sp m <> 0 -> 0 < alignment a -> sp m mod alignment a = 0 -> 0 < len < 2 ^ 31 -> sp m < len ->
  snd (try_push p a m) = Err EPtrOverflow.
Proof.
  intros len Hs H0 Ha Hal Hl Hle. unfold try_push. replace (sp m =? 0) with false by lia.
  replace (alignment a =? 0) with false by lia. rewrite Hal, Z.sub_0_r, Z.mod_same by lia.
  change (Z.to_nat 0) with O. cbn [push_padding]. unfold mbind at 1, mret at 1. cbv beta iota.
  fold len. unfold mbind at 1, mres at 1. rewrite neg_len_ok by (unfold len; lia).
  unfold ptr_signed_offset. unfold addr_ok in Hs. now replace ((0 <=? sp m + - len) && (sp m + - len <? 2 ^ 32)) with false by (unfold len in *; lia).
Qed.
Lemma mem_new_peek a n m x : addr_ok a -> 0 <= n -> mem_new a n = Ok m ->
  sp m = a + n /\ a + n < 2 ^ 32 /\ 0 < n /\
  peek m x = if (a / 4096 <=? x / 4096) && (x / 4096 <=? (a + n) / 4096) then Some (BPlain 0) else None.
Proof.
  intros Ha Hn H. unfold mem_new in H. destruct (ptr_offset a n) as [s| |] eqn:Ep; try discriminate.
  assert (Hs : s = a + n /\ a + n < 2 ^ 32).
  { unfold ptr_offset in Ep. destruct (a + n <? 2 ^ 32) eqn:E; [|discriminate]. apply Ok_inj in Ep. lia. }
  unfold try_allocate_at in H. destruct (n =? 0) eqn:E0; [discriminate|]. rewrite Ep in H. apply Ok_inj in H. subst m.
  destruct Hs as [-> Hs]. unfold addr_ok in Ha. split; [apply map_missing_sp|]. split; [exact Hs|]. split; [lia|].
  rewrite peek_map_missing. rewrite !page_id_eq by (unfold addr_ok; lia).
  change (peek {| pages := fun _ => None; sp := a + n |} x) with (@None byte). cbv iota.
  assert (Hq : a / 4096 <= (a + n) / 4096) by (apply Z.div_le_mono; lia).
  replace (x / 4096 <? a / 4096 + Z.of_nat (Z.to_nat ((a + n) / 4096 + 1 - a / 4096))) with (x / 4096 <=? (a + n) / 4096).
  - reflexivity.
  - rewrite Z2Nat.id by (clear - Hq; lia). destruct (x / 4096 <=? (a + n) / 4096) eqn:E1; symmetry; [apply Z.ltb_lt|apply Z.ltb_ge];
      [apply Z.leb_le in E1|apply Z.leb_gt in E1]; clear - E1 Hq; 
      generalize dependent ((a + n) / 4096); generalize (x / 4096); generalize (a / 4096); intros; lia.
Qed.

(** The state between calls: the stack has [sp m - lo] mapped bytes below the stack pointer and nothing is mapped below
    [lo]. *)
Definition room (m : mem) (lo : Z) : Prop :=
  addr_ok (sp m) /\ sp m mod 16 = 0 /\ 0 < lo <= sp m /\ range_mapped m lo (sp m - lo) /\ (forall x, 0 <= x < lo -> peek m x = None).

Lemma call_room pr args ra rs m lo : let size := alloc_size args ra rs in
  Forall (fun a => abi_align (alignment a)) args -> abi_align ra -> 0 <= rs -> 0 <= size < 2 ^ 31 -> room m lo ->
  (size <= sp m - lo -> exists r, snd (set_up_call pr args ra rs m) = Ok r) /\
  (sp m - lo < size <= sp m -> snd (set_up_call pr args ra rs m) = Err EAccessViolation) /\
  (sp m < size -> snd (set_up_call pr args ra rs m) = Err EPtrOverflow) /\
  (forall m' r, set_up_call pr args ra rs m = (m', Ok r) -> room m' lo /\ sp m' = sp m - size).
Proof.
  intros size Hall Hra Hrs Hsz (R1 & R2 & R3 & R4 & R5).
  set (a := {| alignment := 16; bytes := repeat (BPlain 0) (Z.to_nat size) |}).
  assert (Hlen : Z.of_nat (length (bytes a)) = size) by (cbn [bytes a]; rewrite repeat_length; lia).
  assert (Hfail : forall e, snd (try_push pr a m) = Err e -> snd (set_up_call pr args ra rs m) = Err e).
  { intros e He. unfold set_up_call. fold size. fold a. unfold mbind. destruct (try_push pr a m) as [m1 r]. cbn [snd] in He. now subst r. }
  assert (Hfit : size <= sp m - lo -> exists m' rp, set_up_call pr args ra rs m = (m', Ok (rp, sp m - size)) /\ sp m' = sp m - size /\
    same_outside m m' (sp m - size) size).
  { intros Hle. destruct (call_setup_ok pr args ra rs m Hall Hra Hrs R1 ltac:(lia) R2 ltac:(fold size; lia) ltac:(fold size; lia)) as
      (m' & os & e & rp & C1 & C2 & _ & _ & _ & _ & _ & _ & _ & C10).
    - fold size. intros x Hx. apply R4. lia.
    - exists m', rp. auto. }
  assert (Hav : sp m - lo < size <= sp m -> snd (set_up_call pr args ra rs m) = Err EAccessViolation).
  { intros Hx. apply Hfail. apply push_unmapped; rewrite ?Hlen; cbn [alignment a]; auto; try lia. apply R5. lia. }
  assert (Hov : sp m < size -> snd (set_up_call pr args ra rs m) = Err EPtrOverflow).
  { intros Hx. apply Hfail. apply push_underflow; rewrite ?Hlen; cbn [alignment a]; auto; try lia. }
  split; [|split; [exact Hav|split; [exact Hov|]]].
  - intros Hle. destruct (Hfit Hle) as (m' & rp & C1 & _). rewrite C1. eexists. reflexivity.
  - intros m' r E. rewrite E in Hav, Hov. cbn [snd] in *. destruct (Z_le_gt_dec size (sp m - lo)) as [Hle|Hgt].
    + destruct (Hfit Hle) as (m1 & rp & C1 & C2 & C3). rewrite C1 in E. injection E as <- <-. split; [|exact C2].
      assert (Hsame : forall x, x < sp m - size -> peek m1 x = peek m x) by (intros x Hx; apply C3; lia).
      pose proof (alloc_size_16 args ra rs) as Hm. fold size in Hm.
      split; [unfold addr_ok in *; lia|]. split; [rewrite C2; lia|]. split; [lia|]. split.
      * intros x Hx. rewrite C2 in Hx. destruct (R4 x) as [A1 A2]; [lia|]. split; [exact A1|]. unfold mapped. rewrite Hsame by lia. exact A2.
      * intros x Hx. rewrite Hsame by lia. apply R5. lia.
    + destruct (Z_le_gt_dec size (sp m)) as [Hx|Hx]; [specialize (Hav ltac:(lia))|specialize (Hov ltac:(lia))]; discriminate.
Qed.

Lemma session_calls_room pr cs : forall m lo, Forall abi_call cs -> room m lo ->
  ((exists m', session pr m (map EvCall cs) m') <-> calls_total (map EvCall cs) <= sp m - lo).
Proof.
  induction cs as [|c cs IH]; intros m lo Hall Hr; cbn [map calls_total].
  - destruct Hr as (_ & _ & R3 & _). split; [lia|]. intros _. exists m. constructor.
  - apply Forall_cons_iff in Hall. destruct Hall as [(A1 & A2 & A3 & A4) Hall].
    destruct (call_room pr (cargs c) (cret_align c) (cret_size c) m lo A1 A2 A3 A4 Hr) as (C1 & C2 & C3 & C4). fold (frame_size c) in *.
    assert (Ht : 0 <= calls_total (map EvCall cs)).
    { clear - Hall. induction Hall as [|c cs [_ [_ [_ H]]] _ IH]; cbn [map calls_total]; lia. }
    split.
    + intros [m' Hs]. inversion Hs as [|? ? m1 r ? ? Hc Hs'|]; subst. destruct (C4 m1 r Hc) as [Hr' Hsp].
      assert (Hx : calls_total (map EvCall cs) <= sp m1 - lo) by (apply (IH m1 lo Hall Hr'); now exists m'). lia.
    + intros Hle. destruct C1 as [r Hr1]; [lia|]. destruct (set_up_call pr (cargs c) (cret_align c) (cret_size c) m) as [m1 r1] eqn:E.
      cbn [snd] in Hr1. subst r1. destruct (C4 m1 r eq_refl) as [Hr' Hsp].
      destruct (proj2 (IH m1 lo Hall Hr')) as [m' Hs]; [lia|]. exists m'. econstructor; [exact E|exact Hs].
Qed.

Lemma new_room a n m : addr_ok a -> 4096 <= a -> 0 <= n -> (a + n) mod 16 = 0 -> mem_new a n = Ok m -> room m (a / 4096 * 4096).
Proof.
  intros Ha Ha1 Hn H16 H. pose proof (fun x => mem_new_peek a n m x Ha Hn H) as P.
  destruct (P 0) as (P1 & P2 & P3 & _). unfold addr_ok in *.
  split; [unfold addr_ok; lia|]. split; [now rewrite P1|]. split; [lia|]. split.
  - intros x Hx. rewrite P1 in Hx. split; [unfold addr_ok; lia|]. unfold mapped. destruct (P x) as (_ & _ & _ & ->).
    replace (a / 4096 <=? x / 4096) with true; [replace (x / 4096 <=? (a + n) / 4096) with true|].
    + discriminate.
    + symmetry. apply Z.leb_le. apply Z.div_le_mono; lia.
    + symmetry. apply Z.leb_le. apply Z.div_le_lower_bound; lia.
  - intros x Hx. destruct (P x) as (_ & _ & _ & ->). replace (a / 4096 <=? x / 4096) with false; [reflexivity|].
    symmetry. apply Z.leb_gt. apply Z.div_lt_upper_bound; lia.
Qed.
