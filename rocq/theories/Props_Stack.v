(** Stack lifetime: C07 (all reachable stack pointers and the misaligned ones), C127 (repeated calls) and C128 (stack
    capacity and overflow). Vocabulary: SpecMem.v, SpecStack.v. *)
From Coq Require Import ZifyBool ZifyNat.
From Verif Require Import Base Alu Memory SpecMem SpecAlu BitsLemmas AluProofs AluProofs2 MemoryProofs MemoryProofs2 MemoryProofs3 MemoryProofs4
  MemoryProofs5 MemoryProofs6 SpecStack StackProofs.
Ltac Zify.zify_post_hook ::= Z.div_mod_to_equations.

(** ** C07 *)
(** In a memory made with a 16-aligned stack end, after any sequence of calls, program stores, host writes and
    allocations, the stack pointer is 16-aligned and the next call is laid out as C07 says. *)
Theorem call_frame_layout_reachable : forall pr a n m0 evs m args ra rs, let size := alloc_size args ra rs in
  addr_ok a -> 0 <= n -> mem_new a n = Ok m0 -> (a + n) mod 16 = 0 ->
  session pr m0 evs m -> Forall call_ok evs ->
  sp m mod 16 = 0 /\
  (Forall (fun a => abi_align (alignment a)) args -> abi_align ra -> 0 <= rs -> size < 2 ^ 31 -> size <= sp m -> sp m <> 0 ->
   range_mapped m (sp m - size) size ->
   exists m' os e rp, set_up_call pr args ra rs m = (m', Ok (rp, sp m - size)) /\ sp m' = sp m - size /\
     (sp m - size) mod 16 = 0 /\ layout 0 args os e /\ 0 <= e <= size /\
     (forall i a o, nth_error args i = Some a -> nth_error os i = Some o ->
        holds m' (sp m - size + o) (bytes a) /\ (sp m - size + o) mod alignment a = 0) /\
     (0 < rs -> exists ro, rp = sp m - size + ro /\ e <= ro /\ ro + rs <= size /\ rp mod ra = 0) /\
     same_outside m m' (sp m - size) size).
Proof.
  intros pr a n m0 evs m args ra rs size Ha Hn Hm H16 Hs Hok.
  destruct (mem_new_peek a n m0 0 Ha Hn Hm) as (P1 & P2 & P3 & _).
  destruct (session_sp pr m0 evs m Hs ltac:(now rewrite P1) Hok) as (S1 & S2 & S3). split; [exact S2|].
  intros Hall Hra Hrs Hsz Hle H0 Hr.
  assert (Haddr : addr_ok (sp m)).
  { unfold addr_ok in *. split; [apply S3; lia|]. rewrite S1, P1.
    assert (Ht : 0 <= calls_total evs); [|lia]. clear - Hok. induction Hok as [|[c|o] evs H _ IH]; cbn [calls_total call_ok] in *; lia. }
  destruct (call_setup_ok pr args ra rs m Hall Hra Hrs Haddr H0 S2 Hsz Hle Hr) as
    (m' & os & e & rp & C1 & C2 & C3 & C4 & C5 & C6 & C7 & C8 & C9 & C10).
  exists m', os, e, rp. auto 10.
Qed.

(** From a stack pointer that is not 16-aligned (a stack top or size that is not a multiple of 16) even the simplest call
    goes wrong: the byte of the caller at the stack pointer is overwritten with zero, and the callee's stack pointer is
    not 16-aligned either (unless the old one was exactly 8 off). *)
Theorem call_frame_misaligned_refuted : forall pr b m, let r := sp m mod 16 in
  addr_ok (sp m) -> r <> 0 -> 48 <= sp m -> (forall x, sp m - 48 <= x <= sp m -> mapped m x) ->
  exists m' s, set_up_call pr [{| alignment := 1; bytes := [b] |}] 1 0 m = (m', Ok (0, s)) /\
    peek m' (sp m) = Some (BPlain 0) /\ (r <> 8 -> s mod 16 <> 0).
Proof.
  intros pr b m r Hs Hr H48 Hm. assert (Hb : 0 <= r < 16) by (apply Z.mod_pos_bound; lia). unfold set_up_call.
  change (alloc_size [{| alignment := 1; bytes := [b] |}] 1 0) with 16. change (Z.to_nat 16) with 16%nat.
  set (a := {| alignment := 16; bytes := repeat (BPlain 0) 16 |}).
  destruct (push_misaligned pr a m Hs) as (m1 & s & P1 & P2 & P3); cbn [alignment bytes a]; rewrite ?repeat_length; try (fold r); try lia.
  { intros x Hx. apply Hm. lia. }
  (* where the push ends *)
  assert (Hsp : sp m1 = s /\ s = sp m - (16 - r) - 16 /\ mapped m1 s).
  { clear P2 P3. revert P1. unfold try_push. replace (sp m =? 0) with false by lia. cbn [alignment a]. change (16 =? 0) with false. cbv iota.
    fold r. rewrite (Z.mod_small (16 - r)) by lia.
    destruct (push_padding_ok (Z.to_nat (16 - r)) m) as (m2 & Q1 & Q2 & Q3); auto; [lia|intros x Hx; apply Hm; lia|].
    unfold mbind at 1. rewrite Q1. change (Z.of_nat (length (bytes a))) with 16. unfold mbind at 1, mres at 1. rewrite neg_len_ok by lia.
    rewrite Q2, Z2Nat.id by lia. unfold ptr_signed_offset. unfold addr_ok in Hs.
    replace ((0 <=? sp m - (16 - r) + - (16)) && (sp m - (16 - r) + - (16) <? 2 ^ 32)) with true by lia.
    destruct (store_from_ok (bytes a) (sp m - (16 - r) + - (16)) 0 (set_sp m2 (sp m - (16 - r) + - (16)))) as (m3 & S1 & S2 & S3).
    { lia. } { change (Z.of_nat (length (bytes a))) with 16. lia. }
    { rewrite Z.add_0_r. change (Z.of_nat (length (bytes a))) with 16. intros x Hx. split; [unfold addr_ok; lia|].
      unfold mapped. rewrite peek_set_sp, Q3. destruct (_ && _); [congruence|]. apply Hm. lia. }
    unfold mbind. rewrite S1. intros E. apply pair_equal_spec in E. destruct E as [<- E]. apply Ok_inj in E. subst s. split; [exact S2|]. split; [lia|].
    unfold mapped. rewrite S3, Z.add_0_r. change (Z.of_nat (length (bytes a))) with 16.
    replace ((sp m - (16 - r) + - (16) <=? sp m - (16 - r) + - (16)) && (sp m - (16 - r) + - (16) <? sp m - (16 - r) + - (16) + 16)) with true by lia.
    rewrite Z.sub_diag. discriminate. }
  destruct Hsp as (Hsp1 & Hsp2 & Hsp3). unfold mbind at 1. rewrite P1. unfold mbind at 1, mread. rewrite Hsp1.
  cbn [write_args alignment bytes].
  assert (Hal : align_ptr pr s 1 = Ok s).
  { unfold align_ptr, uadd. change (1 =? 0) with false. cbv iota. rewrite Z.mod_1_r. change ((1 - 0) mod 1) with 0. rewrite Z.add_0_r.
    unfold addr_ok in Hs. now replace (s <? 2 ^ 32) with true by lia. }
  unfold mbind at 1. unfold mbind at 1, mres at 1. rewrite Hal. cbn [write_bytes].
  destruct (try_store_ok s b m1) as (m2 & T1 & T2 & T3); [unfold addr_ok in *; lia|exact Hsp3|].
  unfold mbind. rewrite T1. unfold mres, ptr_offset, mret. unfold addr_ok in Hs. replace (s + 1 <? 2 ^ 32) with true by lia.
  change (0 <? 0) with false. cbv iota. exists m2, s. split; [reflexivity|]. split.
  - rewrite T3. replace (sp m =? s) with false by lia. exact P3.
  - intros H8. cbn [alignment a] in P2. fold r in P2. rewrite P2. lia.
Qed.

(** ** C127 *)
(** A call never gives its stack back: after any sequence of calls and other operations the stack pointer is lower than
    at the start by the sum of the frames of all the calls made so far. *)
Theorem stack_pointer_after_session : forall pr m evs m', session pr m evs m' -> sp m mod 16 = 0 -> Forall call_ok evs ->
  sp m' = sp m - calls_total evs /\ sp m' mod 16 = 0.
Proof. intros pr m evs m' H H16 Hok. destruct (session_sp pr m evs m' H H16 Hok) as (A & B & _). auto. Qed.
(** So no memory object supports more than sp / frame calls of the same function, whatever else happens between them. *)
Theorem repeated_calls_exhaust_refuted : forall pr m evs, 0 <= sp m -> sp m mod 16 = 0 -> Forall call_ok evs ->
  sp m < calls_total evs -> ~ exists m', session pr m evs m'.
Proof. intros pr m evs H0 H16 Hok Hlt [m' Hs]. destruct (session_sp pr m evs m' Hs H16 Hok) as (A & _ & B). specialize (B H0). lia. Qed.
(** Exactly how many: from a new memory a list of calls can be set up one after the other iff their frames together
    fit the stack (its size plus the distance from the start of its first page). *)
Theorem calls_until_exhaustion : forall pr a n m cs, addr_ok a -> 4096 <= a -> 0 <= n -> (a + n) mod 16 = 0 -> mem_new a n = Ok m ->
  Forall abi_call cs ->
  ((exists m', session pr m (map EvCall cs) m') <-> calls_total (map EvCall cs) <= n + a mod 4096).
Proof.
  intros pr a n m cs Ha Ha1 Hn H16 H Hall. pose proof (new_room a n m Ha Ha1 Hn H16 H) as Hr.
  destruct (mem_new_peek a n m 0 Ha Hn H) as (P1 & _). rewrite (session_calls_room pr cs m _ Hall Hr), P1.
  pose proof (Z.div_mod a 4096 ltac:(lia)) as Hd. lia.
Qed.
(** The default configuration: one call with a 16-byte frame can be made 1024 times; the 1025th fails. *)
Theorem default_stack_calls : forall pr m c k, mem_new 4294934528 16384 = Ok m -> abi_call c -> frame_size c = 16 ->
  ((exists m', session pr m (map EvCall (repeat c k)) m') <-> (k <= 1024)%nat).
Proof.
  intros pr m c k H Hc Hf. revert H. generalize (eq_refl 4294934528). generalize 4294934528 at 2 3 as a.
  generalize (eq_refl 16384). generalize 16384 at 2 3 as n. intros n Hn a Ha H.
  assert (Hall : Forall abi_call (repeat c k)) by (clear - Hc; induction k; cbn [repeat]; auto).
  assert (H1 : addr_ok a) by (unfold addr_ok; lia). assert (H2 : (a + n) mod 16 = 0) by (subst; reflexivity).
  assert (H3 : a mod 4096 = 0) by (subst; reflexivity).
  rewrite (calls_until_exhaustion pr a n m _ H1 ltac:(lia) ltac:(lia) H2 H Hall), H3.
  assert (Ht : calls_total (map EvCall (repeat c k)) = 16 * Z.of_nat k).
  { clear H Hall. induction k as [|k IH]; [reflexivity|]. cbn [repeat map calls_total]. rewrite IH, Hf. lia. }
  rewrite Ht. lia.
Qed.
Example default_stack_ex : exists m, mem_new 4294934528 16384 = Ok m. Proof. eexists. vm_compute. reflexivity. Qed.
Definition ex_call : callspec := {| cargs := [{| alignment := 1; bytes := [BPlain 7] |}]; cret_align := 1; cret_size := 1 |}.
Example ex_call_ok : abi_call ex_call /\ frame_size ex_call = 16 /\ call_ok (EvCall ex_call).
Proof.
  split; [|split; [reflexivity|]].
  - split; [|split; [left; reflexivity|]]; [constructor; [left; reflexivity|constructor]|].
    split; [discriminate|]. change (frame_size ex_call) with 16. lia.
  - change (call_ok (EvCall ex_call)) with (0 <= 16 < 2 ^ 31). lia.
Qed.
Example ex_session : exists m0 m, mem_new 65536 4096 = Ok m0 /\
  session Debug m0 [EvCall ex_call; EvMem (MStore 65600 (BPlain 1)); EvCall ex_call] m /\ sp m = 69600.
Proof.
  eexists. eexists. split; [reflexivity|]. split; [|].
  - eapply session_call; [vm_compute; reflexivity|]. eapply session_mem. eapply session_call; [vm_compute; reflexivity|]. eapply session_nil.
  - vm_compute. reflexivity.
Qed.
Print Assumptions call_frame_layout_reachable.
Print Assumptions call_frame_misaligned_refuted.
Print Assumptions stack_pointer_after_session.
Print Assumptions repeated_calls_exhaust_refuted.
Print Assumptions calls_until_exhaustion.
Print Assumptions default_stack_calls.

(** ** C128 *)
(** What a new stack holds: a first call succeeds iff its frame fits; otherwise it is reported, never silent. *)
Theorem stack_capacity_exact : forall pr a n m c, addr_ok a -> 4096 <= a -> 0 <= n -> (a + n) mod 16 = 0 -> mem_new a n = Ok m -> abi_call c ->
  let outcome := snd (set_up_call pr (cargs c) (cret_align c) (cret_size c) m) in
  (frame_size c <= n + a mod 4096 -> exists r, outcome = Ok r) /\
  (n + a mod 4096 < frame_size c <= a + n -> outcome = Err EAccessViolation) /\
  (a + n < frame_size c -> outcome = Err EPtrOverflow).
Proof.
  intros pr a n m c Ha Ha1 Hn H16 H (A1 & A2 & A3 & A4) outcome. pose proof (new_room a n m Ha Ha1 Hn H16 H) as Hr.
  destruct (mem_new_peek a n m 0 Ha Hn H) as (P1 & _).
  destruct (call_room pr (cargs c) (cret_align c) (cret_size c) m _ A1 A2 A3 A4 Hr) as (C1 & C2 & C3 & _). fold (frame_size c) in *.
  rewrite P1 in *. pose proof (Z.div_mod a 4096 ltac:(lia)) as Hd. unfold outcome.
  split; [intros Hx; apply C1; lia|]. split; [intros Hx; apply C2; lia|]. exact C3.
Qed.
(** The documentation of [stack_size] says a size that is not a multiple of the page size is rounded up; it is not: with a
    page-aligned top, a frame that fits the rounded size but not the size itself is refused. *)
Theorem stack_size_rounding_refuted : forall pr a n m c, addr_ok a -> 4096 <= a -> 0 <= n -> (a + n) mod 16 = 0 -> a mod 4096 = 0 ->
  mem_new a n = Ok m -> abi_call c -> n < frame_size c <= (n + 4095) / 4096 * 4096 ->
  snd (set_up_call pr (cargs c) (cret_align c) (cret_size c) m) = Err EAccessViolation.
Proof.
  intros pr a n m c Ha Ha1 Hn H16 Hp H Hc Hf. destruct (stack_capacity_exact pr a n m c Ha Ha1 Hn H16 H Hc) as (_ & B & _). apply B. lia.
Qed.
Example rounding_ex : exists m c, mem_new 65536 4112 = Ok m /\ abi_call c /\ 4112 < frame_size c <= (4112 + 4095) / 4096 * 4096.
Proof.
  eexists. exists {| cargs := []; cret_align := 1; cret_size := 8192 |}. split; [reflexivity|]. split.
  - split; [constructor|]. split; [left; reflexivity|]. split; [discriminate|]. vm_compute. split; [discriminate|reflexivity].
  - vm_compute. split; [reflexivity|discriminate].
Qed.
(** And there is no guard: when the page below the stack is mapped (an ELF segment, an allocation), a call that needs
    more than the configured size succeeds and overwrites that page. *)
Theorem stack_overflow_silent_refuted : forall pr a n m b, addr_ok a -> 8192 <= a -> a mod 4096 = 0 -> 0 <= n -> n mod 16 = 0 -> n < 2 ^ 30 ->
  mem_new a n = Ok m ->
  exists m1, try_allocate_at (a - 4096) 4096 m = (m1, Ok tt) /\ peek m1 (a - 16) = Some (BPlain 0) /\ sp m1 = a + n /\
    exists m2 r, set_up_call pr [{| alignment := 1; bytes := repeat b (Z.to_nat (n + 16)) |}] 1 0 m1 = (m2, Ok r) /\
      peek m2 (a - 16) = Some b.
Proof.
  intros pr a n m b Ha Ha1 Hp Hn H16 Hn30 H. pose proof (fun x => mem_new_peek a n m x Ha Hn H) as P. destruct (P 0) as (P1 & P2 & P3 & _).
  unfold try_allocate_at. change (4096 =? 0) with false. cbv iota. unfold ptr_offset. unfold addr_ok in *.
  replace (a - 4096 + 4096) with a by lia. replace (a <? 2 ^ 32) with true by lia.
  rewrite !page_id_eq by (unfold addr_ok; lia). set (k := Z.to_nat _). set (m1 := map_missing m ((a - 4096) / 4096) k).
  assert (Hk : Z.of_nat k = 2). { unfold k. lia. }
  assert (Hsp : sp m1 = a + n) by (unfold m1; now rewrite map_missing_sp).
  assert (Hpk : forall x, a - 4096 <= x <= a + n -> peek m1 x = Some (BPlain 0)).
  { intros x Hx. unfold m1. rewrite peek_map_missing. destruct (P x) as (_ & _ & _ & ->). rewrite Hk.
    destruct ((a / 4096 <=? x / 4096) && (x / 4096 <=? (a + n) / 4096)) eqn:E; [reflexivity|].
    replace (((a - 4096) / 4096 <=? x / 4096) && (x / 4096 <? (a - 4096) / 4096 + 2)) with true; [reflexivity|].
    assert (Hlt : x / 4096 <= (a + n) / 4096) by (apply Z.div_le_mono; lia). clear P. symmetry. lia. }
  exists m1. split; [reflexivity|]. split; [apply Hpk; lia|]. split; [exact Hsp|].
  set (args := [{| alignment := 1; bytes := repeat b (Z.to_nat (n + 16)) |}]).
  assert (Hsize : alloc_size args 1 0 = n + 16).
  { unfold alloc_size, args, align_up. cbn [fold_left alignment bytes]. rewrite repeat_length, Z2Nat.id by lia. change (0 <? 0) with false. cbv iota.
    rewrite Zmod_0_l. change ((1 - 0) mod 1) with 0. lia. }
  destruct (call_setup_ok pr args 1 0 m1) as (m2 & os & e & rp & C1 & C2 & C3 & C4 & C5 & C6 & _); rewrite ?Hsize, ?Hsp; try lia.
  - constructor; [left; reflexivity|constructor].
  - left. reflexivity.
  - unfold addr_ok. lia.
  - intros x Hx. split; [unfold addr_ok; lia|]. unfold mapped. rewrite Hpk by lia. discriminate.
  - exists m2, (rp, a + n - (n + 16)). rewrite Hsize, Hsp in *. split; [exact C1|].
    inversion C4 as [|? ? ? o os' ? Ho1 Ho2 Ho3]; subst. cbn [alignment] in Ho1. assert (o = 0) by lia. subst o.
    destruct (C6 0%nat _ _ eq_refl eq_refl) as [Hh _]. specialize (Hh 0%nat b). cbn [bytes] in Hh.
    replace (a - 16) with (a + n - (n + 16) + 0 + Z.of_nat 0) by lia. apply Hh. rewrite nth_error_repeat; [reflexivity|lia].
Qed.
Example overflow_ex : exists m, mem_new 65536 4096 = Ok m. Proof. eexists. reflexivity. Qed.
Print Assumptions stack_capacity_exact.
Print Assumptions stack_size_rounding_refuted.
Print Assumptions stack_overflow_silent_refuted.
