(** Memory, calling convention and load/store properties: C01-C08 and C63-C68. Only statements, short proofs and examples.
    The vocabulary (peek, mapped, holds, layout, ...) is in SpecMem.v. *)
From Coq Require Import ZifyBool ZifyNat.
From Verif Require Import Base Alu Memory SpecMem SpecAlu BitsLemmas AluProofs AluProofs2 MemoryProofs MemoryProofs2 MemoryProofs3 MemoryProofs4
  MemoryProofs5 MemoryProofs6.
Ltac Zify.zify_post_hook ::= Z.div_mod_to_equations.

(** A concrete memory for the examples: a 4 KiB stack at 0x10000. *)
Definition ex_mem : mem := match mem_new 65536 4096 with Ok m => m | _ => empty_mem end.

(** C01: whatever operations follow a successful store, in any number and with any outcome, as long as none of them is
    a store that covers the address, a load returns the stored byte. *)
Theorem memory_read_last_write : forall p m1 m2 a b os, addr_ok a -> Forall memop_ok os ->
  Forall (fun o => ~ touches o a) os ->
  try_store a b m1 = (m2, Ok tt) -> try_load a (history p os m2) = Ok b.
Proof. exact read_last_write. Qed.
(** A store changes no other byte and maps nothing. *)
Theorem memory_store_frame : forall m1 m2 a b x, addr_ok a ->
  try_store a b m1 = (m2, Ok tt) -> x <> a -> peek m2 x = peek m1 x.
Proof. exact store_frame. Qed.
(** A byte no operation covers keeps its value through every history. *)
Theorem memory_untouched_kept : forall p os m x b, Forall memop_ok os -> Forall (fun o => ~ touches o x) os ->
  peek m x = Some b -> peek (history p os m) x = Some b.
Proof. exact history_keep. Qed.
Example memory_read_last_write_ex : exists m2, try_store 65600 (BPlain 7) ex_mem = (m2, Ok tt) /\
  try_load 65600 (history Debug [MStore 65601 (BPlain 9); MAlloc 5000; MStore 0 (BPlain 1); MAllocAt 65536 10; MWrite 65604 4 [BPlain 1; BPlain 2; BPlain 3; BPlain 4]] m2) = Ok (BPlain 7) /\
  try_load 65605 (history Debug [MWrite 65604 4 [BPlain 1; BPlain 2; BPlain 3; BPlain 4]] m2) = Ok (BPlain 2).
Proof. eexists. split; [reflexivity|]. vm_compute. split; reflexivity. Qed.
Print Assumptions memory_read_last_write.

(** C02. *)
Theorem memory_access : forall a b m, addr_ok a ->
  (~ mapped m a -> try_load a m = Err EAccessViolation /\ try_store a b m = (m, Err EAccessViolation)) /\
  (mapped m a -> (exists c, peek m a = Some c /\ try_load a m = Ok c) /\ exists m', try_store a b m = (m', Ok tt)).
Proof.
  intros a b m Ha. rewrite try_load_peek by auto. unfold mapped.
  destruct (try_store_peek a b m Ha) as [[H1 H2]|[H1 (m' & H2 & _)]]; split; intros H.
  - rewrite H1, H2. auto.
  - congruence.
  - tauto.
  - destruct (peek m a) as [c|]; [|congruence]. eauto.
Qed.
(** Nothing unmaps: what was mapped stays mapped. *)
Theorem memory_mapping_permanent : forall p os m x, Forall memop_ok os -> mapped m x -> mapped (history p os m) x.
Proof. exact history_mapped. Qed.
(** Unless a caller maps it explicitly, the null page stays inaccessible for ever. *)
Theorem null_page_never_allocated : forall p os m a, Forall memop_ok os -> Forall never_at os -> 0 <= a < 4096 ->
  peek m a = None -> try_load a (history p os m) = Err EAccessViolation.
Proof.
  intros p os m a Hok Hn Ha H. rewrite try_load_peek by (unfold addr_ok; lia). rewrite history_null; auto; lia.
Qed.
Example memory_access_ex : try_load 4096 ex_mem = Err EAccessViolation /\ try_load 65536 ex_mem = Ok (BPlain 0) /\
  try_load 12 (history Debug [MAlloc 1; MAlloc 100000; MWrite 0 1 [BPlain 3]] ex_mem) = Err EAccessViolation.
Proof. vm_compute. repeat split. Qed.
Print Assumptions memory_access.
Print Assumptions null_page_never_allocated.

(** C03. *)
Theorem allocation_fresh : forall p len m m' ptr, 0 < len <= 4294963200 -> try_allocate p len m = (m', Ok ptr) ->
  ptr mod 4096 = 0 /\ 4096 <= ptr /\ ptr + len < 2 ^ 32 /\
  (forall x, ptr <= x < ptr + len -> peek m x = None /\ peek m' x = Some (BPlain 0)) /\
  (forall x b, peek m x = Some b -> peek m' x = Some b) /\ sp m' = sp m.
Proof. exact allocate_ok. Qed.
Theorem allocations_never_overlap : forall p m1 m1' m2 m2' len1 len2 p1 p2 os,
  0 < len1 <= 4294963200 -> 0 < len2 <= 4294963200 -> Forall memop_ok os ->
  try_allocate p len1 m1 = (m1', Ok p1) -> m2 = history p os m1' ->
  try_allocate p len2 m2 = (m2', Ok p2) ->
  disjoint p1 len1 p2 len2.
Proof. exact allocations_disjoint. Qed.
(** A request fails only when no page-aligned range of that length is free (the last page is never used). *)
Theorem allocation_fails_only_when_full : forall p len m m' r, 0 < len <= 4294963200 -> try_allocate p len m = (m', r) ->
  (exists ptr, r = Ok ptr) \/
  (r = Err EOutOfMemory /\ m' = m /\
   forall ptr, ptr mod 4096 = 0 -> 4096 <= ptr -> ptr + len <= 2 ^ 32 - 4096 ->
     exists x, ptr <= x < ptr + len /\ mapped m x).
Proof. exact allocate_total. Qed.
(** The bound on len is needed: a larger request aborts a debug build, and in a release build returns 0x1000 having mapped
    nothing. *)
Theorem allocation_huge_refuted : forall m len, 4294963200 < len < 2 ^ 32 ->
  try_allocate Release len m = (m, Ok 4096) /\ try_allocate Debug len m = (m, Panic).
Proof. exact allocate_huge. Qed.
Example allocation_ex :
  snd (try_allocate Debug 5000 ex_mem) = Ok 4096 /\
  snd (try_allocate Debug 1 (fst (try_allocate Debug 5000 ex_mem))) = Ok 12288 /\
  snd (try_allocate Debug 100000 ex_mem) = Ok 73728.
Proof. vm_compute. repeat split. Qed.
Print Assumptions allocation_fresh.
Print Assumptions allocations_never_overlap.
Print Assumptions allocation_fails_only_when_full.
Print Assumptions allocation_huge_refuted.

(** C04: a typed write into a range that is mapped, and whose following byte is mapped too, succeeds, changes exactly
    that range, and the typed load gives the value back. *)
Theorem typed_write_partial : forall p ptr align bs m, addr_ok ptr -> 0 < align -> ptr mod align = 0 ->
  range_mapped m ptr (Z.of_nat (length bs) + 1) ->
  exists m', try_write_type p ptr align bs m = (m', Ok tt) /\ holds m' ptr bs /\
    same_outside m m' ptr (Z.of_nat (length bs)) /\ sp m' = sp m /\
    try_load_type p ptr align (length bs) m' = Ok bs.
Proof. exact write_type_ok. Qed.
(** Without the extra byte the write is refused although every byte of the range is mapped. *)
Theorem typed_write_boundary_refuted : forall p ptr align bs m, addr_ok ptr -> 0 < align -> ptr mod align = 0 ->
  ptr + Z.of_nat (length bs) < 2 ^ 32 -> ~ mapped m (ptr + Z.of_nat (length bs)) ->
  exists e, try_write_type p ptr align bs m = (m, Err e).
Proof. exact write_type_boundary. Qed.
Theorem typed_write_misaligned : forall p ptr align bs m, 0 < align -> ptr mod align <> 0 ->
  try_write_type p ptr align bs m = (m, Err EUnaligned) /\ (forall n, try_load_type p ptr align n m = Err EUnaligned).
Proof. exact write_type_misaligned. Qed.
Theorem typed_allocate : forall p align bs m m' ptr,
  0 < Z.of_nat (length bs) <= 4294963200 -> 0 < align -> (align | 4096) ->
  try_allocate_type p align bs m = (m', Ok ptr) ->
  ptr mod align = 0 /\ 4096 <= ptr /\ holds m' ptr bs /\
  (forall x, ptr <= x < ptr + Z.of_nat (length bs) -> peek m x = None) /\
  (forall x b, peek m x = Some b -> peek m' x = Some b) /\
  try_load_type p ptr align (length bs) m' = Ok bs.
Proof. exact allocate_type_ok. Qed.
(** A typed allocation of a whole number of pages fails whenever the page after the chosen place is free. *)
Theorem typed_allocate_pages_refuted : forall p align bs m m' ptr,
  0 < Z.of_nat (length bs) <= 4294963200 -> 0 < align -> (align | 4096) -> Z.of_nat (length bs) mod 4096 = 0 ->
  try_allocate p (Z.of_nat (length bs)) m = (m', Ok ptr) -> ~ mapped m (ptr + Z.of_nat (length bs)) ->
  exists e, try_allocate_type p align bs m = (m', Err e).
Proof. exact allocate_type_page_multiple. Qed.
Example typed_write_ex :
  snd (try_write_type Debug 65600 4 (prim_to_bytes 4 123456) ex_mem) = Ok tt /\
  snd (try_write_type Debug (65536 + 8192 - 4) 4 (prim_to_bytes 4 123456) ex_mem) = Err EAccessViolation /\
  peek ex_mem (65536 + 8191) <> None /\
  snd (try_allocate_type Debug 8 (prim_to_bytes 8 5) ex_mem) = Ok 4096 /\
  snd (try_allocate_type Debug 1 (repeat (BPlain 1) (Z.to_nat 4096)) ex_mem) = Err EAccessViolation.
Proof. vm_compute. repeat split; discriminate. Qed.
Print Assumptions typed_write_partial.
Print Assumptions typed_write_boundary_refuted.
Print Assumptions typed_allocate.
Print Assumptions typed_allocate_pages_refuted.

(** C05. *)
Theorem word_roundtrip : forall v, 0 <= v < 2 ^ 32 ->
  length (word_from v) = 4%nat /\ prim_try_from_bytes 4 (word_from v) = Ok v /\ bytes_value (word_from v) = v.
Proof.
  intros v Hv. destruct (prim_roundtrip 4 v Hv) as [H1 H2]. split; [exact H1|]. split; [exact H2|].
  unfold word_from. rewrite bytes_value_plain, le_to_le by lia. now apply Z.mod_small.
Qed.
Theorem word_extension : forall bs signed w, Forall byte_ok bs -> bs <> [] -> word_try_from_bytes bs signed = Ok w ->
  length w = 4%nat /\ Forall byte_ok w /\ (all_plain bs /\ all_plain w \/ all_cipher bs /\ all_cipher w) /\
  bytes_value w = (if signed then signed_value (length bs) (bytes_value bs) else bytes_value bs) mod 2 ^ 32.
Proof. exact word_bytes_value. Qed.
Theorem word_accepted_or_rejected : forall bs signed,
  ((length bs <= 4)%nat -> all_plain bs \/ all_cipher bs -> exists w, word_try_from_bytes bs signed = Ok w) /\
  (forall v c, (length bs <= 4)%nat -> In (BPlain v) bs -> In (BCipher c) bs -> word_try_from_bytes bs signed = Err EMixedData) /\
  ((4 < length bs)%nat -> word_try_from_bytes bs signed = Err ETooManyBytes /\ word_from_slice bs = Err ETooManyBytes).
Proof. intros. split; [apply word_accepts|]. split; [intros v c; apply word_mixed|apply word_too_long]. Qed.
Example word_ex :
  word_try_from_bytes [BPlain 254] true = Ok (word_from (2 ^ 32 - 2)) /\
  word_try_from_bytes [BPlain 254] false = Ok (word_from 254) /\
  word_try_from_bytes [BPlain 1; BPlain 128] true = Ok (word_from (2 ^ 32 - 32768 + 1)).
Proof. vm_compute. repeat split. Qed.
Print Assumptions word_roundtrip.
Print Assumptions word_extension.
Print Assumptions word_accepted_or_rejected.

(** C06. *)
Theorem pointer_arithmetic_exact : forall a v r, addr_ok a ->
  (addr_ok v -> (ptr_offset a v = Ok r <-> r = a + v /\ addr_ok r) /\ (ptr_offset a v = Err EPtrOverflow <-> ~ addr_ok (a + v))) /\
  (ptr_signed_offset a v = Ok r <-> r = a + v /\ addr_ok r) /\
  (ptr_signed_offset a v = Err EPtrOverflow <-> ~ addr_ok (a + v)).
Proof. intros a v r Ha. split; [now apply ptr_offset_exact|now apply ptr_signed_exact]. Qed.
Example pointer_ex : ptr_offset 4294967290 5 = Ok 4294967295 /\ ptr_offset 4294967290 6 = Err EPtrOverflow /\
  ptr_signed_offset 3 (-4) = Err EPtrOverflow /\ ptr_signed_offset 4 (-4) = Ok 0.
Proof. repeat split. Qed.
Print Assumptions pointer_arithmetic_exact.

(** C07: with alignments up to 16, the arguments are laid out in order in the new frame, each aligned and holding its
    own bytes, the return slot is aligned and disjoint from them, the rest of the frame is zero and nothing outside the
    frame changes. *)
Theorem call_frame_layout_partial : forall pr args ra rs m, let size := alloc_size args ra rs in
  Forall (fun a => abi_align (alignment a)) args -> abi_align ra -> 0 <= rs ->
  addr_ok (sp m) -> sp m <> 0 -> sp m mod 16 = 0 -> size < 2 ^ 31 -> size <= sp m ->
  range_mapped m (sp m - size) size ->
  exists m' os e rp, set_up_call pr args ra rs m = (m', Ok (rp, sp m - size)) /\ sp m' = sp m - size /\
    (sp m - size) mod 16 = 0 /\
    layout 0 args os e /\ 0 <= e <= size /\
    (forall i a o, nth_error args i = Some a -> nth_error os i = Some o ->
       holds m' (sp m - size + o) (bytes a) /\ (sp m - size + o) mod alignment a = 0) /\
    (0 < rs -> exists ro, rp = sp m - size + ro /\ e <= ro /\ ro + rs <= size /\ rp mod ra = 0) /\
    (rs = 0 -> rp = 0) /\
    (forall x, sp m - size <= x < sp m -> ~ in_args (sp m - size) args os x -> peek m' x = Some (BPlain 0)) /\
    same_outside m m' (sp m - size) size.
Proof. exact call_setup_ok. Qed.
(** The ranges the layout assigns to different arguments are disjoint. *)
Theorem call_layout_disjoint : forall off args os e i j a b o o', layout off args os e -> (i < j)%nat ->
  nth_error args i = Some a -> nth_error os i = Some o -> nth_error args j = Some b -> nth_error os j = Some o' ->
  o + Z.of_nat (length (bytes a)) <= o'.
Proof.
  intros off args os e i j a b o o' H. revert i j. induction H as [off|off a0 args o0 os e H1 H2 H3 IH]; intros i j Hij Ha Ho Hb Ho'.
  - destruct i; discriminate.
  - destruct j as [|j]; [lia|]. cbn [nth_error] in Hb, Ho'. destruct i as [|i]; cbn [nth_error] in Ha, Ho.
    + injection Ha as <-. injection Ho as <-. destruct (layout_bounds _ _ _ _ H3) as [_ LB]. specialize (LB j b o' Hb Ho'). lia.
    + apply (IH i j); auto. lia.
Qed.
(** Alignment 32 (a 256-bit encrypted integer) is not supported: from a stack pointer that is 16 modulo 32 the argument
    is written half outside the frame, over the caller's data. *)
Theorem call_frame_align32_refuted : forall pr bs m, length bs = 32%nat -> sp m mod 32 = 16 -> 32 <= sp m < 2 ^ 32 - 32 ->
  range_mapped m (sp m - 32) 48 ->
  exists m' s, set_up_call pr [{| alignment := 32; bytes := bs |}] 1 0 m = (m', Ok (0, s)) /\ s = sp m - 32 /\
    peek m' (sp m) = nth_error bs 16.
Proof.
  intros pr bs m Hl Hmod Hsp Hr. unfold set_up_call.
  assert (Hsz : alloc_size [{| alignment := 32; bytes := bs |}] 1 0 = 32).
  { unfold alloc_size. cbn [fold_left alignment bytes]. rewrite Hl. reflexivity. }
  rewrite Hsz. unfold mbind at 1.
  destruct (push_aligned pr {| alignment := 16; bytes := repeat (BPlain 0) (Z.to_nat 32) |} m) as (m1 & P1 & P2 & P3);
    cbn [alignment bytes]; rewrite ?repeat_length; try (change (Z.of_nat (Z.to_nat 32)) with 32).
  - unfold addr_ok. lia.
  - lia.
  - lia.
  - lia.
  - lia.
  - lia.
  - eapply range_mapped_le; [|exact Hr]. lia.
  - cbn [alignment bytes] in *. rewrite repeat_length in P1, P2, P3. change (Z.of_nat (Z.to_nat 32)) with 32 in *.
    rewrite P1. unfold mbind at 1, mread at 1. rewrite P2. cbn [write_args alignment bytes].
    assert (Hal : align_ptr pr (sp m - 32) 32 = Ok (sp m - 16)).
    { unfold align_ptr, uadd. cbn [Z.eqb]. change (2 ^ 32) with 4294967296 in *.
      replace ((sp m - 32) mod 32) with 16 by lia. change ((32 - 16) mod 32) with 16.
      replace (sp m - 32 + 16 <? 4294967296) with true by lia. f_equal. lia. }
    unfold mbind, mres, mret. rewrite Hal.
    destruct (write_bytes_ok bs (sp m - 16) m1) as (m2 & W1 & W2 & W3); try (rewrite Hl; lia); try lia.
    { intros x Hx. rewrite Hl in Hx. destruct (Hr x) as [Ax Mx]; [lia|]. split; auto. unfold mapped. rewrite P3.
      destruct (_ && _) eqn:E; [|auto]. intros Hc. apply nth_error_None in Hc. rewrite repeat_length in Hc. lia. }
    rewrite W1. cbn [Z.ltb Z.compare]. exists m2, (sp m - 32). split; [reflexivity|]. split; [reflexivity|].
    rewrite W3, Hl. replace ((sp m - 16 <=? sp m) && (sp m <? sp m - 16 + Z.of_nat 32)) with true by lia.
    f_equal. lia.
Qed.
Example call_frame_ex :
  let args := [{| alignment := 1; bytes := [BPlain 7] |}; {| alignment := 4; bytes := prim_to_bytes 4 258 |};
               {| alignment := 8; bytes := prim_to_bytes 8 99 |}] in
  alloc_size args 4 4 = 32 /\ sp ex_mem = 69632 /\
  snd (set_up_call Debug args 4 4 ex_mem) = Ok (69616, 69600) /\
  load_from 69600 0 16 (fst (set_up_call Debug args 4 4 ex_mem)) =
    Ok (map BPlain [7; 0; 0; 0; 2; 1; 0; 0; 99; 0; 0; 0; 0; 0; 0; 0]).
Proof. vm_compute. repeat split. Qed.
Print Assumptions call_frame_layout_partial.
Print Assumptions call_layout_disjoint.
Print Assumptions call_frame_align32_refuted.

(** C08: from an aligned stack pointer a push works as documented. *)
Theorem push_partial : forall p a m, let len := Z.of_nat (length (bytes a)) in
  addr_ok (sp m) -> sp m <> 0 -> 0 < alignment a -> sp m mod alignment a = 0 ->
  len < 2 ^ 31 -> len <= sp m -> range_mapped m (sp m - len) len ->
  exists m', try_push p a m = (m', Ok (sp m - len)) /\ sp m' = sp m - len /\
    (len mod alignment a = 0 -> sp m' mod alignment a = 0) /\
    holds m' (sp m') (bytes a) /\ (forall x, sp m <= x -> peek m' x = peek m x).
Proof.
  intros p a m len H1 H2 H3 H4 H5 H6 H7. destruct (push_aligned p a m H1 H2 H3 H4 H5 H6 H7) as (m' & P1 & P2 & P3).
  exists m'. split; [exact P1|]. split; [exact P2|]. fold len in P1, P2, P3. rewrite P2. split; [|split].
  - intros Hm. rewrite Zminus_mod, H4, Hm. now rewrite Z.mod_0_l by lia.
  - apply peek_holds. fold len. intros x Hx. rewrite P3. now replace ((sp m - len <=? x) && (x <? sp m)) with true by lia.
  - intros x Hx. rewrite P3. now replace ((sp m - len <=? x) && (x <? sp m)) with false by lia.
Qed.
(** From any other stack pointer it does not: it stays misaligned (unless it was exactly half way), and the byte at the
    old stack pointer, the first byte of what was pushed before, is overwritten by 0. *)
Theorem push_misaligned_refuted : forall p a m, let len := Z.of_nat (length (bytes a)) in let k := alignment a in
  let r := sp m mod k in
  addr_ok (sp m) -> 0 < k -> r <> 0 -> len < 2 ^ 31 -> len mod k = 0 -> len + k <= sp m ->
  (forall x, sp m - len - k <= x <= sp m -> mapped m x) ->
  exists m' s, try_push p a m = (m', Ok s) /\ (2 * r <> k -> s mod k <> 0) /\ peek m' (sp m) = Some (BPlain 0).
Proof.
  intros p a m len k r H1 H2 H3 H4 H5 H6 H7. destruct (push_misaligned p a m H1 H2 H3 H4 H5 H6 H7) as (m' & s & P1 & P2 & P3).
  exists m', s. split; [exact P1|]. split; [|exact P3]. intros Hne. fold k r in P2. fold k. rewrite P2.
  pose proof (Z.mod_pos_bound (sp m) k H2) as Hb. fold r in Hb. intros Hz.
  destruct (Z_lt_le_dec (2 * r) k); [rewrite Z.mod_small in Hz by lia; lia|].
  replace (2 * r) with (2 * r - k + 1 * k) in Hz by lia. rewrite Z.mod_add in Hz by lia. rewrite Z.mod_small in Hz by lia. lia.
Qed.
Example push_ex :
  let push bs al m := fst (try_push Debug {| alignment := al; bytes := bs |} m) in
  let m1 := push [BPlain 5] 1 ex_mem in let m2 := push (prim_to_bytes 4 1) 4 m1 in
  sp m1 = 69631 /\ try_load 69631 m1 = Ok (BPlain 5) /\ sp m2 mod 4 = 2 /\ try_load 69631 m2 = Ok (BPlain 0).
Proof. vm_compute. repeat split. Qed.
Print Assumptions push_partial.
Print Assumptions push_misaligned_refuted.

(** C63: load and store instructions. *)
Theorem load_returns_memory : forall ptr w0 off w addr bs m, addr = ptr mod 2 ^ 32 + off -> addr_ok addr ->
  acc_size (w / 8) -> addr mod (w / 8) = 0 -> Z.of_nat (length bs) = w / 8 -> Forall byte_ok bs -> holds m addr bs ->
  (all_plain bs -> op_load (RPlain ptr w0) off w m = Ok (RPlain (bytes_value bs) w)) /\
  (all_cipher bs -> exists d, op_load (RPlain ptr w0) off w m = Ok (RCipher KL1Glwe d) /\
      Z.of_nat (length d) = 8 * (w / 8) /\ uval d = bytes_value bs).
Proof. exact op_load_ok. Qed.
Theorem load_mixed_rejected : forall ptr w0 off w addr bs m v c, addr = ptr mod 2 ^ 32 + off -> addr_ok addr ->
  acc_size (w / 8) -> addr mod (w / 8) = 0 -> Z.of_nat (length bs) = w / 8 -> holds m addr bs ->
  In (BPlain v) bs -> In (BCipher c) bs ->
  op_load (RPlain ptr w0) off w m = Err ENotPlaintext \/ op_load (RPlain ptr w0) off w m = Err ENotCiphertext.
Proof. exact op_load_mixed. Qed.
Theorem load_store_rejected : forall p src ptr w0 off w addr m, addr = ptr mod 2 ^ 32 + off -> 0 <= w ->
  (~ addr_ok addr -> op_load (RPlain ptr w0) off w m = Err EPtrOverflow /\ op_store p src (RPlain ptr w0) off w m = (m, Err EPtrOverflow)) /\
  (addr_ok addr -> ~ (acc_size (w / 8) /\ addr mod (w / 8) = 0) ->
     op_load (RPlain ptr w0) off w m = Err EUnaligned /\ op_store p src (RPlain ptr w0) off w m = (m, Err EUnaligned)).
Proof. exact op_mem_rejected. Qed.
Theorem load_store_encrypted_pointer : forall p src k d off w m,
  op_load (RCipher k d) off w m = Err EIllegalOperands /\ op_store p src (RCipher k d) off w m = (m, Err EIllegalOperands).
Proof. exact op_mem_encrypted_pointer. Qed.
Theorem store_then_load : forall p src ptr w0 w1 off w addr m, addr = ptr mod 2 ^ 32 + off -> addr_ok addr ->
  access_width w -> addr mod (w / 8) = 0 -> reg_ok src -> (reg_enc src = true -> w <= reg_width src) ->
  range_mapped m addr (w / 8) ->
  exists m' r, op_store p src (RPlain ptr w0) off w m = (m', Ok tt) /\ same_outside m m' addr (w / 8) /\
    op_load (RPlain ptr w1) off w m' = Ok r /\ reg_ok r /\ reg_width r = w /\ reg_enc r = reg_enc src /\
    reg_value r = reg_value src mod 2 ^ w.
Proof. exact load_after_store. Qed.
Theorem store_then_load_same : forall p src ptr w0 w1 off w addr m, addr = ptr mod 2 ^ 32 + off -> addr_ok addr ->
  access_width w -> addr mod (w / 8) = 0 -> reg_ok src -> reg_width src = w -> range_mapped m addr (w / 8) ->
  exists m', op_store p src (RPlain ptr w0) off w m = (m', Ok tt) /\ op_load (RPlain ptr w1) off w m' = Ok src.
Proof. exact load_store_same. Qed.
(** Widths that are not a multiple of 8 are accepted but lose the bits above the last whole byte. *)
Theorem load_store_width12_refuted : forall p v ptr w0 w1 m, ptr mod 2 ^ 32 = ptr -> mapped m ptr -> 0 <= v < 2 ^ 12 ->
  exists m', op_store p (RPlain v 12) (RPlain ptr w0) 0 12 m = (m', Ok tt) /\
    op_load (RPlain ptr w1) 0 12 m' = Ok (RPlain (v mod 256) 12).
Proof. exact load_store_odd_width. Qed.
Example load_store_ex :
  let st src w := fst (op_store Debug src (RPlain 65600 32) (-16) w ex_mem) in
  op_load (RPlain 65600 32) (-16) 32 (st (RPlain 305419896 32) 32) = Ok (RPlain 305419896 32) /\
  op_load (RPlain 65584 32) 0 8 (st (RCipher KL1Glwe [true; false; true; true; false; false; true; false]) 8) =
    Ok (RCipher KL1Glwe [true; false; true; true; false; false; true; false]) /\
  op_load (RPlain 65601 32) 0 32 ex_mem = Err EUnaligned.
Proof. vm_compute. repeat split. Qed.
Print Assumptions load_returns_memory.
Print Assumptions load_mixed_rejected.
Print Assumptions load_store_rejected.
Print Assumptions store_then_load.
Print Assumptions store_then_load_same.
Print Assumptions load_store_width12_refuted.

(** C64: values passed as arguments survive the conversion to bytes and back. *)
Theorem primitive_roundtrip : forall n v, 0 <= v < 256 ^ Z.of_nat n ->
  length (prim_to_bytes n v) = n /\ prim_try_from_bytes n (prim_to_bytes n v) = Ok v.
Proof. exact prim_roundtrip. Qed.
Theorem primitive_rejects : forall n bs,
  (length bs <> n -> prim_try_from_bytes n bs = Err EOther) /\
  (length bs = n -> (exists c, In (BCipher c) bs) -> prim_try_from_bytes n bs = Err EEncryptionMismatch).
Proof. intros n bs. split; [apply prim_wrong_size|apply prim_encrypted]. Qed.
Theorem encrypted_int_roundtrip : forall N bits e, N = (2 ^ e)%nat -> (3 <= e)%nat -> length bits = N ->
  exists bs, int_to_bytes N bits = Ok bs /\ length bs = (N / 8)%nat /\ all_cipher bs /\ int_try_from_bytes N bs = Ok bits.
Proof. exact int_roundtrip. Qed.
Theorem encrypted_int_rejects_plaintext : forall N bs v, length bs = (N / 8)%nat -> In (BPlain v) bs ->
  int_try_from_bytes N bs = Err EEncryptionMismatch.
Proof. exact int_plaintext. Qed.
Theorem array_roundtrip_partial : forall T (ty : argtype T) P xs,
  ty_ok ty P -> Forall P xs -> (0 < ty_align ty)%nat -> (0 < ty_size ty)%nat -> (ty_size ty mod ty_align ty = 0)%nat ->
  exists bs, array_to_bytes ty xs = Ok bs /\ length bs = (ty_size ty * length xs)%nat /\
    array_from_bytes ty (length xs) bs = Ok xs.
Proof. exact @array_roundtrip. Qed.
(** The size must be a multiple of the alignment: the padding that encoding adds is not removed by decoding. *)
Definition ty_u8x3_align4 : argtype Z :=
  {| ty_align := 4; ty_size := 3; ty_to_bytes := fun v => Ok (prim_to_bytes 3 v); ty_from_bytes := prim_try_from_bytes 3 |}.
Theorem array_padding_refuted : forall v, 0 <= v < 256 ^ 3 ->
  ty_ok ty_u8x3_align4 (fun v => 0 <= v < 256 ^ 3) /\
  exists bs, array_to_bytes ty_u8x3_align4 [v] = Ok bs /\ length bs = 4%nat /\ array_from_bytes ty_u8x3_align4 1 bs = Err EOther.
Proof.
  intros v Hv. split.
  - intros x Hx. destruct (prim_roundtrip 3 x Hx) as [H1 H2]. exists (prim_to_bytes 3 x). auto.
  - exists (map BPlain [v mod 256; v / 256 mod 256; v / 256 / 256 mod 256; v mod 256]). repeat split.
Qed.
Example args_roundtrip_ex :
  prim_try_from_bytes 4 (prim_to_bytes 4 305419896) = Ok 305419896 /\
  array_from_bytes {| ty_align := 2; ty_size := 2; ty_to_bytes := fun v => Ok (prim_to_bytes 2 v); ty_from_bytes := prim_try_from_bytes 2 |} 3
    (prim_to_bytes 2 1 ++ prim_to_bytes 2 515 ++ prim_to_bytes 2 7) = Ok [1; 515; 7].
Proof. vm_compute. split; reflexivity. Qed.
Print Assumptions primitive_roundtrip.
Print Assumptions encrypted_int_roundtrip.
Print Assumptions array_roundtrip_partial.
Print Assumptions array_padding_refuted.

(** C65: the program placed in memory is the program fetched. *)
Theorem program_fetched_as_written : forall p words m m' addr,
  0 < Z.of_nat (length words) * 8 <= 4294963200 -> Forall (fun w => 0 <= w < 2 ^ 64) words ->
  allocate_program p words m = (m', Ok addr) ->
  addr mod 4096 = 0 /\ 4096 <= addr /\ sp m' = sp m /\
  (forall x b, peek m x = Some b -> peek m' x = Some b) /\
  (forall i w, nth_error words i = Some w -> try_load_plaintext_dword (addr + 8 * Z.of_nat i) m' = Ok w).
Proof. exact program_fetch. Qed.
Example program_fetch_ex : snd (allocate_program Debug [1; 2 ^ 63 + 5; 77] ex_mem) = Ok 4096 /\
  try_load_plaintext_dword 4104 (fst (allocate_program Debug [1; 2 ^ 63 + 5; 77] ex_mem)) = Ok (2 ^ 63 + 5).
Proof. vm_compute. split; reflexivity. Qed.
Print Assumptions program_fetched_as_written.

(** C66: loading disjoint segments into a memory that is zero or unmapped there puts every byte of every segment in its
    place, zero-fills the rest of each segment, and changes no other mapped byte. *)
Theorem elf_segments_loaded : forall file ss m,
  Forall (seg_ok file) ss ->
  ForallOrdPairs (fun s t => disjoint (vaddr s) (memsz s) (vaddr t) (memsz t)) ss ->
  (forall s x, In s ss -> vaddr s <= x < vaddr s + memsz s -> peek m x = None \/ peek m x = Some (BPlain 0)) ->
  exists m', load_segments file ss m = (m', Ok tt) /\ sp m' = sp m /\
    (forall s k, In s ss -> 0 <= k < memsz s -> peek m' (vaddr s + k) = Some (seg_byte file s k)) /\
    (forall x, (forall s, In s ss -> ~ (vaddr s <= x < vaddr s + memsz s)) ->
       peek m' x = peek m x \/ (peek m x = None /\ peek m' x = Some (BPlain 0))).
Proof. exact load_segments_ok. Qed.
(** Memory::new gives a memory of zeros. *)
Theorem new_memory_zero : forall a n m x, addr_ok a -> 0 <= n -> mem_new a n = Ok m ->
  sp m = a + n /\ (peek m x = None \/ peek m x = Some (BPlain 0)) /\ (a <= x <= a + n -> peek m x = Some (BPlain 0)).
Proof.
  intros a n m x Ha Hn H. unfold mem_new in H. destruct (ptr_offset a n) as [s| |] eqn:Ep; try discriminate.
  assert (Hs : s = a + n /\ a + n < 2 ^ 32).
  { unfold ptr_offset in Ep. destruct (a + n <? 2 ^ 32) eqn:E; [|discriminate]. apply Ok_inj in Ep. lia. }
  unfold try_allocate_at in H. destruct (n =? 0) eqn:E0; [discriminate|]. rewrite Ep in H. apply Ok_inj in H. subst m.
  destruct Hs as [-> Hs]. unfold addr_ok in Ha. split; [apply map_missing_sp|].
  rewrite peek_map_missing. rewrite !page_id_eq by (unfold addr_ok; lia).
  change (peek {| pages := fun _ => None; sp := a + n |} x) with (@None byte). cbv iota. split.
  - match goal with |- context [if ?c then _ else _] => destruct c end; auto.
  - intros Hx. now replace ((a / 4096 <=? x / 4096) && (x / 4096 <? a / 4096 + Z.of_nat (Z.to_nat ((a + n) / 4096 + 1 - a / 4096)))) with true by lia.
Qed.
Example elf_ex :
  let m := fst (load_segments [10; 11; 12; 13; 14] [{| vaddr := 4095; memsz := 4; foffset := 1; filesz := 3 |}; {| vaddr := 8000; memsz := 2; foffset := 0; filesz := 2 |}] ex_mem) in
  load_from 4095 0 4 m = Ok (map BPlain [11; 12; 13; 0]) /\ load_from 8000 0 2 m = Ok (map BPlain [10; 11]).
Proof. vm_compute. split; reflexivity. Qed.
Print Assumptions elf_segments_loaded.
Print Assumptions new_memory_zero.

(** C67: ranges handed out by packed allocation never overlap (debug build; the sizes are bounded by the checked
    additions). *)
Theorem packed_allocations_disjoint_partial : forall reqs m l, Forall req_ok reqs ->
  packed_run Debug None reqs m = Some l -> ForallOrdPairs rdisj l.
Proof. exact packed_disjoint. Qed.
(** In a release build the addition wraps: a request close to 2^32 bytes is "served" from the remaining space. *)
Theorem packed_release_refuted :
  exists m1 e ptr1, allocation_try_allocate Release None 8 8 ex_mem = (m1, Ok (e, ptr1)) /\
  exists e2, allocation_try_allocate Release (Some e) 4294963200 8 m1 = (m1, Err EOutOfMemory) /\
    allocation_try_allocate Release (Some e) 4294967292 8 m1 = (m1, Ok (e2, 4104)) /\
    ~ mapped m1 12288.
Proof.
  eexists. eexists. eexists. split; [vm_compute; reflexivity|]. eexists. split; [vm_compute; reflexivity|].
  split; [vm_compute; reflexivity|]. vm_compute. tauto.
Qed.
Example packed_ex : packed_run Debug None [(8, 8); (12, 4); (100, 16)] ex_mem = Some [(4096, 8); (4104, 12); (8192, 100)].
Proof. vm_compute. reflexivity. Qed.
Print Assumptions packed_allocations_disjoint_partial.
Print Assumptions packed_release_refuted.
