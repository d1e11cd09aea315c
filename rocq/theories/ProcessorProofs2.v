(** Proofs: an instruction reads and writes memory only at the addresses of its footprint. *)
From Coq Require Import ZifyBool ZifyNat.
From Verif Require Import Base Alu Memory Isa SpecMem MemoryProofs MemoryProofs6 Processor.
Open Scope Z_scope.

Definition agree_on (foot : list Z) (m1 m2 : mem) : Prop := forall a, In a foot -> peek m1 a = peek m2 a.

Lemma load_plain_rest_local m1 m2 n : forall addr i acc, 0 <= addr -> 0 <= i -> addr + i + Z.of_nat n <= 2 ^ 32 ->
  (forall x, addr + i <= x < addr + i + Z.of_nat n -> peek m1 x = peek m2 x) -> load_plain_rest addr i n m1 acc = load_plain_rest addr i n m2 acc.
Proof.
  induction n as [|n IH]; intros addr i acc H1 H2 H3 H; cbn [load_plain_rest]; [auto|]. unfold ptr_offset. destruct (addr + i <? 2 ^ 32) eqn:E; cbn [unwrap bind]; [|lia].
  rewrite !try_load_peek by (unfold addr_ok; lia). rewrite (H (addr + i)) by lia. destruct (peek m2 (addr + i)) as [b|]; cbn [bind]; [|auto]. destruct b; [|auto].
  apply IH; try lia. intros x Hx. apply H. lia.
Qed.
Lemma load_cipher_rest_local m1 m2 n : forall addr i acc, 0 <= addr -> 0 <= i -> addr + i + Z.of_nat n <= 2 ^ 32 ->
  (forall x, addr + i <= x < addr + i + Z.of_nat n -> peek m1 x = peek m2 x) -> load_cipher_rest addr i n m1 acc = load_cipher_rest addr i n m2 acc.
Proof.
  induction n as [|n IH]; intros addr i acc H1 H2 H3 H; cbn [load_cipher_rest]; [auto|]. unfold ptr_offset. destruct (addr + i <? 2 ^ 32) eqn:E; cbn [unwrap bind]; [|lia].
  rewrite !try_load_peek by (unfold addr_ok; lia). rewrite (H (addr + i)) by lia. destruct (peek m2 (addr + i)) as [b|]; cbn [bind]; [|auto]. destruct b; [auto|].
  apply IH; try lia. intros x Hx. apply H. lia.
Qed.
Lemma load_plain_from_local m1 m2 n : forall addr i, 0 <= addr -> 0 <= i ->
  (forall x, addr + i <= x < addr + i + Z.of_nat n -> addr_ok x -> peek m1 x = peek m2 x) -> load_plain_from addr i n m1 = load_plain_from addr i n m2.
Proof.
  induction n as [|n IH]; intros addr i H1 H2 H; cbn [load_plain_from]; [auto|]. unfold ptr_offset. destruct (addr + i <? 2 ^ 32) eqn:E; cbn [bind]; [|auto].
  unfold try_load_plaintext_byte. rewrite !try_load_peek by (unfold addr_ok; lia). rewrite (H (addr + i)) by (unfold addr_ok; lia). rewrite (IH addr (i + 1)) by (try lia; intros x Hx A; apply H; auto; lia). auto.
Qed.
Lemma load_from_local m1 m2 n : forall addr i, 0 <= addr -> 0 <= i ->
  (forall x, addr + i <= x < addr + i + Z.of_nat n -> addr_ok x -> peek m1 x = peek m2 x) -> load_from addr i n m1 = load_from addr i n m2.
Proof.
  induction n as [|n IH]; intros addr i H1 H2 H; cbn [load_from]; [auto|]. unfold ptr_offset. destruct (addr + i <? 2 ^ 32) eqn:E; cbn [bind]; [|auto].
  rewrite !try_load_peek by (unfold addr_ok; lia). rewrite (H (addr + i)) by (unfold addr_ok; lia). rewrite (IH addr (i + 1)) by (try lia; intros x Hx A; apply H; auto; lia). auto.
Qed.
Lemma fetch_local m1 m2 pc : 0 <= pc -> (forall x, pc <= x < pc + 8 -> peek m1 x = peek m2 x) -> fetch m1 pc = fetch m2 pc.
Proof. intros H A. unfold fetch, try_load_plaintext_dword. rewrite (load_plain_from_local m1 m2 8%nat pc 0) by (try lia; intros x Hx _; apply A; lia). auto. Qed.

Lemma store_bytes_local p src m1 m2 n : forall addr i, 0 <= addr -> 0 <= i -> addr + i + Z.of_nat n <= 2 ^ 32 ->
  (forall x, addr + i <= x < addr + i + Z.of_nat n -> peek m1 x = peek m2 x) ->
  snd (store_bytes p src addr i n m1) = snd (store_bytes p src addr i n m2) /\
  (forall x, peek m1 x = peek m2 x -> peek (fst (store_bytes p src addr i n m1)) x = peek (fst (store_bytes p src addr i n m2)) x).
Proof.
  intros addr i. revert m1 m2 i. induction n as [|n IH]; intros m1 m2 i H1 H2 H3 H; cbn [store_bytes]; unfold mbind, mres, mret; cbn [fst snd]; [auto|].
  destruct (store_byte_of p src i) as [b|e|]; cbn [fst snd]; [|auto|auto].
  unfold ptr_offset. destruct (addr + i <? 2 ^ 32) eqn:E; cbn [unwrap]; [|lia].
  assert (A : addr_ok (addr + i)) by (unfold addr_ok; lia). pose proof (H (addr + i) ltac:(lia)) as P.
  destruct (try_store_peek (addr + i) b m1 A) as [(N1 & E1)|(N1 & m1' & E1 & _ & S1)]; destruct (try_store_peek (addr + i) b m2 A) as [(N2 & E2)|(N2 & m2' & E2 & _ & S2)];
    try congruence; rewrite E1, E2; cbn [fst snd]; [auto|].
  destruct (IH m1' m2' (i + 1)) as [I1 I2]; try lia.
  - intros x Hx. rewrite S1, S2. destruct (x =? addr + i); [auto|]. apply H. lia.
  - split; [auto|]. intros x Hx. apply I2. rewrite S1, S2. destruct (x =? addr + i); auto.
Qed.
Lemma store_bytes_outside p src n : forall m addr i x, 0 <= addr -> 0 <= i -> addr + i + Z.of_nat n <= 2 ^ 32 -> ~ (addr + i <= x < addr + i + Z.of_nat n) ->
  peek (fst (store_bytes p src addr i n m)) x = peek m x.
Proof.
  induction n as [|n IH]; intros m addr i x H1 H2 H3 H; cbn [store_bytes]; unfold mbind, mres, mret; cbn [fst snd]; [auto|].
  destruct (store_byte_of p src i) as [b|e|]; cbn [fst snd]; [|auto|auto].
  unfold ptr_offset. destruct (addr + i <? 2 ^ 32) eqn:E; cbn [unwrap]; [|lia].
  assert (A : addr_ok (addr + i)) by (unfold addr_ok; lia).
  destruct (try_store_peek (addr + i) b m A) as [(N1 & E1)|(N1 & m1' & E1 & _ & S1)]; rewrite E1; cbn [fst snd]; [auto|].
  rewrite IH by lia. rewrite S1. replace (x =? addr + i) with false by lia. auto.
Qed.

Definition span (addr n : Z) : list Z := map (fun k => addr + Z.of_nat k) (seq 0 (Z.to_nat n)).
Lemma span_in addr n x : In x (span addr n) <-> addr <= x < addr + n.
Proof. unfold span. rewrite in_map_iff. split; [intros (k & <- & H); apply in_seq in H; lia|]. intros H. exists (Z.to_nat (x - addr)). rewrite in_seq. lia. Qed.
Lemma mapM_map {A B} (f : A -> res B) (g : A -> B) l : (forall x, In x l -> f x = Ok (g x)) -> mapM f l = Ok (map g l).
Proof. induction l as [|a l IH]; intros H; cbn [mapM map]; [auto|]. rewrite H by now left. cbn [bind]. rewrite IH by (intros; apply H; now right). reflexivity. Qed.

(** Where a load or store goes. *)
Inductive place := PlNone | PlAt (addr n : Z) | PlErr (e : err) | PlPanic.
Definition target (ptr : reg) (w off : Z) : place :=
  match ptr with
  | RPlain v _ => match ptr_signed_offset (uwrap 32 v) off with Ok addr => if invalid_alignment addr (w / 8) then PlErr EUnaligned else PlAt addr (w / 8) | Err e => PlErr e | Panic => PlPanic end
  | RCipher _ _ => PlErr EIllegalOperands
  end.
Lemma align_bound a n : addr_ok a -> invalid_alignment a n = false -> 0 < n /\ a + n <= 2 ^ 32.
Proof.
  intros A H. assert (N : 0 <= n). { unfold invalid_alignment, is_pow2 in H. destruct (n =? 0) eqn:E; [lia|]. destruct (0 <? n) eqn:E'; [lia|]. cbn in H. rewrite orb_true_r in H. discriminate. }
  apply valid_alignment in H as [S M]; [|auto]. split; [destruct S as [->|[->|[->|[->| ->]]]]; lia|]. now apply acc_bound.
Qed.
Lemma signed_offset_ok a v r : ptr_signed_offset a v = Ok r -> r = a + v /\ addr_ok r.
Proof. unfold ptr_signed_offset, addr_ok. destruct ((0 <=? a + v) && (a + v <? 2 ^ 32)) eqn:E; intros H; [apply Ok_inj in H; subst; lia|discriminate]. Qed.
Lemma target_at ptr w off addr n : target ptr w off = PlAt addr n -> n = w / 8 /\ 0 < n /\ 0 <= addr /\ addr + n <= 2 ^ 32 /\ invalid_alignment addr n = false /\ exists v x, ptr = RPlain v x /\ ptr_signed_offset (uwrap 32 v) off = Ok addr.
Proof.
  unfold target. destruct ptr as [v x|]; [|discriminate]. destruct (ptr_signed_offset (uwrap 32 v) off) as [a|e|] eqn:E; [|discriminate|discriminate].
  destruct (invalid_alignment a (w / 8)) eqn:I; [discriminate|]. intros H. injection H as <- <-. pose proof (signed_offset_ok _ _ _ E) as [_ A].
  destruct (align_bound _ _ A I) as [B1 B2]. unfold addr_ok in A. repeat split; auto; try lia. exists v, x. auto.
Qed.
Lemma span_mapM addr n : 0 <= addr -> 0 < n -> addr + n <= 2 ^ 32 -> mapM (fun k => unwrap (ptr_offset addr (Z.of_nat k))) (seq 0 (Z.to_nat n)) = Ok (span addr n).
Proof.
  intros H1 H2 H3. unfold span. apply mapM_map. intros k H. apply in_seq in H. unfold ptr_offset. destruct (addr + Z.of_nat k <? 2 ^ 32) eqn:E; [reflexivity|lia].
Qed.
Definition place_foot (t : place) : res (list Z) := match t with PlNone => Ok [] | PlAt a n => Ok (span a n) | PlErr e => Err e | PlPanic => Panic end.
Definition place_of (i : instr) (srcs : list reg) : place :=
  match op i, srcs, metas i with OLoad, [s], [w; off] => target s w off | OStore, [d; _], [w; off] => target d w off | _, _, _ => PlNone end.
Lemma target_go ptr w off : match ptr with
    | RPlain v _ => addr <- ptr_signed_offset (uwrap 32 v) off ;; if invalid_alignment addr (w / 8) then Err EUnaligned else mapM (fun k => unwrap (ptr_offset addr (Z.of_nat k))) (seq 0 (Z.to_nat (w / 8)))
    | RCipher _ _ => Err EIllegalOperands end = place_foot (target ptr w off).
Proof.
  destruct (target ptr w off) as [|a n|e|] eqn:T; unfold target in T.
  - destruct ptr; [|discriminate]. destruct (ptr_signed_offset _ _); [destruct (invalid_alignment _ _)| |]; discriminate.
  - pose proof (target_at ptr w off a n T) as (-> & N & A & B & I & v & x & -> & E). rewrite E. cbn [bind place_foot]. rewrite I. now apply span_mapM.
  - destruct ptr as [v x|]; [|injection T as <-; reflexivity]. destruct (ptr_signed_offset _ _) as [a|e'|]; cbn [bind place_foot]; [destruct (invalid_alignment a (w / 8))| |]; try discriminate; injection T as <-; reflexivity.
  - destruct ptr as [v x|]; [|discriminate]. destruct (ptr_signed_offset _ _) as [a|e'|]; cbn [bind place_foot]; [destruct (invalid_alignment a (w / 8)); discriminate|discriminate|reflexivity].
Qed.
Lemma footprint_place i srcs : footprint i srcs = place_foot (place_of i srcs).
Proof.
  unfold footprint, place_of. destruct (op i) eqn:O; try reflexivity; repeat (destruct srcs as [|? srcs]; try reflexivity);
    destruct (metas i) as [|w [|off [|? ?]]]; try reflexivity; apply target_go.
Qed.

Lemma op_load_local s off w m1 m2 foot : place_foot (target s w off) = Ok foot -> agree_on foot m1 m2 -> op_load s off w m1 = op_load s off w m2.
Proof.
  intros F A. destruct (target s w off) as [|addr n| |] eqn:T; try discriminate.
  { unfold target in T. destruct s; [|discriminate]. destruct (ptr_signed_offset _ _); [destruct (invalid_alignment _ _)| |]; discriminate. }
  apply Ok_inj in F. subst foot. apply target_at in T as (-> & N & A1 & B & I & v & x & -> & E). unfold op_load. rewrite E. cbn [bind]. rewrite I.
  assert (P : forall y, addr <= y < addr + w / 8 -> peek m1 y = peek m2 y) by (intros y Hy; apply A, span_in; auto).
  rewrite !try_load_peek by (unfold addr_ok; lia). rewrite (P addr) by lia. destruct (peek m2 addr) as [b|]; cbn [bind]; [|auto]. destruct b as [c|c].
  - rewrite (load_plain_rest_local m1 m2) by (try lia; intros y Hy; apply P; lia). auto.
  - rewrite (load_cipher_rest_local m1 m2) by (try lia; intros y Hy; apply P; lia). auto.
Qed.
Lemma op_store_local p src d off w m1 m2 foot : place_foot (target d w off) = Ok foot -> agree_on foot m1 m2 ->
  snd (op_store p src d off w m1) = snd (op_store p src d off w m2) /\
  (forall x, peek m1 x = peek m2 x -> peek (fst (op_store p src d off w m1)) x = peek (fst (op_store p src d off w m2)) x) /\
  (forall x, ~ In x foot -> peek (fst (op_store p src d off w m1)) x = peek m1 x).
Proof.
  intros F A. destruct (target d w off) as [|addr n| |] eqn:T; try discriminate.
  { unfold target in T. destruct d; [|discriminate]. destruct (ptr_signed_offset _ _); [destruct (invalid_alignment _ _)| |]; discriminate. }
  apply Ok_inj in F. subst foot. apply target_at in T as (-> & N & A1 & B & I & v & x & -> & E). unfold op_store. rewrite E. unfold mbind, mres. rewrite I.
  assert (P : forall y, addr <= y < addr + w / 8 -> peek m1 y = peek m2 y) by (intros y Hy; apply A, span_in; auto).
  destruct (store_bytes_local p src m1 m2 (Z.to_nat (w / 8)) addr 0) as [S1 S2]; try lia; [intros y Hy; apply P; lia|].
  split; [auto|]. split; [auto|]. intros y Hy. rewrite span_in in Hy. apply store_bytes_outside; lia.
Qed.

(** The instruction does not touch memory, or touches it at its footprint only. *)
Definition local (c : M (list reg)) (foot : list Z) : Prop := forall m1 m2, agree_on foot m1 m2 ->
  snd (c m1) = snd (c m2) /\ (forall x, peek m1 x = peek m2 x -> peek (fst (c m1)) x = peek (fst (c m2)) x) /\ (forall x, ~ In x foot -> peek (fst (c m1)) x = peek m1 x).
Lemma local_res r foot : local (mres r) foot.
Proof. intros m1 m2 A. cbn. auto. Qed.
Lemma local_ret r foot : local (mret r) foot.
Proof. intros m1 m2 A. cbn. auto. Qed.
Lemma local_one r foot : local (one_dst r) foot.
Proof. apply local_res. Qed.
Lemma local_two r foot : local (two_dst r) foot.
Proof. apply local_res. Qed.
Lemma local_mbind_ret {A} (c : M A) (g : A -> list reg) foot :
  (forall m1 m2, agree_on foot m1 m2 -> snd (c m1) = snd (c m2) /\ (forall x, peek m1 x = peek m2 x -> peek (fst (c m1)) x = peek (fst (c m2)) x) /\ (forall x, ~ In x foot -> peek (fst (c m1)) x = peek m1 x)) ->
  local (mbind c (fun x => mret (g x))) foot.
Proof.
  intros H m1 m2 Ag. destruct (H m1 m2 Ag) as (H1 & H2 & H3). unfold mbind. destruct (c m1) as [m1' r1]; destruct (c m2) as [m2' r2]; cbn [fst snd] in *. subst r2. destruct r1; cbn; auto.
Qed.
Lemma exec_local p i vals foot : footprint i vals = Ok foot -> local (exec_instr p i vals) foot.
Proof.
  rewrite footprint_place. intros F. unfold exec_instr, place_of in *. destruct (op i) eqn:O;
    repeat match goal with |- local (match ?x with _ => _ end) _ => is_var x; destruct x end;
    try solve [apply local_res|apply local_ret|apply local_one|apply local_two];
    destruct (metas i) as [|w [|off [|? ?]]]; try solve [apply local_res|apply local_ret|apply local_one|apply local_two].
  - destruct (src_regs i) as [|a [|b [|? ?]]]; try apply local_res. destruct (a =? b); [apply local_res|]. apply local_mbind_ret. intros m1 m2 A. eapply op_store_local; eauto.
  - apply local_mbind_ret. intros m1 m2 A. cbn [mread fst snd]. split; [eapply op_load_local; eauto|auto].
Qed.

(** A bad address makes the instruction fail when it is executed as well. *)
Lemma target_err s w off e : target s w off = PlErr e -> forall p src m, op_load s off w m = Err e /\ op_store p src s off w m = (m, Err e).
Proof.
  unfold target, op_load, op_store, mbind, mres. intros T p src m. destruct s as [v x|]; [|injection T as <-; auto].
  destruct (ptr_signed_offset _ _) as [a|e'|]; cbn [bind]; [destruct (invalid_alignment a (w / 8)); [injection T as <-; auto|discriminate]|injection T as <-; auto|discriminate].
Qed.
Lemma exec_bad p i vals e : footprint i vals = Err e -> forall m, exists r, exec_instr p i vals m = (m, r) /\ (r = Err e \/ r = Panic).
Proof.
  rewrite footprint_place. unfold place_of. intros F m. unfold exec_instr. destruct (op i) eqn:O; try discriminate;
    repeat (destruct vals as [|? vals]; try discriminate); destruct (metas i) as [|w [|off [|? ?]]]; try discriminate; cbn [place_foot] in F.
  all: match type of F with place_foot (target ?s ?w ?off) = _ => destruct (target s w off) as [| |e'|] eqn:T; try discriminate; cbn [place_foot] in F end.
  all: injection F as <-; pose proof (target_err _ _ _ _ T) as E.
  - destruct (src_regs i) as [|a [|b [|? ?]]]; try solve [eexists; split; [reflexivity|auto]]. destruct (a =? b); [eexists; split; [reflexivity|auto]|].
    unfold mbind. destruct (E p r0 m) as [_ ->]. eauto.
  - unfold mbind, mread. destruct (E p r m) as [-> _]. eauto.
Qed.
Lemma exec_ok_foot p i vals m m' vs : exec_instr p i vals m = (m', Ok vs) -> (exists foot, footprint i vals = Ok foot) \/ footprint i vals = Panic.
Proof.
  intros E. destruct (footprint i vals) as [foot|e|] eqn:F; eauto. destruct (exec_bad p i vals e F m) as (r & R & [->| ->]); congruence.
Qed.
(** The address depends on the address register only. *)
Lemma footprint_first i v1 v2 : length v1 = length v2 -> (match op i with OLoad | OStore => firstn 1 v1 = firstn 1 v2 | _ => True end) -> footprint i v1 = footprint i v2.
Proof.
  intros L H. rewrite !footprint_place. f_equal. unfold place_of. destruct (op i); auto;
    destruct v1 as [|a v1]; destruct v2 as [|b v2]; try discriminate; auto; cbn [firstn] in H; injection H as ->; cbn [length] in L;
    destruct v1 as [|c v1]; destruct v2 as [|d v2]; try discriminate; auto. cbn [length] in L.
  destruct v1; destruct v2; try discriminate; auto.
Qed.
Lemma next_pc_cond p i v1 v2 pc : (match op i with OBranchNonZero | OBranchZero => v1 = v2 | _ => True end) -> next_pc p i v1 pc = next_pc p i v2 pc.
Proof. intros H. unfold next_pc. destruct (op i); try subst v2; auto; destruct v1; destruct v2; auto. Qed.
