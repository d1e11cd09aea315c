(** Properties C99 (scratch buffers) and C100 (strided iteration). *)
From Coq Require Import Permutation.
From Verif Require Import Base Scratch SpecScratch ScratchProofs Dst SpecDst DstProofs.
Open Scope Z_scope.

(** * C99: scratch buffers behave as private arrays *)

(** Whatever history of allocations, drops, loads and stores, in whatever order buffers are given back: no step reads or writes outside its
    heap block, and every load returns what the holder of the buffer last stored there. *)
Theorem scratch_buffers_private : forall p limit simd os,
  possible p limit [] os ->
  fst (sc_run p limit simd scratch_new os) <> SUndefined /\ answers [] os (snd (sc_run p limit simd scratch_new os)).
Proof. intros p limit simd os H. destruct (run_ok p limit simd os scratch_new [] (inv_new _ _) H) as (A & B & _). auto. Qed.
Print Assumptions scratch_buffers_private.

(** A history that asks for no more memory than there is and stays inside its buffers is never refused. *)
Theorem scratch_never_refuses : forall p limit simd os,
  possible p limit [] os -> within limit [] os -> exists s r, fst (sc_run p limit simd scratch_new os) = SOk s r.
Proof. intros p limit simd os H W. apply (run_available p limit simd os scratch_new [] (inv_new _ _)); try assumption. intros k y Hk. discriminate. Qed.
Print Assumptions scratch_never_refuses.

(** After any history: every held buffer sits in a heap block of its own, large enough and aligned for the element type (and for vector
    instructions), and there are never more blocks than the largest number of buffers held at one time. *)
Theorem scratch_blocks : forall p limit simd os s r,
  possible p limit [] os -> fst (sc_run p limit simd scratch_new os) = SOk s r ->
  map fst (s_live s) = map fst (v_run [] os) /\
  (forall k v, assoc (v_run [] os) k = Some v -> exists f b,
     assoc (s_live s) k = Some f /\ f_count f = v_count v /\ f_size f = v_size v /\ assoc (s_heap s) (f_block f) = Some b /\
     simd <= b_align b /\ v_align v <= b_align b /\ (v_count v * v_size v < 2 ^ 64 -> v_count v * v_size v <= b_len b)) /\
  (forall i j f g, nth_error (s_live s) i = Some f -> nth_error (s_live s) j = Some g -> i <> j -> f_block (snd f) <> f_block (snd g)) /\
  (length (s_heap s) <= most_held [] os)%nat.
Proof.
  intros p limit simd os s r H E. destruct (run_ok p limit simd os scratch_new [] (inv_new _ _) H) as (_ & _ & R). destruct (R s r E) as [I0 L].
  split; [apply (agree_names _ _ _ _ _ (inv_agree _ _ _ _ I0))|]. split; [|split; [|cbn [scratch_new s_heap length] in L; lia]].
  - intros k v Hk. destruct (agree_assoc _ _ _ _ _ _ _ (inv_agree _ _ _ _ I0) Hk) as (f & Ef & Hag).
    destruct Hag as (_ & G1 & G2 & G3 & G4 & b & Gb & G5 & G6 & G7 & G8). cbn [fst snd] in *. exists f, b. repeat split; try assumption; try lia.
  - intros i j f g Hi Hj NE Q. assert (ND : NoDup (blocks (s_live s))).
    { eapply nodup_app_r. eapply Permutation_NoDup; [apply (inv_perm _ _ _ _ I0)|apply (inv_nd _ _ _ _ I0)]. }
    apply NE. apply (proj1 (NoDup_nth_error (blocks (s_live s))) ND).
    + unfold blocks. rewrite map_length. apply nth_error_Some. congruence.
    + unfold blocks. rewrite !nth_error_map, Hi, Hj. cbn. f_equal. exact Q.
Qed.
Print Assumptions scratch_blocks.

(** A fresh buffer is not cleared: it can show its holder what another holder stored (here 7, through a buffer given back before). *)
Theorem scratch_zeroed_refuted : forall p limit simd, 8 <= limit -> limit * 8 < 2 ^ 64 -> exists os,
  possible p limit [] os /\ within limit [] os /\
  snd (sc_run p limit simd scratch_new os) = [None; None; None; None; Some 7].
Proof.
  intros p limit simd HL HL2. exists [SAlloc 0 8 8 1; SStore 0 0 3 7; SDrop 0; SAlloc 1 8 8 1; SLoad 1 0 3].
  split; [|split].
  - cbn. repeat split; try lia; try (right; exact HL2); try discriminate; eexists; (split; [reflexivity|cbn; lia]).
  - cbn. repeat split; try lia; eexists; (split; [reflexivity|cbn; lia]).
  - assert (L : limit <? 8 = false) by lia. cbn. unfold new_block at 1. rewrite L. cbn. rewrite Z.ltb_irrefl. cbn. reflexivity.
Qed.
Print Assumptions scratch_zeroed_refuted.

(** A concrete history: two buffers at once, given back in the order they were taken, then a larger one. *)
Definition ex_history : list sop :=
  [SAlloc 0 8 8 2; SAlloc 1 16 8 4; SStore 0 1 7 11; SStore 1 1 7 12; SLoad 0 1 7; SDrop 0; SLoad 1 1 7; SDrop 1; SAlloc 2 4 4 1000; SStore 2 999 3 5; SLoad 2 999 3].
Example ex_scratch : possible Release (2 ^ 40) [] ex_history /\ within (2 ^ 40) [] ex_history /\
  snd (sc_run Release (2 ^ 40) 64 scratch_new ex_history) = [None; None; None; None; Some 11; None; Some 12; None; None; None; Some 5].
Proof.
  split; [|split; [|vm_compute; reflexivity]]; cbn; repeat split; try lia; try discriminate; eexists; (split; [reflexivity|cbn; lia]).
Qed.

(** * C100: strided iteration *)

(** Walking a list from both ends in any order hands out exactly its elements, each once, in order from each end, and then nothing for ever. *)
Theorem strided_iteration : forall A stride (data : list A) cs ops,
  0 < stride -> elements stride data cs ->
  exists it it', iter_new data stride = Ok it /\ iter_run data it ops = Ok (it', fst (take_ends cs ops)).
Proof. intros. apply iter_run_new; assumption. Qed.
Print Assumptions strided_iteration.

(** A slice that is not a whole number of elements is refused. *)
Theorem strided_iteration_refused : forall A stride (data : list A),
  0 <= stride -> (forall cs, ~ elements stride data cs) -> iter_new data stride = Panic.
Proof. intros. apply iter_new_panics; assumption. Qed.
Print Assumptions strided_iteration_refused.

(** The same for mutable iteration, in terms of where each element starts; in a debug build only when there is at least one element. *)
Theorem strided_iteration_mut : forall p stride n ops,
  0 < stride -> stride < 2 ^ 63 -> stride * Z.of_nat n < 2 ^ 63 -> (p = Release \/ (0 < n)%nat) ->
  exists it it', miter_new p (stride * Z.of_nat n) stride = Ok it /\
    miter_run it ops = (it', fst (take_ends (starts stride n) ops)) /\
    miter_len it = Z.of_nat n /\ miter_len it' = Z.of_nat (length (snd (take_ends (starts stride n) ops))).
Proof.
  intros p s n ops Hs Hs2 Hn Hp. destruct (miter_run_ok s n ops Hs 0 n ltac:(lia)) as (a & b & H1 & H2 & H3 & H4).
  replace (window (starts s n) 0 n) with (starts s n) in H3, H4 by (rewrite <- (window_all (starts s n)) at 1; rewrite starts_len; reflexivity).
  exists (mstate s 0 n), (mstate s a b). split; [apply miter_new_ok; assumption|]. split; [exact H3|]. split.
  - rewrite miter_len_ok by (try assumption; lia). f_equal. lia.
  - rewrite miter_len_ok by (try assumption; lia). rewrite H4. rewrite window_len by (rewrite starts_len; lia). reflexivity.
Qed.
Print Assumptions strided_iteration_mut.

(** Mutable references handed out by one iterator never overlap and never leave the slice, whatever ends they are taken from. *)
Lemma take_ends_sub {X} (ops : list side) : forall l : list X, NoDup l ->
  NoDup (concat (map (fun o => match o with Some x => [x] | None => [] end) (fst (take_ends l ops)))) /\
  (forall x, In (Some x) (fst (take_ends l ops)) -> In x l).
Proof.
  induction ops as [|o ops IH]; intros l ND; [cbn; split; [constructor|intros x []]|].
  assert (G : forall (x : X) l', ~ In x l' -> NoDup l' -> (forall z, In z l' -> In z l) -> In x l ->
    NoDup (concat (map (fun o => match o with Some x => [x] | None => [] end) (Some x :: fst (take_ends l' ops)))) /\
    (forall z, In (Some z) (Some x :: fst (take_ends l' ops)) -> In z l)).
  { intros x l' N1 N2 N3 N4. destruct (IH l' N2) as [I1 I2]. split.
    - cbn [map concat app]. constructor; [|exact I1]. intros Hin. apply in_concat in Hin as (c & Hc & Hx). apply in_map_iff in Hc as (o' & Ho & Hin).
      destruct o' as [z|]; subst c; [|destruct Hx]. destruct Hx as [->|[]]. apply N1, I2; exact Hin.
    - intros z [Hz|Hz]; [inversion Hz; subst; exact N4|apply N3, I2; exact Hz]. }
  destruct o; cbn [take_ends].
  - destruct l as [|x l'].
    + destruct (IH [] ND) as [I1 I2]. destruct (take_ends [] ops) as [q e]. cbn [fst map concat app] in *. split; [exact I1|]. intros x [Hx|Hx]; [discriminate|auto].
    + inversion ND; subst. specialize (G x l' H1 H2 (fun z Hz => or_intror Hz) (or_introl eq_refl)).
      destruct (take_ends l' ops) as [q e]. exact G.
  - destruct (rev l) as [|x l'] eqn:E.
    + assert (l = []) by (rewrite <- (rev_involutive l), E; reflexivity). subst.
      destruct (IH [] ND) as [I1 I2]. destruct (take_ends [] ops) as [q e]. cbn [fst map concat app] in *. split; [exact I1|]. intros x [Hx|Hx]; [discriminate|auto].
    + assert (EL : l = rev l' ++ [x]) by (rewrite <- (rev_involutive l), E; reflexivity).
      assert (ND2 : NoDup (x :: rev l')) by (eapply Permutation_NoDup; [|exact ND]; rewrite EL; symmetry; apply Permutation_cons_append).
      inversion ND2; subst. specialize (G x (rev l') H1 H2).
      assert (T1 : forall z, In z (rev l') -> In z (rev l' ++ [x])) by (intros; apply in_or_app; auto).
      specialize (G T1 ltac:(apply in_or_app; right; left; reflexivity)).
      destruct (take_ends (rev l') ops) as [q e]. exact G.
Qed.

Theorem strided_iteration_mut_disjoint : forall p stride n ops it,
  0 < stride -> stride < 2 ^ 63 -> stride * Z.of_nat n < 2 ^ 63 -> miter_new p (stride * Z.of_nat n) stride = Ok it ->
  let handed := concat (map (fun o => match o with Some x => [x] | None => [] end) (snd (miter_run it ops))) in
  (forall i a, nth_error handed i = Some a -> 0 <= a /\ a + stride <= stride * Z.of_nat n) /\
  (forall i j a b, nth_error handed i = Some a -> nth_error handed j = Some b -> i <> j -> a + stride <= b \/ b + stride <= a).
Proof.
  intros p s n ops it Hs Hs2 Hn Hnew handed.
  assert (Hp : p = Release \/ (0 < n)%nat).
  { destruct p; [right|left; reflexivity]. destruct n; [|lia]. unfold miter_new in Hnew. rewrite Z.mul_0_r, Z.mod_0_l in Hnew by lia.
    replace (s =? 0) with false in Hnew by lia. cbn [Z.eqb] in Hnew. unfold usub in Hnew. rewrite (proj2 (Z.leb_gt s 0)) in Hnew by lia. discriminate. }
  destruct (strided_iteration_mut p s n ops Hs Hs2 Hn Hp) as (it0 & it' & H1 & H2 & _). rewrite H1 in Hnew. inversion Hnew; subst it0.
  unfold handed. rewrite H2. cbn [snd]. clear handed.
  assert (NDs : NoDup (starts s n)).
  { unfold starts. apply FinFun.Injective_map_NoDup; [|apply seq_NoDup]. intros x y Hxy. nia. }
  destruct (take_ends_sub ops (starts s n) NDs) as [T1 T2]. set (h := concat _) in *.
  assert (T3 : forall a, In a h -> exists k, (k < n)%nat /\ a = Z.of_nat k * s).
  { intros a Ha. unfold h in Ha. apply in_concat in Ha as (c & Hc & Hx). apply in_map_iff in Hc as (o' & Ho & Hin).
    destruct o' as [z|]; subst c; [|destruct Hx]. destruct Hx as [->|[]]. apply T2 in Hin. unfold starts in Hin. apply in_map_iff in Hin as (k & Hk & Hin).
    apply in_seq in Hin. exists k. split; [lia|auto]. }
  split.
  - intros i a Ha. destruct (T3 a (nth_error_In _ _ Ha)) as (k & Hk & ->). nia.
  - intros i j a b Ha Hb NE. destruct (T3 a (nth_error_In _ _ Ha)) as (k & Hk & Ek). destruct (T3 b (nth_error_In _ _ Hb)) as (k' & Hk' & Ek').
    assert (k <> k'). { intros ->. apply NE. apply (proj1 (NoDup_nth_error h) T1); [apply nth_error_Some; congruence|congruence]. }
    subst a b. destruct (Nat.lt_ge_cases k k'); [left|right]; nia.
Qed.
Print Assumptions strided_iteration_mut_disjoint.

(** Parallel iteration: however the thread pool cuts the work, the pieces together hold exactly the elements, in order. *)
Theorem parallel_iteration : forall A stride (data : list A) cs t,
  0 < stride -> elements stride data cs -> cuts_ok t (Z.of_nat (length cs)) ->
  exists pr, prod_new (Z.of_nat (length data)) stride = Ok pr /\ par_iter data pr t = Ok cs.
Proof.
  intros A s data cs t Hs He Hc. exists (piece s 0 (length cs)). split.
  - unfold prod_new. replace (s =? 0) with false by lia. rewrite (elements_len _ _ _ He). rewrite Z.mod_mul by lia. rewrite Z.div_mul by lia. cbn [Z.eqb].
    unfold piece. rewrite Nat.sub_0_r. f_equal.
  - rewrite (par_iter_ok s data cs t Hs He 0 (length cs)); [rewrite window_all; reflexivity|lia|rewrite Nat.sub_0_r; exact Hc].
Qed.
Print Assumptions parallel_iteration.

(** Mutable parallel iteration: the pieces together hand out every element's position exactly once. In a debug build, when no piece is empty. *)
Theorem parallel_iteration_mut : forall p stride n t,
  0 < stride -> stride < 2 ^ 63 -> stride * Z.of_nat n < 2 ^ 63 ->
  (p = Release /\ cuts_ok t (Z.of_nat n)) \/ ((0 < n)%nat /\ cuts_inside t (Z.of_nat n)) ->
  exists pr, prod_new (stride * Z.of_nat n) stride = Ok pr /\ par_miter p pr t = Ok (starts stride n).
Proof.
  intros p s n t Hs Hs2 Hn Hc. exists (piece s 0 n). split.
  - unfold prod_new. replace (s =? 0) with false by lia. rewrite (Z.mul_comm s), Z.mod_mul by lia. rewrite Z.div_mul by lia. cbn [Z.eqb].
    unfold piece. rewrite Nat.sub_0_r. f_equal.
  - rewrite (par_miter_ok p s n t Hs Hs2 Hn 0 n); rewrite ?Nat.sub_0_r; try lia.
    + f_equal. rewrite <- (window_all (starts s n)) at 2. rewrite starts_len. reflexivity.
    + destruct Hc as [[_ ?]|[_ ?]]; [assumption|apply cuts_inside_ok; assumption].
    + destruct Hc as [[-> _]|[? ?]]; [left; reflexivity|right; split; [lia|assumption]].
Qed.
Print Assumptions parallel_iteration_mut.

(** A debug build aborts when a mutable iteration over an empty list is created, though a shared one works. *)
Theorem strided_iteration_mut_empty_refuted : forall stride, 0 < stride ->
  miter_new Debug 0 stride = Panic /\ exists it, iter_new (@nil Z) stride = Ok it.
Proof.
  intros s Hs. unfold miter_new, iter_new. replace (s =? 0) with false by lia. rewrite Z.mod_0_l by lia. cbn [Z.eqb length Z.of_nat]. rewrite Z.mod_0_l by lia.
  cbn [Z.eqb]. split; [unfold usub; rewrite (proj2 (Z.leb_gt s 0)) by lia; reflexivity|eauto].
Qed.
Print Assumptions strided_iteration_mut_empty_refuted.

(** The length a shared iterator reports is the number of elements left only before anything is taken: after taking one element it still
    reports them all. *)
Theorem iterator_length_refuted : forall A stride (data : list A) cs,
  0 < stride -> elements stride data cs -> cs <> [] ->
  exists it it' x, iter_new data stride = Ok it /\ iter_len data it = Z.of_nat (length cs) /\ iter_next data it = Ok (it', Some x) /\
    iter_len data it' = Z.of_nat (length cs) /\ Z.of_nat (length (snd (take_ends cs [Front]))) = Z.of_nat (length cs) - 1.
Proof.
  intros A s data cs Hs He Hne. destruct cs as [|c cs]; [congruence|].
  pose proof (elements_len _ _ _ He) as HL. rewrite (iter_new_ok s data (c :: cs) Hs He). set (it := {| i_stride := s; i_front := 0; i_back := _ |}).
  exists it, {| i_stride := s; i_front := 0 + s; i_back := i_back it |}, c.
  assert (L : forall b f, iter_len data {| i_stride := s; i_front := f; i_back := b |} = Z.of_nat (length (c :: cs))).
  { intros b f. unfold iter_len. cbn [i_stride]. rewrite HL. apply Z.div_mul. lia. }
  split; [reflexivity|]. split; [apply L|]. split; [|split; [apply L|cbn [take_ends snd length]; lia]].
  unfold iter_next, it. cbn [i_stride i_front i_back]. rewrite HL. cbn [length]. rewrite (proj2 (Z.leb_gt _ _)) by nia. rewrite (proj2 (Z.eqb_neq _ _)) by nia.
  pose proof (slice_elem s data (c :: cs) 0 c Hs He eq_refl) as S1. change (Z.of_nat 0 * s) with 0 in S1. rewrite S1. reflexivity.
Qed.
Print Assumptions iterator_length_refuted.

Example ex_elements : elements 2 [1; 2; 3; 4; 5; 6] [[1; 2]; [3; 4]; [5; 6]].
Proof. split; [reflexivity|repeat constructor]. Qed.
Example ex_iter : exists it, iter_new [1; 2; 3; 4; 5; 6] 2 = Ok it /\
  exists it', iter_run [1; 2; 3; 4; 5; 6] it [Back; Front; Front; Back; Front] = Ok (it', [Some [5; 6]; Some [1; 2]; Some [3; 4]; None; None]).
Proof. eexists. split; [reflexivity|]. eexists. vm_compute. reflexivity. Qed.
Example ex_cuts : cuts_inside (SplitAt 1 Whole (SplitAt 1 Whole Whole)) 3 /\
  match prod_new 6 2 with Ok pr => par_miter Debug pr (SplitAt 1 Whole (SplitAt 1 Whole Whole)) = Ok [0; 2; 4] | _ => False end.
Proof. split; [cbn; lia|vm_compute; reflexivity]. Qed.
