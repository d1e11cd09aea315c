(** Properties of the fluent circuit-building API: C31 (handles), C44 (packing), C45 (resizing), C46 (comparison), C76 (arithmetic),
    C77 (multiplication), C78 (constants, conversions, selection, inputs and outputs). [lib] is the library of mux circuits and
    [lib_ok] what it has to provide; [shannon_lib_ok] shows a library that provides it. *)
From Coq Require Import Permutation.
From Verif Require Import Base BitsLemmas Graph MuxGraph SpecMux Circuits MulRecProofs FheGraph SpecFhe FheProofs FheProofs2 FheProofs3 FheProofs4 FheProofs5 FheProofs6 FluentInt Fluent SpecFluent FluentProofs FluentProofs2 FluentProofs3 FluentProofs4 FluentProofs5 FluentLib FluentMul FluentMul2 FluentMul3 FluentMul4 Spec.
Ltac Zify.zify_post_hook ::= idtac.
Open Scope nat_scope.

Lemma ctx_new_ok : ctx_ok ctx_new.
Proof.
  split; [intros s t l []|]. split; [reflexivity|]. split; [reflexivity|]. split; intros t n H; cbn in H; destruct t; discriminate.
Qed.
Theorem library_exists : lib_ok shannon_lib.
Proof. exact shannon_lib_ok. Qed.
Print Assumptions library_exists.

(** ** C31: handles survive later operations *)

(** Whatever operations other than mul follow, every node keeps its value (and its absence of a value). *)
Theorem handles_survive_partial : forall lib, lib_ok lib -> forall ks c hs c' hs', ctx_ok c -> Forall (fun k => forall l, not_mul (k l) = true) ks ->
  run_calls lib c hs ks = Ok (c', hs') -> ctx_ok c' /\
  forall n, contains (cg c) n = true -> contains (cg c') n = true /\ forall deg cells o, fvalue deg cells (cg c) n o <-> fvalue deg cells (cg c') n o.
Proof.
  intros lib L ks c hs c' hs' C F E. destruct (run_calls_grows lib L ks c hs c' hs' C F E) as [C' G]. split; [exact C'|]. intros n Hn. destruct (proj2 G n Hn) as (K & _ & _ & V). auto.
Qed.
Print Assumptions handles_survive_partial.
Definition hnd i (hs : list (list nat)) : list nat := nth i hs [].
Example handles_survive_ex : exists c hs,
  run_calls shannon_lib ctx_new [] [fun _ => KInputs TGgsw1 [0; 1]; fun hs => KAdd MGlwe (hnd 0 hs) (hnd 0 hs); fun _ => KConst true TGlwe1; fun hs => KOutputs TGlwe1 (combine (hnd 1 hs) [7; 8])] = Ok (c, hs).
Proof. match goal with |- context [run_calls ?l ?c ?h ?k] => let v := eval vm_compute in (run_calls l c h k) in match v with Ok (?x, ?y) => exists x, y end end. vm_compute. reflexivity. Qed.

(** A program: the constant 1, two inputs a and b, their product, then the constant 1 again, which it outputs. *)
Definition mul_program : list (list (list nat) -> call) :=
  [fun _ => KConst true TGlwe1; fun _ => KInputs TGgsw1 [0]; fun _ => KInputs TGgsw1 [1]; fun hs => KMul (fun l => l) Unsigned MGlwe (hnd 1 hs) (hnd 2 hs);
   fun _ => KConst true TGlwe1; fun hs => KOutputs TGlwe1 [(hd 0 (hnd 4 hs), 9)]].
Definition clear_cells (deg : nat) (t : cty) (_ : nat) : ct := enc_bit deg t false.
(** Before mul the first handle is the constant 1. Afterwards the same handle is the product's low bit, the handle of a is a mux
    node, the cached constant is returned although it no longer is one, and with a = b = 0 the program outputs 0 for the constant 1. *)
Theorem handles_survive_refuted : exists c1 h1 c2 h2, run_calls shannon_lib ctx_new [] (firstn 3 mul_program) = Ok (c1, h1) /\
  run_calls shannon_lib ctx_new [] mul_program = Ok (c2, h2) /\
  h1 = [[0]; [1]; [2]] /\ h2 = h1 ++ [[0]; [0]; [6]] /\
  (forall deg cells, carries deg cells (cg c1) 0 (enc_bit deg TGlwe1 true)) /\
  node (cg c1) 1 = Some (FInput TGgsw1 0) /\ node (cg c2) 1 = Some FCMux /\
  forall deg, 0 < deg -> carries deg (clear_cells deg) (cg c2) 0 (enc_bit deg TGlwe1 false) /\
    fvalue deg (clear_cells deg) (cg c2) 6 (None, Some (TGlwe1, 9, enc_bit deg TGlwe1 false)).
Proof.
  let v := eval vm_compute in (run_calls shannon_lib ctx_new [] (firstn 3 mul_program)) in match v with Ok (?x, ?y) => exists x, y end.
  let v := eval vm_compute in (run_calls shannon_lib ctx_new [] mul_program) in match v with Ok (?x, ?y) => exists x, y end.
  split; [vm_compute; reflexivity|]. split; [vm_compute; reflexivity|]. split; [reflexivity|]. split; [reflexivity|]. split; [|split; [reflexivity|split; [reflexivity|]]].
  - intros deg cells. eapply fv_node; [reflexivity|apply fi_nil|reflexivity].
  - intros deg D. set (g := cg _).
    assert (CM : carries deg (clear_cells deg) g 0 (enc_bit deg TGlwe1 false)).
    { repeat match goal with
      | |- carries _ _ _ _ _ => unfold carries
      | |- fvalue _ _ _ _ _ => eapply fv_node; [reflexivity| |]
      | |- finputs _ _ _ ?es _ => let es' := eval vm_compute in es in change es with es'; (apply fi_nil || eapply fi_cons)
      | |- exec_op _ _ _ _ = _ => reflexivity
      end. }
    split; [exact CM|]. eapply fv_node; [reflexivity| |].
    + match goal with |- finputs _ _ _ ?es _ => let es' := eval vm_compute in es in change es with es' end. eapply fi_cons; [exact CM|apply fi_nil].
    + reflexivity.
Qed.
Print Assumptions handles_survive_refuted.

(** ** C44: packing and unpacking *)

(** pack puts bit i in coefficient i and zero elsewhere; it aborts exactly without bits or with more bits than coefficients. *)
Theorem pack_places_bits : forall deg bits c, ctx_ok c -> Forall (fun n => contains (cg c) n = true) bits ->
  if (1 <=? length bits) && (length bits <=? deg) then
    exists c' id, pack deg bits c = Ok (c', (id, length bits)) /\ ctx_ok c' /\ grows (cg c) (cg c') /\ contains (cg c') id = true /\
      forall cells bs, holds deg cells (cg c) TGlwe1 bits bs ->
        exists p, carries deg cells (cg c') id (CGlwe1 p) /\ length p = deg /\ forall i, nth i p false = nth i bs false
  else pack deg bits c = Panic.
Proof.
  intros deg bits c C A. destruct (Nat.leb_spec 1 (length bits)); [destruct (Nat.leb_spec (length bits) deg)|]; cbn [andb].
  - destruct (pack_ok deg bits c C A) as (c' & id & E & C' & G & K & V); [lia|]. exists c', id. split; [exact E|]. split; [exact C'|]. split; [exact G|]. split; [exact K|].
    intros cells bs W. eexists. split; [apply V; exact W|]. rewrite <- (holds_length _ _ _ _ _ _ W). split; [rewrite app_length, repeat_length, <- (holds_length _ _ _ _ _ _ W); lia|].
    intros i. destruct (Nat.lt_ge_cases i (length bs)); [apply app_nth1; lia|]. rewrite app_nth2, nth_repeat by lia. symmetry. now apply nth_overflow.
  - apply pack_panics. lia.
  - apply pack_panics. lia.
Qed.
Print Assumptions pack_places_bits.

(** unpack after pack, with anything but mul in between, gives the bits back in order. *)
Theorem unpack_inverts_pack : forall lib, lib_ok lib -> forall deg bits c c1 id n ks hs c2 hs2, ctx_ok c -> Forall (fun n => contains (cg c) n = true) bits ->
  pack deg bits c = Ok (c1, (id, n)) -> Forall (fun k => forall l, not_mul (k l) = true) ks -> run_calls lib c1 hs ks = Ok (c2, hs2) ->
  exists c3 ns, unpack id n c2 = Ok (c3, ns) /\ ctx_ok c3 /\ grows (cg c2) (cg c3) /\
    forall cells bs, holds deg cells (cg c) TGlwe1 bits bs -> holds deg cells (cg c3) TLwe1 ns bs.
Proof.
  intros lib L deg bits c c1 id n ks hs c2 hs2 C A E F R.
  assert (B : 1 <= length bits <= deg).
  { destruct (Nat.eq_dec (length bits) 0) as [Z|Z]; [rewrite pack_panics in E by auto; discriminate|]. destruct (Nat.lt_ge_cases deg (length bits)) as [Q|Q]; [rewrite pack_panics in E by auto; discriminate|lia]. }
  destruct (pack_ok deg bits c C A B) as (c1' & id' & E' & C1 & G1 & K1 & V1). rewrite E in E'. injection E' as <- <- ->.
  destruct (run_calls_grows lib L ks c1 hs c2 hs2 C1 F R) as [C2 G2]. destruct (unpack_ok id (length bits) c2 C2 (grows_contains _ _ _ G2 K1)) as (c3 & ns & E3 & C3 & G3 & _ & _ & V3).
  exists c3, ns. split; [exact E3|]. split; [exact C3|]. split; [exact G3|]. intros cells bs W. pose proof (holds_length _ _ _ _ _ _ W) as LB.
  specialize (V3 deg cells (bs ++ repeat false (deg - length bs))). rewrite LB, firstn_app, firstn_all, Nat.sub_diag in V3. cbn [firstn] in V3. rewrite app_nil_r in V3. apply V3.
  - rewrite app_length, repeat_length. lia.
  - lia.
  - eapply grows_carries; [exact G2|]. now apply V1.
Qed.
Print Assumptions unpack_inverts_pack.
Example pack_ex : exists c id, run_calls shannon_lib ctx_new [] [fun _ => KInputs TGlwe1 [0; 1; 2; 3; 4]; fun hs => KPack 8 (hnd 0 hs); fun hs => KUnpack (hd 0 (hnd 1 hs)) 5] = Ok (c, id).
Proof. match goal with |- context [run_calls ?l ?c ?h ?k] => let v := eval vm_compute in (run_calls l c h k) in match v with Ok (?x, ?y) => exists x, y end end. vm_compute. reflexivity. Qed.

(** ** C45: resizing *)

(** Unsigned: the low bits of the value, zero-extended; for the types that have constants. *)
Theorem resize_unsigned_partial : forall p t ns new c, ctx_ok c -> t <> TLwe1 -> t <> TGlev1 -> handles (cg c) t ns ->
  exists c' r, resize p Unsigned t ns new c = Ok (c', r) /\ ctx_ok c' /\ grows (cg c) (cg c') /\ handles (cg c') t r /\
    forall deg cells bs, holds deg cells (cg c) t ns bs -> exists bs', holds deg cells (cg c') t r bs' /\ length bs' = new /\ uval bs' = (uval bs mod 2 ^ Z.of_nat new)%Z.
Proof.
  intros p t ns new c C T1 T2 H. destruct (resize_unsigned_ok p t ns new c C) as (c' & r & E & C' & G & H' & LR & V); auto; [destruct t; auto; congruence|].
  exists c', r. split; [exact E|]. split; [exact C'|]. split; [exact G|]. split; [exact H'|]. intros deg cells bs W. exists (to_bits new (uval bs)). split; [now apply V|]. split; [apply to_bits_length|apply uval_to_bits].
Qed.
Print Assumptions resize_unsigned_partial.
(** Signed: the value is kept when it fits. *)
Theorem resize_signed_partial : forall p t ns new c, ctx_ok c -> handles (cg c) t ns -> 1 <= new -> 1 <= length ns ->
  exists r, resize p Signed t ns new c = Ok (c, r) /\ handles (cg c) t r /\
    forall deg cells bs, holds deg cells (cg c) t ns bs -> exists bs', holds deg cells (cg c) t r bs' /\ length bs' = new /\
      ((- 2 ^ Z.of_nat (new - 1) <= sval bs < 2 ^ Z.of_nat (new - 1))%Z -> sval bs' = sval bs).
Proof.
  intros p t ns new c C H N1 L1. destruct (resize_signed_ok p t ns new c C H N1 L1) as (r & E & H' & LR & V). exists r. split; [exact E|]. split; [exact H'|].
  intros deg cells bs W. eexists. split; [apply V; exact W|]. split; [rewrite app_length, to_bits_length; cbn [length]; lia|]. intros R. now apply signed_resize_value.
Qed.
Print Assumptions resize_signed_partial.
(** Unsigned integers of LWE (level 1) or GLEV ciphertexts cannot be resized at all; a signed integer resized to no bits aborts with
    overflow checks, and gains a bit without. *)
Theorem resize_refuted :
  (forall p t ns new c, ctx_ok c -> t = TLwe1 \/ t = TGlev1 -> resize p Unsigned t ns new c = Panic) /\
  (forall t ns c, 1 <= length ns -> resize Debug Signed t ns 0 c = Panic /\ exists r, resize Release Signed t ns 0 c = Ok (c, r) /\ length r = S (length ns)).
Proof. split; [|exact resize_signed_zero]. intros p t ns new c C T. apply resize_unsigned_panics; auto. destruct T; subst; reflexivity. Qed.
Print Assumptions resize_refuted.
Example resize_ex : exists c hs, run_calls shannon_lib ctx_new [] [fun _ => KInputs TGgsw1 [0; 1]; fun hs => KResize Debug Unsigned TGgsw1 (hnd 0 hs) 5; fun hs => KResize Debug Signed TGgsw1 (hnd 0 hs) 4] = Ok (c, hs) /\ map (@length nat) hs = [2; 5; 4].
Proof. match goal with |- context [run_calls ?l ?c ?h ?k] => let v := eval vm_compute in (run_calls l c h k) in match v with Ok (?x, ?y) => exists x, y end end. split; vm_compute; reflexivity. Qed.

(** ** C46: comparison *)

(** Unsigned operands of any two widths (not both empty): the relation of their values. *)
Theorem compare_unsigned_partial : forall lib, lib_ok lib -> forall gt eq mode a b c, ctx_ok c -> 0 < length a + length b -> handles (cg c) TGgsw1 a -> handles (cg c) TGgsw1 b ->
  exists c' n, cmp lib Unsigned gt eq mode a b c = Ok (c', [n]) /\ ctx_ok c' /\ grows (cg c) (cg c') /\ handle (cg c') (mode_ty mode) n /\
    forall deg cells x y, holds deg cells (cg c) TGgsw1 a x -> holds deg cells (cg c) TGgsw1 b y -> carries deg cells (cg c') n (enc_bit deg (mode_ty mode) (rel gt eq (uval x) (uval y))).
Proof. intros lib L gt eq mode a b c C P Ha Hb. apply (cmp_ok lib L Unsigned gt eq mode a b c); auto. lia. Qed.
Print Assumptions compare_unsigned_partial.
(** Signed operands of one width. *)
Theorem compare_signed_partial : forall lib, lib_ok lib -> forall gt eq mode a b c, ctx_ok c -> 0 < length a -> length b = length a -> handles (cg c) TGgsw1 a -> handles (cg c) TGgsw1 b ->
  exists c' n, cmp lib Signed gt eq mode a b c = Ok (c', [n]) /\ ctx_ok c' /\ grows (cg c) (cg c') /\ handle (cg c') (mode_ty mode) n /\
    forall deg cells x y, holds deg cells (cg c) TGgsw1 a x -> holds deg cells (cg c) TGgsw1 b y -> carries deg cells (cg c') n (enc_bit deg (mode_ty mode) (rel gt eq (sval x) (sval y))).
Proof.
  intros lib L gt eq mode a b c C P LB Ha Hb. destruct (cmp_ok lib L Signed gt eq mode a b c) as (c' & n & E & C' & G & H & V); auto; [lia|]. exists c', n. split; [exact E|]. split; [exact C'|]. split; [exact G|]. split; [exact H|].
  intros deg cells x y Wx Wy. pose proof (holds_length _ _ _ _ _ _ Wx) as LX. pose proof (holds_length _ _ _ _ _ _ Wy) as LY. specialize (V deg cells x y Wx Wy). unfold zext in V.
  replace (Nat.max (length b) (length a) - length x) with 0 in V by lia. replace (Nat.max (length b) (length a) - length y) with 0 in V by lia. cbn [repeat] in V. now rewrite !app_nil_r in V.
Qed.
Print Assumptions compare_signed_partial.
(** Equality and inequality of unsigned operands of any two widths, or signed ones of equal width. *)
Theorem equality_partial : forall lib, lib_ok lib -> forall mode a b c, ctx_ok c -> 0 < length a + length b -> handles (cg c) TGgsw1 a -> handles (cg c) TGgsw1 b ->
  exists c1 n1 c2 n2, feq lib mode a b c = Ok (c1, [n1]) /\ fneq lib mode a b c = Ok (c2, [n2]) /\ ctx_ok c1 /\ ctx_ok c2 /\ grows (cg c) (cg c1) /\ grows (cg c) (cg c2) /\
    forall deg cells x y, holds deg cells (cg c) TGgsw1 a x -> holds deg cells (cg c) TGgsw1 b y ->
      carries deg cells (cg c1) n1 (enc_bit deg (mode_ty mode) (uval x =? uval y)%Z) /\ carries deg cells (cg c2) n2 (enc_bit deg (mode_ty mode) (negb (uval x =? uval y)%Z)) /\
      (length a = length b -> (uval x = uval y <-> sval x = sval y)).
Proof.
  intros lib L mode a b c C P Ha Hb. destruct (feq_ok lib L false mode a b c) as (c1 & n1 & E1 & C1 & G1 & _ & V1); auto; [lia|]. destruct (feq_ok lib L true mode a b c) as (c2 & n2 & E2 & C2 & G2 & _ & V2); auto; [lia|].
  exists c1, n1, c2, n2. split; [exact E1|]. split; [exact E2|]. split; [exact C1|]. split; [exact C2|]. split; [exact G1|]. split; [exact G2|]. intros deg cells x y Wx Wy. specialize (V1 deg cells x y Wx Wy). specialize (V2 deg cells x y Wx Wy). rewrite xorb_false_l in V1. rewrite xorb_true_l in V2. split; [exact V1|]. split; [exact V2|].
  intros LL. pose proof (holds_length _ _ _ _ _ _ Wx) as LX. pose proof (holds_length _ _ _ _ _ _ Wy) as LY. split; intros Q.
  - assert (x = y) by (apply uval_inj; [congruence|auto]). congruence.
  - assert (LXY : length x = length y) by congruence. pose proof (uval_range x) as Rx. pose proof (uval_range y) as Ry. unfold sval in Q. rewrite LXY in *. destruct (last x false), (last y false); lia.
Qed.
Print Assumptions equality_partial.
(** Signed operands of different widths: the shorter one is zero-extended, so -1 (1 bit) < 1 (2 bits) comes out false, and -1 (1 bit)
    equals -1 (2 bits) comes out false. *)
Theorem compare_mixed_signed_refuted : forall lib, lib_ok lib -> forall mode a b0 b1 c, ctx_ok c -> handles (cg c) TGgsw1 [a] -> handles (cg c) TGgsw1 [b0; b1] ->
  exists c1 n1 c2 n2, cmp lib Signed false false mode [a] [b0; b1] c = Ok (c1, [n1]) /\ feq lib mode [a] [b0; b1] c = Ok (c2, [n2]) /\ forall deg cells,
    (holds deg cells (cg c) TGgsw1 [a] [true] -> holds deg cells (cg c) TGgsw1 [b0; b1] [true; false] -> sval [true] = (-1)%Z /\ sval [true; false] = 1%Z /\ carries deg cells (cg c1) n1 (enc_bit deg (mode_ty mode) false)) /\
    (holds deg cells (cg c) TGgsw1 [a] [true] -> holds deg cells (cg c) TGgsw1 [b0; b1] [true; true] -> sval [true] = (-1)%Z /\ sval [true; true] = (-1)%Z /\ carries deg cells (cg c2) n2 (enc_bit deg (mode_ty mode) false)).
Proof.
  intros lib L mode a b0 b1 c C Ha Hb. destruct (cmp_ok lib L Signed false false mode [a] [b0; b1] c) as (c1 & n1 & E1 & _ & _ & _ & V1); auto; [cbn; lia|]. destruct (feq_ok lib L false mode [a] [b0; b1] c) as (c2 & n2 & E2 & _ & _ & _ & V2); auto; [cbn; lia|].
  exists c1, n1, c2, n2. split; [exact E1|]. split; [exact E2|]. intros deg cells. split; intros Wx Wy; (split; [reflexivity|]); (split; [reflexivity|]); [exact (V1 deg cells _ _ Wx Wy)|exact (V2 deg cells _ _ Wx Wy)].
Qed.
Print Assumptions compare_mixed_signed_refuted.
Example compare_ex : exists c hs, run_calls shannon_lib ctx_new [] [fun _ => KInputs TGgsw1 [0]; fun _ => KInputs TGgsw1 [1; 2]; fun hs => KCmp Signed false false MGlev (hnd 0 hs) (hnd 1 hs); fun hs => KEq MGlwe (hnd 0 hs) (hnd 1 hs)] = Ok (c, hs).
Proof. match goal with |- context [run_calls ?l ?c ?h ?k] => let v := eval vm_compute in (run_calls l c h k) in match v with Ok (?x, ?y) => exists x, y end end. vm_compute; reflexivity. Qed.

(** ** C76: addition, subtraction, bitwise and *)

(** With a right operand at least as wide as the left one: the result modulo 2^width of the left operand, whatever the result type. *)
Theorem fluent_arithmetic_partial : forall lib, lib_ok lib -> forall mode a b c, ctx_ok c -> 0 < length a <= length b -> (Z.of_nat (length a) < 2 ^ 16)%Z -> handles (cg c) TGgsw1 a -> handles (cg c) TGgsw1 b ->
  exists cs s cd d cn n, fadd lib mode a b c = Ok (cs, s) /\ fsub lib mode a b c = Ok (cd, d) /\ fand lib mode a b c = Ok (cn, n) /\
    (ctx_ok cs /\ ctx_ok cd /\ ctx_ok cn) /\ (grows (cg c) (cg cs) /\ grows (cg c) (cg cd) /\ grows (cg c) (cg cn)) /\
    (handles (cg cs) (mode_ty mode) s /\ handles (cg cd) (mode_ty mode) d /\ handles (cg cn) (mode_ty mode) n) /\
    forall deg cells x y, holds deg cells (cg c) TGgsw1 a x -> holds deg cells (cg c) TGgsw1 b y ->
      holds deg cells (cg cs) (mode_ty mode) s (to_bits (length a) (uval x + uval y)) /\
      holds deg cells (cg cd) (mode_ty mode) d (to_bits (length a) (uval x - uval y)) /\
      holds deg cells (cg cn) (mode_ty mode) n (to_bits (length a) (Z.land (uval x) (uval y))).
Proof.
  intros lib L mode a b c C LE LT Ha Hb. destruct (fadd_ok lib L mode a b c) as (cs & s & E1 & C1 & G1 & H1 & _ & V1); auto. destruct (fsub_ok lib L mode a b c) as (cd & d & E2 & C2 & G2 & H2 & _ & V2); auto. destruct (fand_ok lib L mode a b c) as (cn & n & E3 & C3 & G3 & H3 & _ & V3); auto; [lia|].
  exists cs, s, cd, d, cn, n. split; [exact E1|]. split; [exact E2|]. split; [exact E3|]. split; [auto|]. split; [auto|]. split; [auto|]. intros deg cells x y Wx Wy. auto.
Qed.
Print Assumptions fluent_arithmetic_partial.
(** With a shorter right operand, or (for and) 65536 bits or more: abort. *)
Theorem fluent_arithmetic_refuted : forall lib, lib_ok lib -> forall mode a b c,
  (length b < length a -> fadd lib mode a b c = Panic /\ fsub lib mode a b c = Panic) /\
  (length b < length a -> (Z.of_nat (length a) < 2 ^ 16)%Z -> fand lib mode a b c = Panic) /\
  ((2 ^ 16 <= Z.of_nat (length a))%Z -> length b = length a -> fand lib mode a b c = Panic).
Proof.
  intros lib L mode a b c.
  assert (AR : forall r v, (forall ci, r = Ok ci -> c_arity ci <> length v) -> r <> Err EOther -> (forall e, r <> Err e) -> run_res r v = Panic).
  { intros r v H _ HE. destruct r as [ci|e|]; [|exfalso; now apply (HE e)|reflexivity]. cbn [run_res bind]. unfold run_circuit. destruct (Nat.eqb_spec (length v) (c_arity ci)) as [Q|Q]; [exfalso; now apply (H ci)|reflexivity]. }
  split; [|split].
  - intros LT. split; apply (binop_short_panics lib L); auto; intros v LV; cbn [builder]; apply AR.
    + intros ci E. unfold ripple_carry_adder in E. repeat match type of E with (if ?b then _ else _) = _ => destruct b; try discriminate end. injection E as <-. cbn [c_arity]. lia.
    + unfold ripple_carry_adder. repeat match goal with |- context [if ?b then _ else _] => destruct b end; discriminate.
    + intros e. unfold ripple_carry_adder. repeat match goal with |- context [if ?b then _ else _] => destruct b end; discriminate.
    + intros ci E. unfold full_subtractor in E. repeat match type of E with (if ?b then _ else _) = _ => destruct b; try discriminate end. injection E as <-. cbn [c_arity]. lia.
    + unfold full_subtractor. repeat match goal with |- context [if ?b then _ else _] => destruct b end; discriminate.
    + intros e. unfold full_subtractor. repeat match goal with |- context [if ?b then _ else _] => destruct b end; discriminate.
  - intros LT LL. apply (binop_short_panics lib L); auto. intros v LV. rewrite Z.mod_small, Nat2Z.id by lia. cbn [builder run_res bind]. unfold run_circuit. cbn [make_and_circuit c_arity]. destruct (Nat.eqb_spec (length v) (2 * length a)); [lia|reflexivity].
  - intros GE LB. unfold fand, binop. rewrite (insert_panics lib L); [reflexivity|]. intros v LV. rewrite interleave_len in LV. cbn [builder run_res bind]. unfold run_circuit. cbn [make_and_circuit c_arity].
    match goal with |- context [Nat.eqb ?x ?y] => destruct (Nat.eqb_spec x y) as [Q|Q]; [exfalso|reflexivity] end.
    pose proof (Z.mod_pos_bound (Z.of_nat (length a)) (2 ^ 16) ltac:(lia)). lia.
Qed.
Print Assumptions fluent_arithmetic_refuted.

(** ** C77: multiplication *)

(** mul returns the product modulo 2^width of the left operand: for signed operands always, for unsigned ones when the result is GLWE
    or no operand is wider than 16 bits. Every output declared before keeps its value. It aborts exactly for the widths on which the
    bit-level algorithm aborts ([mul_ok], characterised for equal widths by [mul_widths]). *)
Theorem fluent_multiply_partial : forall lib, lib_ok lib -> forall order sg mode a b c, (forall l, Permutation l (order l)) -> edges_ok (cg c) -> handles (cg c) TGgsw1 a -> handles (cg c) TGgsw1 b -> 0 < length a -> 0 < length b ->
  if mul_ok (S (length a + length b)) (length a) (length b) then
    exists c' ns, fmul lib order sg mode a b c = Ok (c', ns) /\ edges_ok (cg c') /\ (Forall (eq None) (zeros c) -> Forall (eq None) (ones c) -> length (zeros c) = 4 -> length (ones c) = 4 -> ctx_ok c') /\ handles (cg c') (mode_ty mode) ns /\ length ns = length a /\
      (forall n, In n (existing_outputs (cg c)) -> exists m, node (cg c') m = node (cg c) n /\ forall deg cells o, fvalue deg cells (cg c) n o <-> fvalue deg cells (cg c') m o) /\
      forall deg cells x y, 0 < deg -> (sg = Signed \/ mode = MGlwe \/ length a <= 16 /\ length b <= 16) -> holds deg cells (cg c) TGgsw1 a x -> holds deg cells (cg c) TGgsw1 b y ->
        holds deg cells (cg c') (mode_ty mode) ns (to_bits (length a) (match sg with Unsigned => uval x * uval y | Signed => sval x * sval y end))
  else fmul lib order sg mode a b c = Panic.
Proof.
  intros lib L order sg mode a b c HO EN Ha Hb Pa Pb. pose proof (fmul_ok lib L order sg mode a b c HO EN Ha Hb Pa Pb) as Q. destruct (mul_ok _ _ _); [|exact Q].
  destruct Q as (c' & ns & E & EN' & Z & O & H & LN & EX & V). exists c', ns. split; [exact E|]. split; [exact EN'|]. split.
  - intros FZ FO LZ LO. unfold ctx_ok. rewrite Z, O. split; [exact EN'|]. split; [exact LZ|]. split; [exact LO|].
    split; intros t n Hn; apply nth_error_In in Hn; [pose proof (proj1 (Forall_forall _ _) FZ _ Hn)|pose proof (proj1 (Forall_forall _ _) FO _ Hn)]; discriminate.
  - split; [exact H|]. split; [exact LN|]. split; [exact EX|]. intros deg cells x y D M Wx Wy. pose proof (V deg cells x y D M Wx Wy) as R. destruct sg; exact R.
Qed.
Print Assumptions fluent_multiply_partial.
(** Equal widths: it works unless 16 * 2^d < width < 17 * 2^d for some d >= 1. *)
Theorem mul_widths : forall n, 0 < n -> (mul_ok (S (n + n)) n n = true <-> ~ exists d, 1 <= d /\ 16 * 2 ^ d < n < 17 * 2 ^ d).
Proof. intros n P. destruct (mul_ok_char n) as [H _]. apply H; lia. Qed.
Print Assumptions mul_widths.
(** Unsigned GLEV results wider than 16 bits: the circuit is built but none of its results ever has a value. *)
Theorem multiply_glev_refuted : forall lib, lib_ok lib -> forall order a b c, (forall l, Permutation l (order l)) -> edges_ok (cg c) -> handles (cg c) TGgsw1 a -> handles (cg c) TGgsw1 b -> 16 < length a -> 16 < length b ->
  mul_ok (S (length a + length b)) (length a) (length b) = true ->
  exists c' ns, fmul lib order Unsigned MGlev a b c = Ok (c', ns) /\ length ns = length a /\ forall n deg cells o, In n ns -> ~ fvalue deg cells (cg c') n o.
Proof.
  intros lib L order a b c HO EN Ha Hb La Lb MO. pose proof (fmul_ok lib L order Unsigned MGlev a b c HO EN Ha Hb ltac:(lia) ltac:(lia)) as Q. rewrite MO in Q. destruct Q as (c' & ns & E & _ & _ & _ & _ & LN & _).
  exists c', ns. split; [exact E|]. split; [exact LN|]. intros n deg cells o Hn. exact (proj1 (Forall_forall _ _) (fmul_glev lib L order a b c HO EN Ha Hb La Lb c' ns E) n Hn deg cells o).
Qed.
Print Assumptions multiply_glev_refuted.
Example multiply_widths_ex : mul_ok (S (32 + 32)) 32 32 = true /\ mul_ok (S (33 + 33)) 33 33 = false.
Proof. split; vm_compute; reflexivity. Qed.
Example multiply_ex : exists c hs, run_calls shannon_lib ctx_new [] [fun _ => KInputs TGgsw1 [0; 1]; fun _ => KInputs TGgsw1 [2; 3]; fun hs => KMul (@rev _) Signed MGlev (hnd 0 hs) (hnd 1 hs)] = Ok (c, hs).
Proof. match goal with |- context [run_calls ?l ?c ?h ?k] => let v := eval vm_compute in (run_calls l c h k) in match v with Ok (?x, ?y) => exists x, y end end. vm_compute; reflexivity. Qed.

(** ** C78: constants, conversions, selection, inputs and outputs *)
Theorem fluent_plumbing_partial : forall c, ctx_ok c ->
  (forall t refs, exists c' ns, inputs t refs c = Ok (c', ns) /\ ctx_ok c' /\ grows (cg c) (cg c') /\ handles (cg c') t ns /\ forall deg cells, Forall2 (fun r n => carries deg cells (cg c') n (cells t r)) refs ns) /\
  (forall v t, t <> TLwe1 -> t <> TGlev1 -> exists c' n, const_bit v t c = Ok (c', n) /\ ctx_ok c' /\ grows (cg c) (cg c') /\ handle (cg c') t n /\ forall deg cells, carries deg cells (cg c') n (enc_bit deg t v)) /\
  (forall t t' ns, handles (cg c) t ns -> exists c' ms, convert_bits t t' ns c = Ok (c', ms) /\ ctx_ok c' /\ grows (cg c) (cg c') /\ handles (cg c') t' ms /\
     forall deg cells bs, 0 < deg -> holds deg cells (cg c) t ns bs -> holds deg cells (cg c') t' ms bs) /\
  (forall s a b, handle (cg c) TGgsw1 s -> handles (cg c) TGlwe1 a -> handles (cg c) TGlwe1 b -> length a = length b ->
     exists c' ns, select s a b c = Ok (c', ns) /\ ctx_ok c' /\ grows (cg c) (cg c') /\ handles (cg c') TGlwe1 ns /\
       forall deg cells sb x y, carries deg cells (cg c) s (CGgsw1 sb) -> holds deg cells (cg c) TGlwe1 a x -> holds deg cells (cg c) TGlwe1 b y -> holds deg cells (cg c') TGlwe1 ns (if sb then x else y)) /\
  (forall t ps, Forall (fun p => handle (cg c) t (fst p)) ps -> exists c' os, collect_outputs t ps c = Ok (c', os) /\ ctx_ok c' /\ grows (cg c) (cg c') /\
     forall deg cells, Forall2 (fun p o => forall ct, carries deg cells (cg c) (fst p) ct -> ty_of ct = t -> fvalue deg cells (cg c') o (None, Some (t, snd p, ct))) ps os).
Proof.
  intros c C. split; [|split; [|split; [|split]]].
  - intros t refs. destruct (inputs_ok t refs c C) as (c' & ns & E & C' & G & _ & H & V). eauto 10.
  - intros v t T1 T2. destruct (const_ok v t c C) as (c' & n & E & C' & G & H & V); [destruct t; auto; congruence|]. eauto 10.
  - intros t t' ns H. destruct (convert_bits_ok t t' ns c C H) as (c' & ms & E & C' & G & H' & _ & V). eauto 10.
  - intros s a b Hs Ha Hb LL. destruct (select_ok s a b c C (handle_contains _ _ _ Hs) Ha Hb) as (c' & ns & E & C' & G & H & _ & V). exists c', ns. split; [exact E|]. split; [exact C'|]. split; [exact G|]. split; [exact H|]. intros. eapply V; eauto.
  - intros t ps F. destruct (outputs_ok t ps c C) as (c' & os & E & C' & G & _ & V). { eapply Forall_impl; [|exact F]. intros p Hp. exact (handle_contains _ _ _ Hp). }
    eauto 10.
Qed.
Print Assumptions fluent_plumbing_partial.
(** The constants of level-1 LWE and GLEV type always abort. *)
Theorem constants_refuted : forall v t c, ctx_ok c -> t = TLwe1 \/ t = TGlev1 -> const_bit v t c = Panic.
Proof. intros v t c C T. apply const_panics; auto. destruct T; subst; reflexivity. Qed.
Print Assumptions constants_refuted.
Example fluent_ctx_ex : ctx_ok ctx_new.
Proof. exact ctx_new_ok. Qed.
