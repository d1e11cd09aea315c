(** C105: every instruction does what the assembly language documents (SpecInstr.v), on the machine that runs one instruction at a
    time (SpecCpu.seq_step). By C36-C38 and C75 (Props_Cpu.v) the out-of-order processor behaves like that machine. *)
From Coq Require Import ZifyBool ZifyNat.
From Verif Require Import Base Spec BitsLemmas Alu SpecAlu AluProofs AluProofs2 Memory SpecMem MemoryProofs MemoryProofs3 MemoryProofs4 MemoryProofs6 Isa SpecIsa
  Processor SpecCpu SpecInstr InstrProofs CpuExamples.
Open Scope Z_scope.

(** Arithmetic, logic and comparisons: the destination gets the documented value and width, encrypted when an operand is; nothing
    else changes. *)
Theorem C105_two_operand : forall p s o d a b w v w',
  instr_at s (ins o [d; a; b]) -> binary_ok o w (m_regs s a) (m_regs s b) ->
  doc_binary o w (reg_value (m_regs s a)) (reg_value (m_regs s b)) = Some (v, w') ->
  exists s', seq_step p s = Ok (s', false) /\ sets s s' d v w' (reg_enc (m_regs s a) || reg_enc (m_regs s b)).
Proof. exact two_operand. Qed.
Print Assumptions C105_two_operand.

(** Not flips the bits; neg (plaintext operands only) negates; mov copies. *)
Theorem C105_one_operand : forall p s d a, reg_ok (m_regs s a) ->
  let v := reg_value (m_regs s a) in let w := reg_width (m_regs s a) in let e := reg_enc (m_regs s a) in
  (instr_at s (ins ONot [d; a]) -> w <= 127 \/ e = true ->
     exists s', seq_step p s = Ok (s', false) /\ sets s s' d (2 ^ w - 1 - v) w e) /\
  (instr_at s (ins ONeg [d; a]) -> w <= 127 -> e = false ->
     exists s', seq_step p s = Ok (s', false) /\ sets s s' d ((- v) mod 2 ^ w) w false) /\
  (instr_at s (ins OMove [d; a]) -> exists s', seq_step p s = Ok (s', false) /\ sets s s' d v w e).
Proof.
  intros p s d a Hr v w e. pose proof (reg_value_range _ Hr) as Hv. fold v w in Hv. split; [|split].
  - intros Hi Hw. destruct (not_ok p (m_regs s a) Hr Hw) as (r & E & Ok' & Wr & Er & Hb).
    assert (Hrng := reg_value_range _ Ok'). rewrite Wr in Hrng.
    refine (one_operand p s ONot d a [] _ _ _ _ r Hi eq_refl eq_refl eq_refl (fun _ _ => eq_refl) E _).
    split; [exact Ok'|]. split; [|split; assumption].
    apply complement_value; auto. destruct Hr as [H _]; fold w in H; lia.
  - intros Hi Hw He. destruct (m_regs s a) as [v0 w0|] eqn:Er; [|discriminate]. cbn [reg_value reg_width] in v, w. subst v w e.
    assert (W1 : 1 <= w0) by (destruct Hr as [H _]; cbn in H; lia).
    refine (one_operand p s ONeg d a [] _ _ _ _ (RPlain ((- v0) mod 2 ^ w0) w0) Hi eq_refl eq_refl eq_refl (fun _ _ => eq_refl) _ _).
    + rewrite Er. apply neg_ok; lia.
    + split; [|split; [reflexivity|split; reflexivity]]. split; [cbn; lia|]. cbn. apply Z.mod_pos_bound, Z.pow_pos_nonneg; lia.
  - intros Hi.
    refine (one_operand p s OMove d a [] _ _ _ _ (m_regs s a) Hi eq_refl eq_refl eq_refl (fun _ _ => eq_refl) eq_refl _).
    split; [exact Hr|repeat split; reflexivity].
Qed.
Print Assumptions C105_one_operand.

(** Casts: truncation keeps the low bits, zero extension the number, sign extension the signed number. *)
Theorem C105_casts : forall p s d a nw, reg_ok (m_regs s a) ->
  let v := reg_value (m_regs s a) in let w := reg_width (m_regs s a) in let e := reg_enc (m_regs s a) in
  (instr_at s (ins OTrunc [d; a; nw]) -> nw <= w -> nw <= 127 \/ e = true ->
     exists s', seq_step p s = Ok (s', false) /\ sets s s' d (v mod 2 ^ nw) nw e) /\
  (instr_at s (ins OZext [d; a; nw]) -> w <= nw ->
     exists s', seq_step p s = Ok (s', false) /\ sets s s' d v nw e) /\
  (instr_at s (ins OSext [d; a; nw]) -> w <= nw -> nw <= 127 \/ e = true \/ v < 2 ^ (w - 1) ->
     exists s' v', seq_step p s = Ok (s', false) /\ sets s s' d v' nw e /\ sint nw v' = sint w v).
Proof.
  intros p s d a nw Hr v w e.
  assert (W : forall o, instr_at s (ins o [d; a; nw]) -> o = OTrunc \/ o = OZext \/ o = OSext -> 1 <= nw <= 128).
  { intros o (_ & _ & _ & Hwf & _) Ho. unfold instr_wf in Hwf.
    destruct Ho as [->|[->| ->]]; cbn in Hwf; inversion Hwf as [|? ? ? ? _ H1]; subst; inversion H1 as [|? ? ? ? _ H2]; subst;
      inversion H2 as [|? ? ? ? H3 _]; exact H3. }
  split; [|split].
  - intros Hi Hw Hc. specialize (W _ Hi ltac:(auto)).
    destruct (trunc_ok p (m_regs s a) nw Hr ltac:(fold w; lia) Hc) as (r & E & O & Wr & Er & V).
    refine (one_operand p s OTrunc d a [nw] _ _ _ _ r Hi eq_refl eq_refl eq_refl (fun _ _ => eq_refl) E _).
    split; [exact O|]. split; [exact V|]. split; assumption.
  - intros Hi Hw. specialize (W _ Hi ltac:(auto)).
    destruct (zext_ok p (m_regs s a) nw Hr ltac:(fold w; lia)) as (r & E & O & Wr & Er & V).
    refine (one_operand p s OZext d a [nw] _ _ _ _ r Hi eq_refl eq_refl eq_refl (fun _ _ => eq_refl) E _).
    split; [exact O|]. split; [exact V|]. split; assumption.
  - intros Hi Hw Hc. specialize (W _ Hi ltac:(auto)).
    destruct (sext_ok p (m_regs s a) nw Hr ltac:(fold w; lia) Hc) as (r & E & O & Wr & Er & V).
    destruct (one_operand p s OSext d a [nw] (op_ext p true (m_regs s a) nw) (reg_value r) nw e r Hi eq_refl eq_refl eq_refl
      (fun _ _ => eq_refl) E) as (s' & E' & S').
    { split; [exact O|]. split; [reflexivity|]. split; assumption. }
    exists s', (reg_value r). split; [exact E'|]. split; [exact S'|exact V].
Qed.
Print Assumptions C105_casts.

(** Load immediate: any number that fits w bits, signed or unsigned, w up to 32. *)
Theorem C105_load_immediate : forall p s d v w, 1 <= w <= 32 -> - 2 ^ (w - 1) <= v < 2 ^ w ->
  instr_at s (ins OLoadI [d; v mod 2 ^ 32; w]) ->
  exists s', seq_step p s = Ok (s', false) /\ sets s s' d (v mod 2 ^ w) w false.
Proof.
  intros p s d v w Hw Hv Hi.
  pose proof (loadi_accepts p (v mod 2 ^ 32) w v Hw Hv eq_refl) as E.
  destruct (step_one p s _ d [] _ _ Hi eq_refl eq_refl eq_refl E eq_refl) as (s' & X & P1 & P2 & P3 & P4).
  exists s'. split; [exact X|]. split; [exact P1|]. split; [exact P2|]. split; [|exact P4]. rewrite P3.
  split; [|split; [reflexivity|split; reflexivity]]. split; [cbn; lia|]. cbn. apply Z.mod_pos_bound, Z.pow_pos_nonneg; lia.
Qed.
Print Assumptions C105_load_immediate.

(** Addition with carry and subtraction with borrow: operands d (result), c (carry out), a, b, carry in. *)
Theorem C105_carry : forall p s d c a b ci w,
  reg_ok (m_regs s a) -> reg_ok (m_regs s b) -> reg_ok (m_regs s ci) -> d <> c ->
  reg_width (m_regs s a) = w -> reg_width (m_regs s b) = w -> reg_width (m_regs s ci) = 1 ->
  let e := reg_enc (m_regs s a) || reg_enc (m_regs s b) || reg_enc (m_regs s ci) in
  let va := reg_value (m_regs s a) in let vb := reg_value (m_regs s b) in let vc := reg_value (m_regs s ci) in
  w <= 127 \/ e = true ->
  (instr_at s (ins OAddC [d; c; a; b; ci]) -> exists s', seq_step p s = Ok (s', false) /\
     m_pc s' = m_pc s + 8 /\ m_mem s' = m_mem s /\ (forall r, r <> d -> r <> c -> m_regs s' r = m_regs s r) /\
     has (m_regs s' d) ((va + vb + vc) mod 2 ^ w) w e /\ has (m_regs s' c) ((va + vb + vc) / 2 ^ w) 1 e) /\
  (instr_at s (ins OSubB [d; c; a; b; ci]) -> exists s', seq_step p s = Ok (s', false) /\
     m_pc s' = m_pc s + 8 /\ m_mem s' = m_mem s /\ (forall r, r <> d -> r <> c -> m_regs s' r = m_regs s r) /\
     has (m_regs s' d) ((va - vb - vc) mod 2 ^ w) w e /\ has (m_regs s' c) (if va <? vb + vc then 1 else 0) 1 e).
Proof.
  intros p s d c a b ci w Ha Hb Hc Hne Wa Wb Wc e va vb vc He.
  assert (P : 0 < 2 ^ w) by (apply Z.pow_pos_nonneg; [lia|]; destruct Ha as [H _]; lia).
  split; intros Hi.
  - destruct (add_carry_ok p _ _ _ w Ha Hb Hc Wa Wb Wc He) as (r & k & E & Or & Ok' & Wr & Wk & Er & Ek & V).
    destruct (step_two p s _ d c _ _ r k Hi eq_refl eq_refl eq_refl E eq_refl Hne) as (s' & X & P1 & P2 & P3 & P4 & P5).
    exists s'. split; [exact X|]. split; [exact P1|]. split; [exact P2|]. split; [exact P5|]. rewrite P3, P4.
    pose proof (reg_value_range _ Or) as Rr. pose proof (reg_value_range _ Ok') as Rk. rewrite Wr in Rr. rewrite Wk in Rk.
    fold va vb vc in V. split.
    + split; [exact Or|]. split; [|split; assumption]. rewrite <- V. rewrite Z.mul_comm, Z_mod_plus_full, Z.mod_small; lia.
    + split; [exact Ok'|]. split; [|split; [exact Wk|rewrite Ek; exact Er]].
      rewrite <- V, Z.mul_comm, Z_div_plus_full, Z.div_small; lia.
  - destruct (sub_borrow_ok p _ _ _ w Ha Hb Hc Wa Wb Wc He) as (r & k & E & Or & Ok' & Wr & Wk & Er & Ek & V).
    destruct (step_two p s _ d c _ _ r k Hi eq_refl eq_refl eq_refl E eq_refl Hne) as (s' & X & P1 & P2 & P3 & P4 & P5).
    exists s'. split; [exact X|]. split; [exact P1|]. split; [exact P2|]. split; [exact P5|]. rewrite P3, P4.
    pose proof (reg_value_range _ Or) as Rr. pose proof (reg_value_range _ Ok') as Rk. rewrite Wr in Rr. rewrite Wk in Rk.
    pose proof (reg_value_range _ Ha) as Ra. pose proof (reg_value_range _ Hb) as Rb. pose proof (reg_value_range _ Hc) as Rc.
    rewrite Wa in Ra. rewrite Wb in Rb. rewrite Wc in Rc.
    fold va in Ra. fold vb in Rb. fold vc in Rc. change (2 ^ 1) with 2 in *.
    fold va vb vc in V. split.
    + split; [exact Or|]. split; [|split; assumption]. rewrite <- V.
      replace (reg_value r - 2 ^ w * reg_value k) with (reg_value r + (- reg_value k) * 2 ^ w) by ring.
      rewrite Z_mod_plus_full, Z.mod_small; lia.
    + split; [exact Ok'|]. split; [|split; [exact Wk|rewrite Ek; exact Er]].
      assert (K : reg_value k = 0 \/ reg_value k = 1) by lia.
      destruct (Z.ltb_spec va (vb + vc)); destruct K as [K|K]; rewrite K in *; lia.
Qed.
Print Assumptions C105_carry.

(** Shifts and rotations by a plaintext amount up to the width. A plaintext shl must not shift bits out and a plaintext shra must
    shift a non-negative number (otherwise bits above the width appear: C15). *)
Theorem C105_shift_plain_amount : forall p s o d a b w k wk v,
  instr_at s (ins o [d; a; b]) -> reg_ok (m_regs s a) -> reg_width (m_regs s a) = w -> m_regs s b = RPlain k wk ->
  0 <= k <= w -> k < 127 -> w <= 127 \/ reg_enc (m_regs s a) = true ->
  (reg_enc (m_regs s a) = false -> o = OShl -> reg_value (m_regs s a) * 2 ^ k < 2 ^ w) ->
  (reg_enc (m_regs s a) = false -> o = OShra -> reg_value (m_regs s a) < 2 ^ (w - 1)) ->
  doc_shift o w (reg_value (m_regs s a)) k = Some v ->
  exists s', seq_step p s = Ok (s', false) /\ sets s s' d v w (reg_enc (m_regs s a)).
Proof. exact shift_by_plain. Qed.
Print Assumptions C105_shift_plain_amount.

(** Shifts by an encrypted amount (whose bits can express the width); rotations need a power-of-two width. *)
Theorem C105_shift_encrypted_amount : forall p s o d a b w k v,
  instr_at s (ins o [d; a; b]) -> reg_ok (m_regs s a) -> reg_width (m_regs s a) = w -> m_regs s b = RCipher KL1Glwe k ->
  (0 < length k)%nat -> w <= 2 ^ Z.of_nat (length k) ->
  (o = ORotl \/ o = ORotr -> exists e, w = 2 ^ Z.of_nat e) ->
  doc_shift o w (reg_value (m_regs s a)) (uval k) = Some v ->
  exists s', seq_step p s = Ok (s', false) /\ sets s s' d v w true.
Proof. exact shift_by_encrypted. Qed.
Print Assumptions C105_shift_encrypted_amount.

(** Select: operands d, selector, value if the selector is 1, value if it is 0. *)
Theorem C105_select : forall p s d c a b w,
  instr_at s (ins OCmux [d; c; a; b]) -> reg_ok (m_regs s c) -> reg_ok (m_regs s a) -> reg_ok (m_regs s b) ->
  reg_width (m_regs s c) = 1 -> reg_width (m_regs s a) = w -> reg_width (m_regs s b) = w ->
  exists s', seq_step p s = Ok (s', false) /\
    sets s s' d (if reg_value (m_regs s c) =? 1 then reg_value (m_regs s a) else reg_value (m_regs s b)) w
      (reg_enc (m_regs s c) || reg_enc (m_regs s a) || reg_enc (m_regs s b)).
Proof.
  intros p s d c a b w Hi Hc Ha Hb Wc Wa Wb.
  destruct (cmux_ok p _ _ _ w Hc Ha Hb Wc Wa Wb) as (r & E & O & W & En & V).
  destruct (step_one p s _ d _ _ r Hi eq_refl eq_refl eq_refl E eq_refl) as (s' & X & P1 & P2 & P3 & P4).
  exists s'. split; [exact X|]. split; [exact P1|]. split; [exact P2|]. split; [|exact P4]. rewrite P3.
  split; [exact O|]. split; [|split; assumption]. rewrite V.
  pose proof (reg_value_range _ Hc) as R. rewrite Wc in R. change (2 ^ 1) with 2 in R.
  destruct (Z.eqb_spec (reg_value (m_regs s c)) 0); destruct (Z.eqb_spec (reg_value (m_regs s c)) 1); lia || reflexivity.
Qed.
Print Assumptions C105_select.

(** Load: operands d, pointer, width, offset. The little-endian bytes at pointer + offset, all plaintext or all encrypted. *)
Theorem C105_load : forall p s d a w off ptr w0 bs (e : bool),
  instr_at s (ins OLoad [d; a; w; off]) -> m_regs s a = RPlain ptr w0 -> 0 <= ptr < 2 ^ 32 -> access_width w ->
  addr_ok (ptr + off) -> (ptr + off) mod (w / 8) = 0 -> Z.of_nat (length bs) = w / 8 -> Forall byte_ok bs ->
  holds (m_mem s) (ptr + off) bs -> (if e then all_cipher bs else all_plain bs) ->
  exists s', seq_step p s = Ok (s', false) /\ sets s s' d (bytes_value bs) w e.
Proof. exact load_meaning. Qed.
Print Assumptions C105_load.

(** Store: operands pointer, source, width, offset (pointer and source must be different registers: C69). Exactly the w/8
    bytes at pointer + offset change, to the bytes of the value modulo 2^w. *)
Theorem C105_store : forall p s a b w off ptr w0,
  instr_at s (ins OStore [a; b; w; off]) -> a <> b -> m_regs s a = RPlain ptr w0 -> 0 <= ptr < 2 ^ 32 -> access_width w ->
  addr_ok (ptr + off) -> (ptr + off) mod (w / 8) = 0 -> reg_ok (m_regs s b) ->
  (reg_enc (m_regs s b) = true -> w <= reg_width (m_regs s b)) -> range_mapped (m_mem s) (ptr + off) (w / 8) ->
  exists s' bs, seq_step p s = Ok (s', false) /\ m_pc s' = m_pc s + 8 /\ (forall r, m_regs s' r = m_regs s r) /\
    holds (m_mem s') (ptr + off) bs /\ Z.of_nat (length bs) = w / 8 /\ Forall byte_ok bs /\
    bytes_value bs = reg_value (m_regs s b) mod 2 ^ w /\
    (if reg_enc (m_regs s b) then all_cipher bs else all_plain bs) /\
    same_outside (m_mem s) (m_mem s') (ptr + off) (w / 8).
Proof. exact store_meaning. Qed.
Print Assumptions C105_store.

(** Control flow: offsets are relative to the branch instruction itself. *)
Theorem C105_control_flow : forall p s,
  (forall off, instr_at s (ins OBranch [off]) ->
     exists s', seq_step p s = Ok (s', false) /\ goes s s' ((m_pc s + off) mod 2 ^ 32)) /\
  (forall a off v w, instr_at s (ins OBranchNonZero [a; off]) -> m_regs s a = RPlain v w ->
     exists s', seq_step p s = Ok (s', false) /\ goes s s' (if v =? 0 then m_pc s + 8 else (m_pc s + off) mod 2 ^ 32)) /\
  (forall a off v w, instr_at s (ins OBranchZero [a; off]) -> m_regs s a = RPlain v w ->
     exists s', seq_step p s = Ok (s', false) /\ goes s s' (if v =? 0 then (m_pc s + off) mod 2 ^ 32 else m_pc s + 8)) /\
  (forall a off c bits, instr_at s (ins OBranchNonZero [a; off]) \/ instr_at s (ins OBranchZero [a; off]) ->
     m_regs s a = RCipher c bits -> seq_step p s = Err EBranchOnCiphertext) /\
  (instr_at s (ins ORet []) -> exists s', seq_step p s = Ok (s', true) /\ goes s s' (m_pc s)) /\
  (forall a h, instr_at s (ins ODbg [a; h]) -> exists s', seq_step p s = Ok (s', false) /\ goes s s' (m_pc s + 8)).
Proof. exact control_flow. Qed.
Print Assumptions C105_control_flow.

(** Gas: the cost of the instruction about to run follows the documented table. *)
Theorem C105_gas : forall s i, instr_at s i ->
  seq_gas s = doc_gas (op i) (map (fun r => reg_enc (m_regs s r)) (src_regs i)).
Proof. exact gas_table. Qed.
Print Assumptions C105_gas.

(** A concrete case: a program in memory whose first instruction is a subtraction, on registers 3 = 10 and 7 = 4 (8 bits). *)
Definition ex_state (i : instr) : mach :=
  {| m_pc := 4096; m_regs := fun r => if r =? 3 then RPlain 10 8 else if r =? 7 then RPlain 4 8 else RPlain 0 32;
     m_mem := load_program Release [i] |}.
Lemma ex_at i : instr_wf i -> forall v, encode Release i = Ok v ->
  le_value (to_le 8 v) = v -> (forall k b, nth_error (map BPlain (to_le 8 v)) k = Some b ->
  peek (load_program Release [i]) (4096 + Z.of_nat k) = Some b) -> instr_at (ex_state i) i.
Proof.
  intros Hwf v E L H. split; [reflexivity|]. split; [cbn; lia|]. split; [cbn; lia|]. split; [exact Hwf|].
  exists (to_le 8 v). split; [apply to_le_length|]. split; [apply to_le_byte|]. split; [rewrite E, L; reflexivity|exact H].
Qed.
Example C105_meets : instr_at (ex_state (ins OSub [5; 3; 7])) (ins OSub [5; 3; 7]) /\
  binary_ok OSub 8 (m_regs (ex_state (ins OSub [5; 3; 7])) 3) (m_regs (ex_state (ins OSub [5; 3; 7])) 7) /\
  doc_binary OSub 8 10 4 = Some (6, 8) /\
  exists s', seq_step Debug (ex_state (ins OSub [5; 3; 7])) = Ok (s', false) /\ m_regs s' 5 = RPlain 6 8 /\ m_pc s' = 4104.
Proof.
  split; [|split; [|split]].
  - apply (ex_at _) with (v := 7390533).
    + repeat constructor; cbn; lia.
    + vm_compute. reflexivity.
    + vm_compute. reflexivity.
    + intros k b. do 8 (destruct k as [|k]; [intros E; injection E as <-; vm_compute; reflexivity|]).
      cbn. destruct k; discriminate.
  - repeat split; cbn; try lia.
  - vm_compute. reflexivity.
  - eexists. split; [vm_compute; reflexivity|]. split; vm_compute; reflexivity.
Qed.
