(** Model of the arithmetic, logic, comparison, shift, cast, select and load-immediate instructions:
    parasol_cpu/src/proc/ops/*.rs and parasol_cpu/src/proc/mod.rs.

    Every instruction is a function from the operand registers to the value written to the destination register(s).
    In the code the destination is assigned in the last step of the success path only, so [Err] (or [Panic]) means
    that no register was written.

    Simplifications.
    - A ciphertext register is modelled by the bits it encrypts (least significant first) and its ciphertext kind;
      the encrypted branch computes the bits the spawned circuit produces once all its micro-operations have run
      (FheGraph.v, Sched.v and Tfhe*.v justify reading the graph as a boolean function). Ciphertexts are assumed to
      carry little enough noise to decrypt to that bit.
    - Registers hold u128 values: 0 <= val < 2^128. *)
From Verif Require Import Base Combos Circuits.

(** parasol_cpu/src/proc/mod.rs:38-60 Ciphertext variants. *)
Inductive ckind := KL0Lwe | KL1Lwe | KL1Glwe | KL1Ggsw.

(** parasol_cpu/src/proc/mod.rs:101-105 Register. *)
Inductive reg :=
| RPlain (val width : Z)
| RCipher (k : ckind) (bits : list bool).

(** parasol_cpu/src/proc/mod.rs:171-175 Default. *)
Definition reg_default : reg := RPlain 0 32.

(** parasol_cpu/src/proc/mod.rs:122-127 width. *)
Definition reg_width (r : reg) : Z :=
  match r with RPlain _ w => w | RCipher _ d => Z.of_nat (length d) end.

(** parasol_cpu/src/proc/mod.rs:179-198 check_register_width. *)
Definition check_register_width (a b : reg) : res unit :=
  if negb (reg_width a =? reg_width b) then Err EWidthMismatch
  else if (reg_width a <? 1) || (128 <? reg_width a) then Err EUnsupportedWidth
  else Ok tt.

Fixpoint mapM {A B} (f : A -> res B) (l : list A) : res (list B) :=
  match l with [] => Ok [] | x :: l => y <- f x ;; ys <- mapM f l ;; Ok (y :: ys) end.

(** mux_circuits/src/lib.rs:514-522 convert_value_to_bits: bit i is `(val >> i) & 1 == 1`, i in 0..width. *)
Definition convert_value_to_bits (p : profile) (val width : Z) : res (list bool) :=
  mapM (fun i => x <- ushr p 128 val (Z.of_nat i) ;; Ok (Z.odd x)) (seq 0 (Z.to_nat width)).

(** parasol_cpu/src/proc/mod.rs:205-220 register_to_l1glwe_by_trivial_lift (ops/mod.rs:102-116
    trivially_encrypt_value_l1glwe). *)
Definition lift (p : profile) (r : reg) : res (list bool) :=
  match r with
  | RPlain v w => convert_value_to_bits p v w
  | RCipher KL1Glwe d => Ok d
  | RCipher _ _ => Err EEncryptionMismatch
  end.

(** `(0x1 << width) - 1` on u128, the mask expression used throughout ops/*.rs. *)
Definition umask (p : profile) (w : Z) : res Z := x <- ushl p 128 1 w ;; usub p 128 x 1.

(** `output[0..output.len() - 1]` and `output[output.len() - 1]` (panic on an empty vector). *)
Definition split_last (l : list bool) : res (list bool * bool) :=
  match l with [] => Panic | _ => Ok (removelast l, last l false) end.

(** ** add.rs *)

(** parasol_runtime/src/circuits/add.rs:10-32 add_circuit. *)
Definition add_circuit (w : nat) (c1 c2 : list bool) (carry : option (list bool)) : res (list bool) :=
  run_res (ripple_carry_adder w w (match carry with Some _ => true | None => false end))
    (match carry with Some c => c | None => [] end ++ interleave c1 c2).

(** ops/add.rs:13-77 add. *)
Definition op_add (p : profile) (a b : reg) : res reg :=
  _ <- check_register_width a b ;;
  match a, b with
  | RPlain v1 w1, RPlain v2 _ =>
      mask <- umask p w1 ;; Ok (RPlain (Z.land (uwrap 128 (v1 + v2)) mask) w1)
  | _, _ =>
      c1 <- lift p a ;; c2 <- lift p b ;;
      out <- add_circuit (Z.to_nat (reg_width a)) c1 c2 None ;;
      ' (d, _) <- split_last out ;;
      Ok (RCipher KL1Glwe d)
  end.

(** ops/add.rs:180-189 add_with_carry. *)
Definition add_with_carry (p : profile) (a b cin w : Z) : res (Z * Z) :=
  sum_mask <- umask p w ;;
  let full_sum := uwrap 128 (uwrap 128 (a + b) + cin) in
  let sum := Z.land full_sum sum_mask in
  c <- ushr p 128 full_sum w ;;
  Ok (sum, Z.land c 1).

(** ops/add.rs:80-177 add_carry: (dst, carry_out). *)
Definition op_add_carry (p : profile) (a b cin : reg) : res (reg * reg) :=
  _ <- check_register_width a b ;;
  if negb (reg_width cin =? 1) then Err EWidthMismatch
  else match a, b, cin with
  | RPlain v1 w, RPlain v2 _, RPlain c _ =>
      ' (s, co) <- add_with_carry p v1 v2 c w ;; Ok (RPlain s w, RPlain co 1)
  | _, _, _ =>
      c1 <- lift p a ;; c2 <- lift p b ;; cc <- lift p cin ;;
      out <- add_circuit (Z.to_nat (reg_width a)) c1 c2 (Some cc) ;;
      ' (d, c) <- split_last out ;;
      Ok (RCipher KL1Glwe d, RCipher KL1Glwe [c])
  end.

(** ** sub.rs *)

(** parasol_runtime/src/circuits/sub.rs sub_circuit. *)
Definition sub_circuit (w : nat) (c1 c2 : list bool) (borrow : option (list bool)) : res (list bool) :=
  run_res (full_subtractor w (match borrow with Some _ => true | None => false end))
    (match borrow with Some c => c | None => [] end ++ interleave c1 c2).

(** ops/sub.rs:14-78 sub. *)
Definition op_sub (p : profile) (a b : reg) : res reg :=
  _ <- check_register_width a b ;;
  match a, b with
  | RPlain v1 w1, RPlain v2 _ =>
      mask <- umask p w1 ;; Ok (RPlain (Z.land (uwrap 128 (v1 - v2)) mask) w1)
  | _, _ =>
      c1 <- lift p a ;; c2 <- lift p b ;;
      out <- sub_circuit (Z.to_nat (reg_width a)) c1 c2 None ;;
      ' (d, _) <- split_last out ;;
      Ok (RCipher KL1Glwe d)
  end.

(** mux_circuits/src/util.rs:13-17 borrowing_sub. *)
Definition borrowing_sub (lhs rhs : Z) (borrow : bool) : Z * bool :=
  let a := uwrap 128 (lhs - rhs) in
  let b := lhs <? rhs in
  let c := uwrap 128 (a - b2z borrow) in
  let d := a <? b2z borrow in
  (c, b || d).

(** mux_circuits/src/util.rs:28-41 arbitrary_width_borrowing_sub. *)
Definition arbitrary_width_borrowing_sub (p : profile) (lhs rhs borrow w : Z) : res (Z * Z) :=
  mask <- umask p w ;;
  let '(diff, bo) := borrowing_sub lhs rhs (negb (borrow =? 0)) in
  Ok (Z.land diff mask, b2z bo).

(** ops/sub.rs:81-176 sub_borrow: (dst, borrow_out). *)
Definition op_sub_borrow (p : profile) (a b bin : reg) : res (reg * reg) :=
  _ <- check_register_width a b ;;
  if negb (reg_width bin =? 1) then Err EWidthMismatch
  else match a, b, bin with
  | RPlain v1 w, RPlain v2 _, RPlain c _ =>
      ' (s, bo) <- arbitrary_width_borrowing_sub p v1 v2 c w ;; Ok (RPlain s w, RPlain bo 1)
  | _, _, _ =>
      c1 <- lift p a ;; c2 <- lift p b ;; cc <- lift p bin ;;
      out <- sub_circuit (Z.to_nat (reg_width a)) c1 c2 (Some cc) ;;
      ' (d, c) <- split_last out ;;
      Ok (RCipher KL1Glwe d, RCipher KL1Glwe [c])
  end.

(** ** mul.rs *)

(** ops/mul.rs:75-117 unsigned_multiply_cipher_cipher (every ciphertext kind is converted to GGSW). *)
Definition mul_cipher_cipher (a b : list bool) (width : Z) : res reg :=
  if negb (length a =? length b)%nat then Panic
  else
    ' (lo, _) <- append_uint_multiply a b ;;
    if (length lo =? Z.to_nat width)%nat then Ok (RCipher KL1Glwe lo) else Panic.

(** ops/mul.rs:23-73, 119-137 unsigned_multiply, multiply_cipher_plain. *)
Definition op_mul (p : profile) (a b : reg) : res reg :=
  _ <- check_register_width a b ;;
  let width := reg_width a in
  mask <- (if width <? 128 then umask p width else Ok (2 ^ 128 - 1)) ;;
  match a, b with
  | RPlain v1 w, RPlain v2 _ => Ok (RPlain (Z.land (uwrap 128 (v1 * v2)) mask) w)
  | RCipher _ d1, RCipher _ d2 => mul_cipher_cipher d1 d2 width
  | RCipher _ d1, RPlain v2 w => c2 <- convert_value_to_bits p v2 w ;; mul_cipher_cipher d1 c2 w
  | RPlain v1 w, RCipher _ d2 => c1 <- convert_value_to_bits p v1 w ;; mul_cipher_cipher d2 c1 w
  end.

(** ** and.rs, or.rs, xor.rs, not.rs, neg.rs *)

(** ops/and.rs:17-98 and. *)
Definition op_and (p : profile) (a b : reg) : res reg :=
  _ <- check_register_width a b ;;
  match a, b with
  | RPlain v1 w, RPlain v2 _ => mask <- umask p w ;; Ok (RPlain (Z.land (Z.land v1 v2) mask) w)
  | _, _ =>
      c1 <- lift p a ;; c2 <- lift p b ;;
      out <- run_circuit (make_and_circuit (Z.to_nat (reg_width a))) (interleave c1 c2) ;;
      Ok (RCipher KL1Glwe out)
  end.

(** ops/or.rs:17-98 or. *)
Definition op_or (p : profile) (a b : reg) : res reg :=
  _ <- check_register_width a b ;;
  match a, b with
  | RPlain v1 w, RPlain v2 _ => mask <- umask p w ;; Ok (RPlain (Z.land (Z.lor v1 v2) mask) w)
  | _, _ =>
      c1 <- lift p a ;; c2 <- lift p b ;;
      out <- run_circuit (make_or_circuit (Z.to_nat (reg_width a))) (interleave c1 c2) ;;
      Ok (RCipher KL1Glwe out)
  end.

(** ops/xor.rs:16-95 xor (`val1 ^ val2 & mask`: & binds tighter). The encrypted branch adds the GLWE ciphertexts of
    a 1-bit plaintext space pairwise (zip). *)
Definition op_xor (p : profile) (a b : reg) : res reg :=
  _ <- check_register_width a b ;;
  match a, b with
  | RPlain v1 w, RPlain v2 _ => mask <- umask p w ;; Ok (RPlain (Z.lxor v1 (Z.land v2 mask)) w)
  | _, _ =>
      c1 <- lift p a ;; c2 <- lift p b ;;
      Ok (RCipher KL1Glwe (zipwith xorb c1 c2))
  end.

(** ops/not.rs:14-70 not. *)
Definition op_not (p : profile) (a : reg) : res reg :=
  match a with
  | RPlain v w => mask <- umask p w ;; Ok (RPlain (Z.land (unot 128 v) mask) w)
  | RCipher KL1Glwe d => Ok (RCipher KL1Glwe (map negb d))
  | RCipher _ _ => Err EEncryptionMismatch
  end.

(** ops/neg.rs:10-53 neg (the ciphertext branches are todo!()). *)
Definition op_neg (p : profile) (a : reg) : res reg :=
  match a with
  | RPlain v w => mask <- umask p w ;; Ok (RPlain (Z.land (uwrap 128 (- v)) mask) w)
  | RCipher _ _ => Panic
  end.

(** ** comparisons.rs *)

(** ops/comparisons.rs:17-24 to_signed; the result is an i128 (`as i128` reinterprets the 128 bits). *)
Definition to_signed (p : profile) (val w : Z) : res Z :=
  w1 <- usub p 32 w 1 ;;
  sign <- ushl p 128 1 w1 ;;
  if Z.land sign val =? 0 then Ok (sint 128 val)
  else
    s2 <- ushl p 128 sign 1 ;;
    m <- usub p 128 s2 1 ;;
    Ok (sint 128 (Z.lor (unot 128 m) val)).

(** The comparison instructions: equality, or (signed?, greater?, or_equal?). *)
Inductive cmpop := CEq | COrd (signed greater or_equal : bool).

(** The closures of ops/comparisons.rs:125-310 over plaintext values; Rust's <, <=, >, >=, ==. *)
Definition cmp_plain (p : profile) (op : cmpop) (a wa b wb : Z) : res bool :=
  let ord (greater or_equal : bool) (x y : Z) : bool :=
    match greater, or_equal with
    | true, false => y <? x | true, true => y <=? x | false, false => x <? y | false, true => x <=? y
    end in
  match op with
  | CEq => Ok (a =? b)
  | COrd false g e => Ok (ord g e a b)
  | COrd true g e => x <- to_signed p a wa ;; y <- to_signed p b wb ;; Ok (ord g e x y)
  end.

(** The circuit generators of ops/comparisons.rs:125-310. *)
Definition cmp_gen (op : cmpop) (n : nat) : res circuit :=
  match op with
  | CEq => compare_equal n
  | COrd false g e => compare_or_maybe_equal n g e
  | COrd true g e => compare_or_maybe_equal_signed n g e
  end.

(** ops/comparisons.rs:28-106 comparison_operation. *)
Definition op_cmp (p : profile) (op : cmpop) (a b : reg) : res reg :=
  _ <- check_register_width a b ;;
  match a, b with
  | RPlain v1 w1, RPlain v2 w2 => r <- cmp_plain p op v1 w1 v2 w2 ;; Ok (RPlain (b2z r) 1)
  | _, _ =>
      c1 <- lift p a ;; c2 <- lift p b ;;
      out <- run_res (cmp_gen op (Z.to_nat (reg_width a))) (interleave c1 c2) ;;
      Ok (RCipher KL1Glwe out)
  end.

(** ** bitshift.rs *)

Inductive shiftop := SShl | SShr | SShra | SRotl | SRotr.

(** ops/bitshift.rs:20-30 arithmetic_shift_right_arbitrary_width. *)
Definition plain_shra (p : profile) (val s w : Z) : res Z :=
  right <- ushr p 128 val s ;;
  w1 <- usub p 32 w 1 ;;
  sb <- ushl p 128 1 w1 ;;
  if Z.land sb val =? 0 then Ok right
  else
    s1 <- uadd p 128 s 1 ;;
    x <- ushl p 128 1 s1 ;;
    y <- usub p 128 x 1 ;;
    d <- usub p 128 w s ;;
    signs <- ushl p 128 y d ;;
    Ok (Z.lor signs right).

(** ops/bitshift.rs:32-39 rotate_right_arbitrary_width. *)
Definition plain_rotr (p : profile) (val s w : Z) : res Z :=
  mask <- umask p w ;;
  d <- usub p 128 w s ;;
  l <- ushl p 128 val d ;;
  r <- ushr p 128 val s ;;
  Ok (Z.land (Z.lor l r) mask).

(** ops/bitshift.rs:41-48 rotate_left_arbitrary_width. *)
Definition plain_rotl (p : profile) (val s w : Z) : res Z :=
  mask <- umask p w ;;
  l <- ushl p 128 val s ;;
  d <- usub p 128 w s ;;
  r <- ushr p 128 val d ;;
  Ok (Z.land (Z.lor l r) mask).

(** The closures passed by shr (204), shra (234), shl (270), rotr (303), rotl (336). *)
Definition plain_shift (p : profile) (op : shiftop) (val s w : Z) : res Z :=
  match op with
  | SShl => ushl p 128 val s
  | SShr => ushr p 128 val s
  | SShra => plain_shra p val s w
  | SRotl => plain_rotl p val s w
  | SRotr => plain_rotr p val s w
  end.

(** The direction and mode used for each instruction (ops/bitshift.rs:205-355). *)
Definition shift_dm (op : shiftop) : shift_dir * shift_mode :=
  match op with
  | SShl => (DLeft, MLogical) | SShr => (DRight, MLogical) | SShra => (DRight, MArithmetic)
  | SRotl => (DLeft, MRotation) | SRotr => (DRight, MRotation)
  end.

(** ops/bitshift.rs:50-87 encrypted_value_plain_shift; slice rotations panic when shift > len; entries of the
    vector are overwritten one by one, i.e. the first (Left) or last (Right) [s] entries. *)
Definition encrypted_value_plain_shift (c : list bool) (s : nat) (op : shiftop) : res (list bool) :=
  match c with
  | [] => Panic                                                          (* result.last().unwrap() *)
  | _ =>
      let old_msb := last c false in
      if (length c <? s)%nat then Panic
      else
        let '(dir, mode) := shift_dm op in
        let rot := match dir with DLeft => rotate_right s c | DRight => rotate_left s c end in
        let fill (x : bool) := match dir with
                    | DLeft => repeat x s ++ skipn s rot
                    | DRight => firstn (length rot - s) rot ++ repeat x s
                    end in
        Ok (match mode with
            | MLogical => fill false
            | MRotation => rot
            | MArithmetic => fill old_msb
            end)
  end.

(** ops/bitshift.rs:101-184 shift_operation. *)
Definition op_shift (p : profile) (op : shiftop) (src shift : reg) : res reg :=
  match src, shift with
  | RPlain v w, RPlain s _ => r <- plain_shift p op v s w ;; Ok (RPlain r w)
  | RCipher KL1Glwe c, RPlain s _ =>
      out <- encrypted_value_plain_shift c (Z.to_nat (uwrap 32 s)) op ;;    (* *shift as u32 *)
      Ok (RCipher KL1Glwe out)
  | _, RCipher KL1Glwe cs =>
      c <- lift p src ;;
      let '(dir, mode) := shift_dm op in
      out <- run_res (bitshift (length c) (length cs) dir mode) (rev c ++ rev cs) ;;
      Ok (RCipher KL1Glwe (rev out))
  | _, _ => Err EEncryptionMismatch
  end.

(** ** casting.rs *)

(** ops/casting.rs:57-128 ext. *)
Definition op_ext (p : profile) (signed : bool) (src : reg) (new_width : Z) : res reg :=
  if new_width <? reg_width src then Err EWidthMismatch
  else match src with
  | RPlain v w =>
      if signed then
        w1 <- usub p 32 w 1 ;;
        top <- ushr p 128 v w1 ;;
        if top =? 0 then Ok (RPlain v new_width)
        else
          old_mask <- umask p w ;;
          new_mask <- umask p new_width ;;
          Ok (RPlain (Z.land (Z.lor v (unot 128 old_mask)) new_mask) new_width)
      else Ok (RPlain v new_width)
  | RCipher KL1Glwe d =>
      if signed && (length d =? 0)%nat then Panic                        (* data.last().unwrap() *)
      else
        let pad := if signed then last d false else false in
        Ok (RCipher KL1Glwe (d ++ repeat pad (Z.to_nat new_width - length d)))
  | RCipher _ _ => Err EEncryptionMismatch
  end.

(** ops/casting.rs:132-183 trunc. *)
Definition op_trunc (p : profile) (src : reg) (new_width : Z) : res reg :=
  if reg_width src <? new_width then Err EWidthMismatch
  else match src with
  | RPlain v _ => mask <- umask p new_width ;; Ok (RPlain (Z.land v mask) new_width)
  | RCipher KL1Glwe d => Ok (RCipher KL1Glwe (firstn (Z.to_nat new_width) d))
  | RCipher _ _ => Err EEncryptionMismatch
  end.

(** ** cmux.rs *)

(** ops/cmux.rs:18-157 cmux. An encrypted GGSW select is wired through SampleExtract, which rejects its operand when
    the micro-operation runs: modelled as an error. *)
Definition op_cmux (p : profile) (sel a b : reg) : res reg :=
  _ <- check_register_width a b ;;
  if negb (reg_width sel =? 1) then Err EWidthMismatch
  else match sel with
  | RPlain v _ =>
      let decision := negb (v =? 0) in
      match a, b with
      | RPlain va _, RPlain vb _ => Ok (RPlain (if decision then va else vb) (reg_width a))
      | _, _ =>
          ca <- lift p a ;; cb <- lift p b ;;
          Ok (RCipher KL1Glwe (if decision then ca else cb))
      end
  | RCipher k d =>
      ca <- lift p a ;; cb <- lift p b ;;
      match k with
      | KL1Glwe => Ok (RCipher KL1Glwe (zipwith (fun hi lo => cmux (nth 0 d false) lo hi) ca cb))
      | KL1Ggsw => Err EOther
      | _ => Err EEncryptionMismatch
      end
  end.

(** ** loadi.rs, mov.rs *)

(** ops/loadi.rs:9-47 loadi. `1 << width` is a u64 (compared with `imm as u64`), `0xFFFFFFFF << (width - 1)` a u32,
    the mask a u128. *)
Definition op_loadi (p : profile) (imm width : Z) : res reg :=
  lim <- ushl p 64 1 width ;;
  w1 <- usub p 32 width 1 ;;
  neg_lim <- ushl p 32 (2 ^ 32 - 1) w1 ;;
  if negb (imm <? lim) && negb (neg_lim <=? imm) then Err EOutOfRange
  else mask <- umask p width ;; Ok (RPlain (Z.land imm mask) width).

(** ops/mov.rs:10-43 mov. *)
Definition op_mov (r : reg) : res reg := Ok r.

(** ** The two-operand instructions as a family (dispatch of fhe_processor.rs:761-905) *)
Inductive binop := BAdd | BSub | BMul | BAnd | BOr | BXor | BCmp (c : cmpop).

Definition exec_binop (p : profile) (op : binop) (a b : reg) : res reg :=
  match op with
  | BAdd => op_add p a b | BSub => op_sub p a b | BMul => op_mul p a b
  | BAnd => op_and p a b | BOr => op_or p a b | BXor => op_xor p a b
  | BCmp c => op_cmp p c a b
  end.
