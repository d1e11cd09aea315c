(** Model of scheme switching (GLEV -> GGSW) in sunscreen_tfhe. The floating-point convention is that of
    TfheBoot.v. *)
From Verif Require Export TfheTrace.
From Verif Require Import Alu MuxGraph.
Open Scope Z_scope.

(** [l.nth(i) = x]. *)
Fixpoint setnth {A} (l : list A) (i : nat) (x : A) : list A :=
  match l, i with
  | [], _ => []
  | _ :: l, O => x :: l
  | y :: l, S i => y :: setnth l i x
  end.

(** sunscreen_tfhe/src/iteration/triangular_pairs.rs:19-41 [TriangularPairs::next]; the state is
    [(outer_idx, inner_idx)]. [None]: the iterator is exhausted; indexing past the end would panic. *)
Definition tri_next {A} (items : list A) (st : nat * nat) : res (option ((A * A) * (nat * nat))) :=
  let '(o, i) := st in
  if (length items <=? o)%nat then Ok None
  else match nth_error items o, nth_error items i with
       | Some x, Some y => Ok (Some ((x, y), if (length items <=? i + 1)%nat then (o + 1, o + 1)%nat else (o, i + 1)%nat))
       | _, _ => Panic
       end.
(** Collecting at most [fuel] items from the iterator. *)
Fixpoint tri_collect {A} (items : list A) (st : nat * nat) (fuel : nat) : res (list (A * A)) :=
  match fuel with
  | O => Ok []
  | S fuel =>
      r <- tri_next items st ;;
      match r with
      | None => Ok []
      | Some (p, st') => ps <- tri_collect items st' fuel ;; Ok (p :: ps)
      end
  end.
(** sunscreen_tfhe/src/entities/scheme_switch_key.rs:15-17 [triangular_number_entries]. *)
Definition tri_count (n : nat) : nat := (n * (n + 1) / 2)%nat.
(** sunscreen_tfhe/src/entities/scheme_switch_key.rs:21-30 [get_linear_index]. *)
Definition linear_index (i j n : nat) : res nat :=
  if (i <? n)%nat && (j <? n)%nat then
    let '(row, col) := if (i <=? j)%nat then (i, j) else (j, i) in
    Ok (n * (n + 1) / 2 - (n - row) * ((n - row) + 1) / 2 + col - row)%nat
  else Panic.

(** The shape of a scheme-switch key: sunscreen_tfhe/src/entities/scheme_switch_key.rs:48-60. *)
Definition ssk_valid (N k count : nat) (ssk : list (list glwe)) : bool :=
  (length ssk =? tri_count k)%nat && forallb (glev_valid N k count) ssk.
(** sunscreen_tfhe/src/ops/bootstrapping/scheme_switch.rs:42-63: encrypt each product under the key. [fmul s t]
    is the polynomial the code obtains by multiplying s and t through the f64 FFT. *)
Fixpoint ssk_loop (pr : profile) (w log : Z) (count N k : nat) (sk : list (list Z)) (fmul : list Z -> list Z -> list Z)
    (pairs : list (list Z * list Z)) (ssk : list (list glwe)) (rnd : nat -> list (list (list Z) * option (list Z)))
  : res (list (list glwe)) :=
  match pairs, ssk with
  | (s, t) :: pairs, g :: ssk =>
      g' <- glev_encrypt pr w log count N k g (fmul s t) sk (rnd O) ;;
      gs <- ssk_loop pr w log count N k sk fmul pairs ssk (fun i => rnd (S i)) ;;
      Ok (g' :: gs)
  | _, ssk => Ok ssk
  end.
(** sunscreen_tfhe/src/ops/bootstrapping/scheme_switch.rs:22-64 [generate_scheme_switch_key]; zipping with the key
    stops after as many pairs as there are GLEV ciphertexts. *)
Definition generate_ssk (pr : profile) (w log : Z) (count N k : nat) (ssk : list (list glwe)) (sk : list (list Z))
    (fmul : list Z -> list Z -> list Z) (rnd : nat -> list (list (list Z) * option (list Z))) : res (list (list glwe)) :=
  if glwe_dim_valid N k && radix_valid w log count && ssk_valid N k count ssk && polys_valid N k sk then
    pairs <- tri_collect sk (0, 0)%nat (length ssk) ;;
    ssk_loop pr w log count N k sk fmul pairs ssk rnd
  else Panic.

(** The loop over the mask: sunscreen_tfhe/src/ops/bootstrapping/scheme_switch.rs:308-317 and
    ops/fft_ops.rs:270-277, from mask polynomial [r] on. *)
Fixpoint ss_mads (pr : profile) (w log : Z) (count N k : nat) (ssk : list (list glwe)) (j r : nat) (polys : list (list Z))
    (c : glwe) : res glwe :=
  match polys with
  | [] => Ok c
  | a :: polys =>
      idx <- linear_index j r k ;;
      match nth_error ssk idx with
      | None => Panic
      | Some g => c' <- glev_mad pr w log count N k c a g ;; ss_mads pr w log count N k ssk j (S r) polys c'
      end
  end.
(** [fill_a_at_index] (entities/glwe_ciphertext.rs:190-208). *)
Definition fill_a (N k : nat) (c : glwe) (p : list Z) (j : nat) : res glwe :=
  if (j <? k)%nat && (length p =? N)%nat then Ok {| ga := setnth (ga c) j p; gb := gb c |} else Panic.
(** [zero_out_a_at_index] (entities/glwe_ciphertext.rs:166-173). *)
Definition zero_a (N k : nat) (c : glwe) (j : nat) : res glwe :=
  if (j <? k)%nat then Ok {| ga := setnth (ga c) j (zpoly N); gb := gb c |} else Panic.

(** One row: scheme_switch.rs:289-318. [enc] is the scratch ciphertext [encoded_b_i]; the old row is
    overwritten ([clone_from_ref]), so only its length matters. *)
Fixpoint ss_row (pr : profile) (w log : Z) (count N k : nat) (ssk : list (list glwe)) (j : nat) (enc : glwe)
    (xs row : list glwe) : res (glwe * list glwe) :=
  match xs, row with
  | x :: xs, _ :: row =>
      enc' <- fill_a N k enc (gb x) j ;;
      y <- ss_mads pr w log count N k ssk j 0 (ga x) enc' ;;
      ' (enc'', ys) <- ss_row pr w log count N k ssk j enc' xs row ;;
      Ok (enc'', y :: ys)
  | _, row => Ok (enc, row)
  end.
(** The rows: scheme_switch.rs:275-319, from row [j] on. *)
Fixpoint ss_rows (pr : profile) (w log : Z) (count N k : nat) (ssk : list (list glwe)) (glev : list glwe) (j : nat) (enc : glwe)
    (rows : list (list glwe)) : res (list (list glwe)) :=
  match rows with
  | [] => Ok []
  | row :: rows =>
      if (j =? k)%nat then
        rows' <- ss_rows pr w log count N k ssk glev (S j) enc rows ;; Ok (glev :: rows')
      else
        enc0 <- zero_a N k enc (if (j =? 0)%nat then k - 1 else j - 1)%nat ;;
        ' (enc', row') <- ss_row pr w log count N k ssk j enc0 glev row ;;
        rows' <- ss_rows pr w log count N k ssk glev (S j) enc' rows ;;
        Ok (row' :: rows')
  end.
(** scheme_switch.rs:244-320 [scheme_switch]. [cg] is the GGSW radix count, [log], [count] the radix of the
    scheme-switch key. *)
Definition scheme_switch (pr : profile) (w log : Z) (count cg N k : nat) (out : list (list glwe)) (glev : list glwe)
    (ssk : list (list glwe)) : res (list (list glwe)) :=
  if ssk_valid N k count ssk && ggsw_valid N k cg out && glev_valid N k cg glev
  then ss_rows pr w log count N k ssk glev 0 (glwe_new N k) out else Panic.

(** sunscreen_tfhe/src/ops/fft_ops.rs:222-278 [scheme_switch_glwe_operation]. The output (in FFT form) is
    written as the torus ciphertext it represents; [d] is the floating-point error. Only mask polynomial [j] of
    the old contents [y] is replaced, everything else is accumulated into. *)
Definition ss_op_fft (pr : profile) (w log : Z) (count N k : nat) (ssk : list (list glwe)) (j : nat) (y x d : glwe) : res glwe :=
  if (j =? k)%nat then Ok (glwe_perturb w x d)
  else
    y0 <- fill_a N k y (gb x) j ;;
    y1 <- ss_mads pr w log count N k ssk j 0 (ga x) y0 ;;
    Ok (glwe_perturb w y1 d).
Fixpoint ss_row_fft (pr : profile) (w log : Z) (count N k : nat) (ssk : list (list glwe)) (j : nat)
    (xs row : list glwe) (ds : nat -> glwe) : res (list glwe) :=
  match xs, row with
  | x :: xs, y :: row =>
      y' <- ss_op_fft pr w log count N k ssk j y x (ds O) ;;
      ys <- ss_row_fft pr w log count N k ssk j xs row (fun i => ds (S i)) ;;
      Ok (y' :: ys)
  | _, row => Ok row
  end.
Fixpoint ss_rows_fft (pr : profile) (w log : Z) (count N k : nat) (ssk : list (list glwe)) (glev : list glwe) (j : nat)
    (rows : list (list glwe)) (ds : nat -> nat -> glwe) : res (list (list glwe)) :=
  match rows with
  | [] => Ok []
  | row :: rows =>
      row' <- ss_row_fft pr w log count N k ssk j glev row (ds j) ;;
      rows' <- ss_rows_fft pr w log count N k ssk glev (S j) rows ds ;;
      Ok (row' :: rows')
  end.
(** sunscreen_tfhe/src/ops/fft_ops.rs:403-442 [scheme_switch_fft]. *)
Definition scheme_switch_fft (pr : profile) (w log : Z) (count cg N k : nat) (out : list (list glwe)) (glev : list glwe)
    (ssk : list (list glwe)) (ds : nat -> nat -> glwe) : res (list (list glwe)) :=
  if ssk_valid N k count ssk && ggsw_valid N k cg out && glev_valid N k cg glev
  then ss_rows_fft pr w log count N k ssk glev 0 out ds else Panic.
