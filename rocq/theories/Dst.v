(** Model of the strided iterators of sunscreen_tfhe/src/dst.rs (macro dst_iter!, lines 153-480) through which every list of polynomials,
    ciphertexts and keys is walked, one element of [stride] words at a time, from either end, or split among threads.

    Positions are mathematical integers: a slice has fewer than 2^63 words, so no cast between usize, isize and i64 changes a value; the one
    subtraction that can go below zero (line 335) is modelled with its build profile. A mutable element is a raw sub-slice, modelled by the
    position where it starts (its length is always the stride). *)
From Verif Require Import Base.
Open Scope Z_scope.

(** Which end the caller takes from. *)
Inductive side := Front | Back.

(** * Shared iterators *)
(** dst.rs:157-162: the fields of $t other than data. *)
Record iter := { i_stride : Z; i_front : Z; i_back : Z }.

(** data[start .. start + n], which aborts out of range. *)
Definition slice {A} (data : list A) (start n : Z) : res (list A) :=
  if (0 <=? start) && (start + n <=? Z.of_nat (length data)) then Ok (firstn (Z.to_nat n) (skipn (Z.to_nat start) data)) else Panic.

(** dst.rs:167-176 new: a remainder by zero aborts. *)
Definition iter_new {A} (data : list A) (stride : Z) : res iter :=
  if stride =? 0 then Panic
  else if Z.of_nat (length data) mod stride =? 0 then
    Ok {| i_stride := stride; i_front := 0; i_back := Z.of_nat (length data) - stride |}
  else Panic.

(** dst.rs:179-184 len: computed from the whole slice. *)
Definition iter_len {A} (data : list A) (it : iter) : Z := Z.of_nat (length data) / i_stride it.

(** dst.rs:189-205 next. *)
Definition iter_next {A} (data : list A) (it : iter) : res (iter * option (list A)) :=
  if Z.of_nat (length data) <=? i_front it then Ok (it, None)
  else if i_front it =? i_back it + i_stride it then Ok (it, None)
  else
    x <- slice data (i_front it) (i_stride it) ;;
    Ok ({| i_stride := i_stride it; i_front := i_front it + i_stride it; i_back := i_back it |}, Some x).

(** dst.rs:209-227 next_back. *)
Definition iter_next_back {A} (data : list A) (it : iter) : res (iter * option (list A)) :=
  if i_back it <? 0 then Ok (it, None)
  else if i_front it =? i_back it + i_stride it then Ok (it, None)
  else
    x <- slice data (i_back it) (i_stride it) ;;
    Ok ({| i_stride := i_stride it; i_front := i_front it; i_back := i_back it - i_stride it |}, Some x).

(** A caller that takes from the given ends, in order: what it is handed, and the iterator afterwards. *)
Fixpoint iter_run {A} (data : list A) (it : iter) (ops : list side) : res (iter * list (option (list A))) :=
  match ops with
  | [] => Ok (it, [])
  | o :: t =>
      '(it1, x) <- (match o with Front => iter_next data it | Back => iter_next_back data it end) ;;
      '(it2, xs) <- iter_run data it1 t ;;
      Ok (it2, x :: xs)
  end.

(** * Mutable iterators *)
(** dst.rs:321-327: the fields of $t_mut other than the pointer. *)
Record miter := { m_front : Z; m_back : Z; m_stride : Z }.

(** x as isize, for a 64-bit word x. *)
Definition as_isize (x : Z) : Z := if x <? 2 ^ 63 then x else x - 2 ^ 64.

(** dst.rs:332-344 new, for a slice of [len] words. *)
Definition miter_new (p : profile) (len stride : Z) : res miter :=
  if stride =? 0 then Panic
  else if len mod stride =? 0 then
    d <- usub p 64 len stride ;;
    Ok {| m_front := 0; m_back := as_isize d; m_stride := stride |}
  else Panic.

(** dst.rs:350-363 next: the start of the sub-slice handed out. *)
Definition miter_next (it : miter) : miter * option Z :=
  if m_back it <? m_front it then (it, None)
  else ({| m_front := m_front it + m_stride it; m_back := m_back it; m_stride := m_stride it |}, Some (m_front it)).

(** dst.rs:374-387 next_back. *)
Definition miter_next_back (it : miter) : miter * option Z :=
  if m_back it <? m_front it then (it, None)
  else ({| m_front := m_front it; m_back := m_back it - m_stride it; m_stride := m_stride it |}, Some (m_back it)).

(** dst.rs:366-371 len. *)
Definition miter_len (it : miter) : Z := (m_back it - m_front it + m_stride it) / m_stride it.

Fixpoint miter_run (it : miter) (ops : list side) : miter * list (option Z) :=
  match ops with
  | [] => (it, [])
  | o :: t =>
      let '(it1, x) := match o with Front => miter_next it | Back => miter_next_back it end in
      let '(it2, xs) := miter_run it1 t in
      (it2, x :: xs)
  end.

(** * Parallel iterators *)
(** dst.rs:231-235, 391-395: a producer owns the words from [p_start], [p_len] of them. *)
Record prod := { p_start : Z; p_len : Z; p_stride : Z; p_count : Z }.

(** dst.rs:241-251, 401-411 new. *)
Definition prod_new (len stride : Z) : res prod :=
  if stride =? 0 then Panic
  else if len mod stride =? 0 then Ok {| p_start := 0; p_len := len; p_stride := stride; p_count := len / stride |}
  else Panic.

(** dst.rs:260-278, 420-438 split_at: slice::split_at aborts past the end. *)
Definition prod_split (p : prod) (index : Z) : res (prod * prod) :=
  let m := index * p_stride p in
  if m <=? p_len p then
    Ok ({| p_start := p_start p; p_len := m; p_stride := p_stride p; p_count := index |},
        {| p_start := p_start p + m; p_len := p_len p - m; p_stride := p_stride p; p_count := p_count p - index |})
  else Panic.

(** How the work is divided: a thread takes the piece whole, or splits it at an element and hands both parts on. Which tree occurs depends on
    the thread pool (rayon::iter::plumbing::bridge, dst.rs:286-318, 446-480). *)
Inductive splits := Whole | SplitAt (index : Z) (l r : splits).

(** The elements each piece walks with the sequential iterator (dst.rs:281-283, 441-443 into_iter): shared pieces read the words, *)
Fixpoint par_iter {A} (data : list A) (p : prod) (t : splits) : res (list (list A)) :=
  match t with
  | Whole =>
      d <- slice data (p_start p) (p_len p) ;;
      it <- iter_new d (p_stride p) ;;
      '(_, xs) <- iter_run d it (repeat Front (S (Z.to_nat (p_count p)))) ;;
      Ok (concat (map (fun o => match o with Some x => [x] | None => [] end) xs))
  | SplitAt i l r =>
      '(pl, pr) <- prod_split p i ;;
      xl <- par_iter data pl l ;;
      xr <- par_iter data pr r ;;
      Ok (xl ++ xr)
  end.

(** mutable pieces give the position of the sub-slices in the whole slice. *)
Fixpoint par_miter (pf : profile) (p : prod) (t : splits) : res (list Z) :=
  match t with
  | Whole =>
      it <- miter_new pf (p_len p) (p_stride p) ;;
      let '(_, xs) := miter_run it (repeat Front (S (Z.to_nat (p_count p)))) in
      Ok (concat (map (fun o => match o with Some x => [p_start p + x] | None => [] end) xs))
  | SplitAt i l r =>
      '(pl, pr) <- prod_split p i ;;
      xl <- par_miter pf pl l ;;
      xr <- par_miter pf pr r ;;
      Ok (xl ++ xr)
  end.
