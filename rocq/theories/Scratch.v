(** Model of sunscreen_tfhe/src/scratch.rs: the thread-local pool every temporary buffer of the cryptographic code is taken from.

    The pool hands out raw heap blocks and turns them into slices with unsafe code, so the model keeps the heap: a block has an alignment,
    a length in bytes and contents. A block number is never used twice (the system allocator never gives out a block that is still in use).
    One thread is modelled; the pool is thread-local and neither it nor a buffer can be sent to another thread (scratch.rs:103-106, 166-170). *)
From Verif Require Import Base.
Open Scope Z_scope.

(** A heap block: AVec<u8> (scratch.rs:162-164). *)
Record block := { b_align : Z; b_len : Z; b_data : Z -> Z }.

(** A ScratchBuffer (scratch.rs:175-180): the block, how many elements were asked for, the size of an element. *)
Record buffer := { f_block : nat; f_count : Z; f_size : Z }.

(** The heap, the next block number, the pool (last element = top of the stack) and the buffers the program holds. *)
Record scratch := { s_heap : list (nat * block); s_fresh : nat; s_pool : list nat; s_live : list (nat * buffer) }.

(** scratch.rs:113-117 new. *)
Definition scratch_new : scratch := {| s_heap := []; s_fresh := 0; s_pool := []; s_live := [] |}.

(** What the program does: take a buffer of [count] elements, give it back, store or load byte [j] of element [e]. *)
Inductive sop :=
| SAlloc (name : nat) (size align count : Z)
| SDrop (name : nat)
| SStore (name : nat) (e j v : Z)
| SLoad (name : nat) (e j : Z).

(** A step succeeds (a load with the byte it read), aborts, or touches memory outside the block. *)
Inductive outcome := SOk (s : scratch) (loaded : option Z) | SAbort | SUndefined.

Fixpoint assoc {B} (l : list (nat * B)) (k : nat) : option B :=
  match l with [] => None | (k', v) :: t => if Nat.eqb k k' then Some v else assoc t k end.
Fixpoint unassoc {B} (l : list (nat * B)) (k : nat) : list (nat * B) :=
  match l with [] => [] | (k', v) :: t => if Nat.eqb k k' then t else (k', v) :: unassoc t k end.

(** LinkedList::pop_back. *)
Definition pop_back (l : list nat) : option (nat * list nat) :=
  match rev l with [] => None | x :: t => Some (x, rev t) end.

(** avec_rt!([align] | 0; len): a zeroed block, or an abort when the allocator has no block of that size. *)
Definition new_block (limit align len : Z) (s : scratch) (pool : list nat) (heap : list (nat * block)) (name : nat) (count size : Z) : outcome :=
  if limit <? len then SAbort
  else SOk {| s_heap := (s_fresh s, {| b_align := align; b_len := len; b_data := fun _ => 0 |}) :: heap;
              s_fresh := S (s_fresh s);
              s_pool := pool;
              s_live := (name, {| f_block := s_fresh s; f_count := count; f_size := size |}) :: s_live s |} None.

(** scratch.rs:121-159 allocate, for an element type of [size] bytes and alignment [align]; [simd] is SIMD_ALIGN (64 on x86-64). *)
Definition sc_alloc (p : profile) (limit simd : Z) (s : scratch) (name : nat) (size align count : Z) : outcome :=
  if size =? 0 then SAbort
  else
    let alignment := Z.max simd align in
    match umul p 64 count size with
    | Ok u8_len =>
        match pop_back (s_pool s) with
        | None => new_block limit alignment u8_len s (s_pool s) (s_heap s) name count size
        | Some (a, pool) =>
            match assoc (s_heap s) a with
            | None => SUndefined
            | Some b =>
                if (b_align b <? alignment) || (b_len b <? u8_len) then
                  new_block limit alignment u8_len s pool (unassoc (s_heap s) a) name count size
                else SOk {| s_heap := s_heap s; s_fresh := s_fresh s; s_pool := pool;
                            s_live := (name, {| f_block := a; f_count := count; f_size := size |}) :: s_live s |} None
            end
        end
    | _ => SAbort
    end.

(** scratch.rs:204-208 drop. *)
Definition sc_drop (s : scratch) (name : nat) : outcome :=
  match assoc (s_live s) name with
  | None => SAbort
  | Some f => SOk {| s_heap := s_heap s; s_fresh := s_fresh s; s_pool := s_pool s ++ [f_block f]; s_live := unassoc (s_live s) name |} None
  end.

(** scratch.rs:185-201 as_slice, as_mut_slice: the transmuted slice claims as many elements as the block has bytes; it is then cut to the
    requested count, and element [e] is indexed with a bounds check. The result is the byte position inside the block. *)
Inductive place := At (blk : nat) (pos : Z) | PAbort | POutside.
Definition sc_place (s : scratch) (name : nat) (e j : Z) : place :=
  match assoc (s_live s) name with
  | None => PAbort
  | Some f =>
      match assoc (s_heap s) (f_block f) with
      | None => POutside
      | Some b =>
          if b_len b <? f_count f then PAbort
          else if (0 <=? e) && (e <? f_count f) then
            let pos := e * f_size f + j in
            if (0 <=? pos) && (pos <? b_len b) then At (f_block f) pos else POutside
          else PAbort
      end
  end.

Fixpoint set_byte (h : list (nat * block)) (k : nat) (pos v : Z) : list (nat * block) :=
  match h with
  | [] => []
  | (k', b) :: t =>
      if Nat.eqb k k' then (k', {| b_align := b_align b; b_len := b_len b; b_data := fun i => if i =? pos then v else b_data b i |}) :: t
      else (k', b) :: set_byte t k pos v
  end.

Definition sc_step (p : profile) (limit simd : Z) (s : scratch) (o : sop) : outcome :=
  match o with
  | SAlloc name size align count => sc_alloc p limit simd s name size align count
  | SDrop name => sc_drop s name
  | SStore name e j v =>
      match sc_place s name e j with
      | At k pos => SOk {| s_heap := set_byte (s_heap s) k pos v; s_fresh := s_fresh s; s_pool := s_pool s; s_live := s_live s |} None
      | PAbort => SAbort
      | POutside => SUndefined
      end
  | SLoad name e j =>
      match sc_place s name e j with
      | At k pos => match assoc (s_heap s) k with Some b => SOk s (Some (b_data b pos)) | None => SUndefined end
      | PAbort => SAbort
      | POutside => SUndefined
      end
  end.

(** A history, with the bytes its loads returned. *)
Fixpoint sc_run (p : profile) (limit simd : Z) (s : scratch) (os : list sop) : outcome * list (option Z) :=
  match os with
  | [] => (SOk s None, [])
  | o :: t =>
      match sc_step p limit simd s o with
      | SOk s' r => let '(e, rs) := sc_run p limit simd s' t in (e, r :: rs)
      | x => (x, [])
      end
  end.
