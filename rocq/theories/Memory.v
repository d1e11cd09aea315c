(** Model of the processor's memory: parasol_cpu/src/memory/mod.rs.

    Simplifications.
    - The `Vec<Option<Page>>` of 2^20 entries is a function from page number to optional page; every index the code
      forms comes from a u32 address (or a page range checked against TOTAL_PAGES), so no index panic is possible.
    - A page is a function from offset to byte; every offset the code forms is masked to 12 bits.
    - The `Mutex` around the pages makes each operation atomic; an operation is a function of the whole memory.
    - An encrypted byte is the list of the 8 bits its ciphertexts decrypt to (see Alu.v).
    - The symbol table is dropped. *)
From Verif Require Import Base Alu.

(** memory/mod.rs:752-760 Byte; the byte constructor from ciphertexts checks the length (768-778). *)
Inductive byte := BPlain (v : Z) | BCipher (bits : list bool).

(** memory/mod.rs:768-778 TryFrom<Vec<..>> for Byte. *)
Definition byte_try_from (bits : list bool) : res byte :=
  if Nat.eqb (length bits) 8 then Ok (BCipher bits) else Err EOther.

(** memory/mod.rs:885-895 Page. *)
Definition page := Z -> byte.

(** memory/mod.rs:230-234 Memory (pages and stack_ptr). *)
Record mem := { pages : Z -> option page; sp : Z }.

(** memory/mod.rs:20-33 constants. *)
Definition LOG2_PAGE_SIZE : Z := 12.
Definition PAGE_SIZE : Z := 4096.
Definition PAGE_OFFSET_MASK : Z := 4095.
Definition PAGE_ID_MASK : Z := 4294963200.
Definition TOTAL_PAGES : Z := 1048576.

(** A memory operation: returns the new memory together with its result, so that what an operation that fails half
    way leaves behind is visible. *)
Definition M (A : Type) := mem -> mem * res A.
Definition mret {A} (a : A) : M A := fun m => (m, Ok a).
Definition mres {A} (r : res A) : M A := fun m => (m, r).
Definition mbind {A B} (c : M A) (k : A -> M B) : M B := fun m =>
  match c m with (m', Ok a) => k a m' | (m', Err e) => (m', Err e) | (m', Panic) => (m', Panic) end.
(** A read: does not change the memory. *)
Definition mread {A} (f : mem -> res A) : M A := fun m => (m, f m).
Notation "x <-- c ;; k" := (mbind c (fun x => k)) (at level 61, c at next level, right associativity).

(** ** Pointers *)

(** memory/mod.rs:205-211 try_offset. *)
Definition ptr_offset (a v : Z) : res Z := if a + v <? 2 ^ 32 then Ok (a + v) else Err EPtrOverflow.

(** memory/mod.rs:217-223 try_signed_offset. *)
Definition ptr_signed_offset (a v : Z) : res Z :=
  if (0 <=? a + v) && (a + v <? 2 ^ 32) then Ok (a + v) else Err EPtrOverflow.

(** memory/mod.rs:904-906 page_id_from_pointer. *)
Definition page_id (a : Z) : Z := Z.shiftr (Z.land a PAGE_ID_MASK) LOG2_PAGE_SIZE.

(** memory/mod.rs:908-910 offset_from_pointer. *)
Definition page_off (a : Z) : Z := Z.land a PAGE_OFFSET_MASK.

(** memory/mod.rs:890-894 Page::allocate. *)
Definition fresh_page : page := fun _ => BPlain 0.

(** memory/mod.rs:896-898 load_byte, 900-902 store_byte. *)
Definition load_byte (pg : page) (o : Z) : byte := pg o.
Definition store_byte (pg : page) (o : Z) (b : byte) : page := fun o' => if o' =? o then b else pg o'.

(** `pages[i] = Some(page)`. *)
Definition set_page (m : mem) (i : Z) (pg : page) : mem :=
  {| pages := fun j => if j =? i then Some pg else pages m j; sp := sp m |}.

Definition set_sp (m : mem) (s : Z) : mem := {| pages := pages m; sp := s |}.

(** ** Loads and stores *)

(** memory/mod.rs:523-536 try_load. *)
Definition try_load (a : Z) (m : mem) : res byte :=
  match pages m (page_id a) with
  | Some pg => Ok (load_byte pg (page_off a))
  | None => Err EAccessViolation
  end.

(** memory/mod.rs:538-552 try_store. *)
Definition try_store (a : Z) (b : byte) : M unit := fun m =>
  match pages m (page_id a) with
  | Some pg => (set_page m (page_id a) (store_byte pg (page_off a) b), Ok tt)
  | None => (m, Err EAccessViolation)
  end.

(** The store loops `for (i, b) in bytes.enumerate() { self.try_store(ptr.try_offset(i)?, b)? }`
    (memory/mod.rs:488-491, 646-648, 661-663). *)
Fixpoint store_from (ptr i : Z) (bs : list byte) : M unit :=
  match bs with
  | [] => mret tt
  | b :: bs => a <-- mres (ptr_offset ptr i) ;; _ <-- try_store a b ;; store_from ptr (i + 1) bs
  end.

(** The load loops `for i in 0..n { data.push(self.try_load(ptr.try_offset(i)?)?) }`
    (memory/mod.rs:678-681, 701-704). *)
Fixpoint load_from (ptr i : Z) (n : nat) (m : mem) : res (list byte) :=
  match n with
  | O => Ok []
  | S n => a <- ptr_offset ptr i ;; b <- try_load a m ;; bs <- load_from ptr (i + 1) n m ;; Ok (b :: bs)
  end.

(** memory/mod.rs:554-561 try_load_plaintext_byte. *)
Definition try_load_plaintext_byte (a : Z) (m : mem) : res Z :=
  b <- try_load a m ;; match b with BPlain v => Ok v | BCipher _ => Err ENotPlaintext end.

(** memory/mod.rs:563-574 try_load_n_bytes. *)
Fixpoint load_plain_from (ptr i : Z) (n : nat) (m : mem) : res (list Z) :=
  match n with
  | O => Ok []
  | S n => a <- ptr_offset ptr i ;; b <- try_load_plaintext_byte a m ;;
           bs <- load_plain_from ptr (i + 1) n m ;; Ok (b :: bs)
  end.

(** u32::from_le_bytes, u64::from_le_bytes. *)
Fixpoint from_le (bs : list Z) : Z := match bs with [] => 0 | b :: bs => b + 256 * from_le bs end.
(** uN::to_le_bytes. *)
Fixpoint to_le (n : nat) (v : Z) : list Z := match n with O => [] | S n => v mod 256 :: to_le n (v / 256) end.

(** memory/mod.rs:577-584 try_load_plaintext_word. *)
Definition try_load_plaintext_word (a : Z) (m : mem) : res Z :=
  if negb (a mod 4 =? 0) then Err EUnaligned
  else bs <- load_plain_from a 0 4%nat m ;; Ok (from_le bs).

(** memory/mod.rs:587-594 try_load_plaintext_dword. *)
Definition try_load_plaintext_dword (a : Z) (m : mem) : res Z :=
  if negb (a mod 8 =? 0) then Err EUnaligned
  else bs <- load_plain_from a 0 8%nat m ;; Ok (from_le bs).

(** ** Allocation *)

(** u32::next_multiple_of(rhs) (std): panics for rhs = 0; on overflow panics in debug and wraps in release. *)
Definition next_multiple_of (p : profile) (a k : Z) : res Z :=
  if k =? 0 then Panic else if a mod k =? 0 then Ok a else uadd p 32 a (k - a mod k).

(** `(base..base + n).find(|i| pages[*i].is_some())`. *)
Fixpoint find_mapped (m : mem) (base : Z) (n : nat) : option Z :=
  match n with
  | O => None
  | S n => match pages m base with Some _ => Some base | None => find_mapped m (base + 1) n end
  end.

(** `for i in base..base + n { pages[i] = Some(Page::allocate()) }`. *)
Fixpoint map_pages (m : mem) (base : Z) (n : nat) : mem :=
  match n with O => m | S n => map_pages (set_page m base fresh_page) (base + 1) n end.

(** The while loop of try_allocate (memory/mod.rs:617-629). The fuel bounds the number of iterations; base_id grows
    by at least one per iteration and the loop stops at TOTAL_PAGES. *)
Fixpoint alloc_loop (fuel : nat) (base num : Z) (m : mem) : mem * res Z :=
  match fuel with
  | O => (m, Err EOutOfMemory)
  | S fuel =>
      if base + num <? TOTAL_PAGES then
        match find_mapped m base (Z.to_nat num) with
        | Some i => alloc_loop fuel (i + 1) num m
        | None => (map_pages m base (Z.to_nat num), Ok (base * 2 ^ LOG2_PAGE_SIZE))
        end
      else (m, Err EOutOfMemory)
  end.

(** memory/mod.rs:598-632 try_allocate. `base_id << 12` cannot overflow because base_id < 2^20. *)
Definition try_allocate (p : profile) (len : Z) : M Z := fun m =>
  if len =? 0 then (m, Err EOther)
  else match next_multiple_of p len PAGE_SIZE with
       | Ok l => alloc_loop (Z.to_nat TOTAL_PAGES) 1 (l / PAGE_SIZE) m
       | Err e => (m, Err e)
       | Panic => (m, Panic)
       end.

(** `for i in start..=end { pages[i].get_or_insert(Page::allocate()) }`. *)
Fixpoint map_missing (m : mem) (base : Z) (n : nat) : mem :=
  match n with
  | O => m
  | S n => map_missing (match pages m base with Some _ => m | None => set_page m base fresh_page end) (base + 1) n
  end.

(** memory/mod.rs:506-521 try_allocate_at. *)
Definition try_allocate_at (a len : Z) : M unit := fun m =>
  if len =? 0 then (m, Err EOther)
  else match ptr_offset a len with
       | Ok e => (map_missing m (page_id a) (Z.to_nat (page_id e + 1 - page_id a)), Ok tt)
       | Err e => (m, Err e)
       | Panic => (m, Panic)
       end.

(** memory/mod.rs:416-430 Memory::new (both unwraps panic on error). *)
Definition mem_new (stack_start stack_size : Z) : res mem :=
  match ptr_offset stack_start stack_size with
  | Ok s =>
      match try_allocate_at stack_start stack_size {| pages := fun _ => None; sp := s |} with
      | (m, Ok _) => Ok m
      | _ => Panic
      end
  | _ => Panic
  end.

(** ** Typed access (the type is represented by its size, alignment and byte list) *)

(** memory/mod.rs:714-728 check_range_is_mapped. The address in the error is `ptr.try_offset(i * PAGE_SIZE)?`, which
    can itself report a pointer overflow. `n` is the number of pages still to look at, `i` the current page. *)
Fixpoint check_pages (m : mem) (ptr i : Z) (n : nat) : res unit :=
  match n with
  | O => Ok tt
  | S n => match pages m i with
           | Some _ => check_pages m ptr (i + 1) n
           | None => _ <- ptr_offset ptr (uwrap 32 (i * PAGE_SIZE)) ;; Err EAccessViolation
           end
  end.

Definition check_range_is_mapped (p : profile) (ptr len : Z) (m : mem) : res unit :=
  e <- uadd p 32 ptr len ;;
  check_pages m ptr (ptr / PAGE_SIZE) (Z.to_nat (e / PAGE_SIZE + 1 - ptr / PAGE_SIZE)).

(** memory/mod.rs:639-651 try_write_type and 654-666 try_write_type_dyn (bytes = x.to_bytes(), of length size). *)
Definition try_write_type (p : profile) (ptr align : Z) (bs : list byte) : M unit :=
  if align =? 0 then mres Panic
  else if negb (ptr mod align =? 0) then mres (Err EUnaligned)
  else _ <-- mread (check_range_is_mapped p ptr (Z.of_nat (length bs))) ;; store_from ptr 0 bs.

(** memory/mod.rs:669-685 try_load_type and 688-707 try_load_type_dyn, up to the conversion of the bytes. *)
Definition try_load_type (p : profile) (ptr align : Z) (size : nat) (m : mem) : res (list byte) :=
  if align =? 0 then Panic
  else if negb (ptr mod align =? 0) then Err EUnaligned
  else _ <- check_range_is_mapped p ptr (Z.of_nat size) m ;; load_from ptr 0 size m.

(** memory/mod.rs:734-749 try_allocate_type(_dyn). *)
Definition try_allocate_type (p : profile) (align : Z) (bs : list byte) : M Z :=
  ptr <-- try_allocate p (Z.of_nat (length bs)) ;; _ <-- try_write_type p ptr align bs ;; mret ptr.

(** memory/mod.rs:439-451 allocate_program, on the program's 64-bit words (the result of the inner try_store is
    ignored by the code; the unwraps panic). *)
Fixpoint store_ignore (ptr i : Z) (bs : list byte) : M unit :=
  match bs with
  | [] => mret tt
  | b :: bs => fun m =>
      match ptr_offset ptr i with
      | Ok a => store_ignore ptr (i + 1) bs (fst (try_store a b m))
      | _ => (m, Panic)
      end
  end.

Definition allocate_program (p : profile) (words : list Z) : M Z := fun m =>
  match try_allocate p (uwrap 32 (Z.of_nat (length words) * 8)) m with
  | (m', Ok addr) =>
      (_ <-- store_ignore addr 0 (map BPlain (concat (map (to_le 8) words))) ;; mret addr) m'
  | (m', _) => (m', Panic)
  end.

(** memory/mod.rs:352-389 the PT_LOAD loop of new_from_elf_with_config, on parsed program headers
    (vaddr, memsz, offset, filesz), all already checked to fit u32. *)
Record segment := { vaddr : Z; memsz : Z; foffset : Z; filesz : Z }.

Fixpoint copy_file (file : list Z) (f v : Z) (n : nat) : M unit :=
  match n with
  | O => mret tt
  | S n => match nth_error file (Z.to_nat f) with
           | Some b => _ <-- try_store v (BPlain b) ;; copy_file file (f + 1) (v + 1) n
           | None => mres (Err EOther)
           end
  end.

Definition load_segment (file : list Z) (s : segment) : M unit :=
  if memsz s =? 0 then mret tt
  else _ <-- mres (ptr_offset (vaddr s) (memsz s)) ;;
       _ <-- mres (ptr_offset (foffset s) (filesz s)) ;;
       _ <-- try_allocate_at (vaddr s) (memsz s) ;;
       copy_file file (foffset s) (vaddr s) (Z.to_nat (Z.min (filesz s) (memsz s))).

Fixpoint load_segments (file : list Z) (ss : list segment) : M unit :=
  match ss with [] => mret tt | s :: ss => _ <-- load_segment file s ;; load_segments file ss end.

(** ** Packing several allocations into one (memory/mod.rs:816-880 Allocation) *)
Record allocation := { asize : Z; next_free : Z; abase : Z }.

(** memory/mod.rs:823-833 Allocation::new. *)
Definition allocation_new (p : profile) (len : Z) : M (allocation * Z) :=
  base <-- try_allocate p len ;;
  size <-- mres (next_multiple_of p len PAGE_SIZE) ;;
  mret ({| asize := size; next_free := len; abase := base |}, base).

(** memory/mod.rs:853-880 Allocation::try_allocate. *)
Definition allocation_try_allocate (p : profile) (existing : option allocation) (len align : Z) : M (allocation * Z) :=
  match existing with
  | None => allocation_new p len
  | Some e =>
      padded <-- mres (next_multiple_of p (next_free e) align) ;;
      total <-- mres (uadd p 32 padded len) ;;
      if asize e <=? total then allocation_new p len
      else ptr <-- mres (ptr_offset (abase e) padded) ;;
           nf <-- mres (uadd p 32 ptr len) ;;
           mret ({| asize := asize e; next_free := nf; abase := abase e |}, ptr)
  end.

(** ** Words (memory/mod.rs:57-161) *)

(** memory/mod.rs:59-63 From<u32>. *)
Definition word_from (v : Z) : list byte := map BPlain (to_le 4 v).

(** memory/mod.rs:77-93 TryFrom<&[Byte]>. *)
Definition word_from_slice (bs : list byte) : res (list byte) :=
  if (4 <? length bs)%nat then Err ETooManyBytes
  else Ok (bs ++ repeat (BPlain 0) (4 - length bs)).

Definition is_cipher (b : byte) : bool := match b with BCipher _ => true | _ => false end.
Definition is_plain (b : byte) : bool := match b with BPlain _ => true | _ => false end.

(** memory/mod.rs:108-161 try_from_bytes; signed = Extend::Signed. *)
Definition word_try_from_bytes (bs : list byte) (signed : bool) : res (list byte) :=
  if (4 <? length bs)%nat then Err ETooManyBytes
  else match bs with
  | [] => Ok (repeat (BPlain 0) 4)
  | b0 :: _ =>
      if existsb (match b0 with BPlain _ => is_cipher | BCipher _ => is_plain end) bs then Err EMixedData
      else
        let ext := match last bs b0, signed with
                   | BPlain _, false => BPlain 0
                   | BCipher _, false => BCipher (repeat false 8)
                   | BPlain v, true => if v / 2 ^ 7 =? 1 then BPlain 255 else BPlain 0
                   | BCipher c, true => BCipher (repeat (last c false) 8)
                   end in
        Ok (bs ++ repeat ext (4 - length bs))
  end.

(** ** Function arguments (parasol_cpu/src/proc/args.rs) *)

(** args.rs:480-487 Arg. *)
Record arg := { alignment : Z; bytes : list byte }.

(** args.rs:115-141 ToArg for the primitive integers, as n-byte unsigned values (the signed types reinterpret the
    same bytes). *)
Definition prim_to_bytes (n : nat) (v : Z) : list byte := map BPlain (to_le n v).
Fixpoint plain_bytes (bs : list byte) : res (list Z) :=
  match bs with
  | [] => Ok []
  | BPlain v :: bs => vs <- plain_bytes bs ;; Ok (v :: vs)
  | BCipher _ :: _ => Err EEncryptionMismatch
  end.
Definition prim_try_from_bytes (n : nat) (bs : list byte) : res Z :=
  if negb (Nat.eqb (length bs) n) then Err EOther else vs <- plain_bytes bs ;; Ok (from_le vs).

(** `self.bits.chunks(n)`. The fuel is the length of the list. *)
Fixpoint chunks_fuel {A} (fuel n : nat) (l : list A) : list (list A) :=
  match fuel, l with
  | S fuel, _ :: _ => firstn n l :: chunks_fuel fuel n (skipn n l)
  | _, _ => []
  end.
Definition chunks {A} (n : nat) (l : list A) : list (list A) := chunks_fuel (length l) n l.

(** usize::is_power_of_two. *)
Definition is_pow2 (n : Z) : bool := (0 <? n) && (Z.land n (n - 1) =? 0).

(** args.rs:183-219 and 221-257 ToArg for UInt<N> / Int<N>. *)
Definition int_to_bytes (N : nat) (bits : list bool) : res (list byte) :=
  if is_pow2 (Z.of_nat N) && (Z.of_nat N mod 8 =? 0) then
    mapM (fun c => match byte_try_from c with Ok b => Ok b | _ => Panic end) (chunks 8 bits)
  else Panic.
Fixpoint cipher_bytes (bs : list byte) : res (list bool) :=
  match bs with
  | [] => Ok []
  | BPlain _ :: _ => Err EEncryptionMismatch
  | BCipher c :: bs => cs <- cipher_bytes bs ;; Ok (c ++ cs)
  end.
Definition int_try_from_bytes (N : nat) (bs : list byte) : res (list bool) :=
  if negb (Nat.eqb (length bs) (N / 8)) then Err EOther else cipher_bytes bs.

(** A type with a ToArg instance. *)
Record argtype (T : Type) := {
  ty_align : nat; ty_size : nat;
  ty_to_bytes : T -> res (list byte);
  ty_from_bytes : list byte -> res T }.
Arguments ty_align {T}. Arguments ty_size {T}. Arguments ty_to_bytes {T}. Arguments ty_from_bytes {T}.

Definition nat_next_multiple (a k : nat) : nat := match Nat.modulo a k with O => a | r => a + (k - r) end.

(** args.rs:259-316 ToArg for [T; N]: an element is padded to its alignment by repeating its first byte. *)
Definition array_to_bytes {T} (ty : argtype T) (xs : list T) : res (list byte) :=
  match ty_size ty with
  | O => Ok []
  | _ =>
    ls <- mapM (fun x =>
      bs <- ty_to_bytes ty x ;;
      match bs with
      | [] => Panic
      | b0 :: _ => let n := nat_next_multiple (ty_size ty) (ty_align ty) in Ok (firstn n (bs ++ repeat b0 n))
      end) xs ;;
    Ok (concat ls)
  end.
Definition array_from_bytes {T} (ty : argtype T) (N : nat) (bs : list byte) : res (list T) :=
  match ty_size ty with
  | O => match bs with [] => mapM (fun _ => ty_from_bytes ty []) (repeat tt N) | _ => Err EOther end
  | _ =>
    xs <- mapM (ty_from_bytes ty) (chunks (nat_next_multiple (ty_size ty) (ty_align ty)) bs) ;;
    if Nat.eqb (length xs) N then Ok xs else Err EOther
  end.

(** ** Stack and call set-up *)

(** memory/mod.rs:480-483: the padding loop. *)
Fixpoint push_padding (n : nat) : M unit :=
  match n with
  | O => mret tt
  | S n => fun m =>
      (_ <-- try_store (sp m) (BPlain 0) ;;
       s <-- mres (ptr_signed_offset (sp m) (-1)) ;;
       fun m' => push_padding n (set_sp m' s)) m
  end.

(** `-(len as i32)`. *)
Definition neg_len (p : profile) (len : Z) : res Z :=
  let l := sint 32 (uwrap 32 len) in
  if l =? - 2 ^ 31 then match p with Debug => Panic | Release => Ok l end else Ok (- l).

(** memory/mod.rs:465-494 try_push_arg_onto_stack. *)
Definition try_push (p : profile) (a : arg) : M Z := fun m =>
  if sp m =? 0 then (m, Err EAccessViolation)
  else if alignment a =? 0 then (m, Panic)
  else
    (_ <-- push_padding (Z.to_nat ((alignment a - sp m mod alignment a) mod alignment a)) ;;
     d <-- mres (neg_len p (Z.of_nat (length (bytes a)))) ;;
     fun m1 =>
       match ptr_signed_offset (sp m1) d with
       | Ok s => (_ <-- store_from s 0 (bytes a) ;; mret s) (set_sp m1 s)
       | Err e => (m1, Err e)
       | Panic => (m1, Panic)
       end) m.

(** args.rs:511-538 CallData::alloc_size (usize arithmetic: sizes far below 2^64). *)
Definition align_up (x k : Z) : Z := x + (k - x mod k) mod k.
Definition alloc_size (args : list arg) (ret_align ret_size : Z) : Z :=
  let off := fold_left (fun off a => align_up off (alignment a) + Z.of_nat (length (bytes a))) args 0 in
  let off := if 0 <? ret_size then align_up off ret_align + ret_size else off in
  align_up off 16.

(** fhe_processor.rs:558, 569: `p.0 += (align - p.0 % align) % align`. *)
Definition align_ptr (pr : profile) (a align : Z) : res Z :=
  if align =? 0 then Panic else uadd pr 32 a ((align - a mod align) mod align).

(** fhe_processor.rs:560-563: store the bytes of one argument, bumping the pointer. *)
Fixpoint write_bytes (cur : Z) (bs : list byte) : M Z :=
  match bs with
  | [] => mret cur
  | b :: bs => _ <-- try_store cur b ;; cur' <-- mres (ptr_offset cur 1) ;; write_bytes cur' bs
  end.

(** fhe_processor.rs:555-564. *)
Fixpoint write_args (pr : profile) (cur : Z) (args : list arg) : M Z :=
  match args with
  | [] => mret cur
  | a :: args =>
      cur' <-- mres (align_ptr pr cur (alignment a)) ;;
      cur'' <-- write_bytes cur' (bytes a) ;;
      write_args pr cur'' args
  end.

(** fhe_processor.rs:543-591 set_up_function_call: returns (return pointer, stack pointer), the values put in the RP
    and SP registers. *)
Definition set_up_call (pr : profile) (args : list arg) (ret_align ret_size : Z) : M (Z * Z) :=
  _ <-- try_push pr {| alignment := 16; bytes := repeat (BPlain 0) (Z.to_nat (alloc_size args ret_align ret_size)) |} ;;
  s <-- mread (fun m => Ok (sp m)) ;;
  cur <-- write_args pr s args ;;
  rp <-- (if 0 <? ret_size then mres (align_ptr pr cur ret_align) else mret 0) ;;
  mret (rp, s).

(** fhe_processor.rs:611-630 try_capture_return_value, up to the conversion. *)
Definition capture_return (ret_size rp : Z) (m : mem) : res (list byte) := load_from rp 0 (Z.to_nat ret_size) m.

(** ** Load and store instructions *)

(** ops/mod.rs:131-133 is_invalid_load_store_alignment. *)
Definition invalid_alignment (addr n : Z) : bool :=
  (n =? 0) || negb (addr mod n =? 0) || (16 <? n) || negb (is_pow2 n).

(** `try_offset(i).unwrap()`. *)
Definition unwrap {A} (r : res A) : res A := match r with Ok a => Ok a | _ => Panic end.

(** ops/load.rs:36-72: the remaining bytes of a plaintext / ciphertext value. *)
Fixpoint load_plain_rest (addr i : Z) (n : nat) (m : mem) (acc : Z) : res Z :=
  match n with
  | O => Ok acc
  | S n => a <- unwrap (ptr_offset addr i) ;; b <- try_load a m ;;
           match b with
           | BPlain v => load_plain_rest addr (i + 1) n m (Z.lor acc (v * 2 ^ (8 * i)))
           | BCipher _ => Err ENotPlaintext
           end
  end.
Fixpoint load_cipher_rest (addr i : Z) (n : nat) (m : mem) (acc : list bool) : res (list bool) :=
  match n with
  | O => Ok acc
  | S n => a <- unwrap (ptr_offset addr i) ;; b <- try_load a m ;;
           match b with
           | BCipher c => load_cipher_rest addr (i + 1) n m (acc ++ c)
           | BPlain _ => Err ENotCiphertext
           end
  end.

(** ops/load.rs:11-85 load: the value written to the destination register. *)
Definition op_load (src : reg) (offset width : Z) (m : mem) : res reg :=
  match src with
  | RPlain ptr _ =>
      let n := width / 8 in
      addr <- ptr_signed_offset (uwrap 32 ptr) offset ;;
      if invalid_alignment addr n then Err EUnaligned
      else b <- try_load addr m ;;
           match b with
           | BPlain v => r <- load_plain_rest addr 1 (Z.to_nat (n - 1)) m v ;; Ok (RPlain r width)
           | BCipher c => r <- load_cipher_rest addr 1 (Z.to_nat (n - 1)) m c ;; Ok (RCipher KL1Glwe r)
           end
  | _ => Err EIllegalOperands
  end.

(** ops/store.rs:46-58: byte i of the stored register. *)
Definition store_byte_of (p : profile) (src : reg) (i : Z) : res byte :=
  match src with
  | RPlain v _ => x <- ushr p 128 v (8 * i) ;; Ok (BPlain (uwrap 8 x))
  | RCipher KL1Glwe d =>
      if 8 * i + 8 <=? Z.of_nat (length d) then Ok (BCipher (firstn 8 (skipn (Z.to_nat (8 * i)) d))) else Panic
  | RCipher _ _ => Err EEncryptionMismatch
  end.

Fixpoint store_bytes (p : profile) (src : reg) (addr i : Z) (n : nat) : M unit :=
  match n with
  | O => mret tt
  | S n => b <-- mres (store_byte_of p src i) ;; a <-- mres (unwrap (ptr_offset addr i)) ;;
           _ <-- try_store a b ;; store_bytes p src addr (i + 1) n
  end.

(** ops/store.rs:11-72 store: dst holds the pointer, src the value. *)
Definition op_store (p : profile) (src dst : reg) (offset width : Z) : M unit :=
  match dst with
  | RPlain ptr _ =>
      let n := width / 8 in
      addr <-- mres (ptr_signed_offset (uwrap 32 ptr) offset) ;;
      if invalid_alignment addr n then mres (Err EUnaligned)
      else store_bytes p src addr 0 (Z.to_nat n)
  | _ => mres (Err EIllegalOperands)
  end.
