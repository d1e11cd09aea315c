(** Specification vocabulary for the memory theorems (not a model of code). *)
From Verif Require Import Base Alu Memory.

(** A 32-bit address. *)
Definition addr_ok (a : Z) : Prop := 0 <= a < 2 ^ 32.

(** What is at an address: pages are 4096 bytes, page number a / 4096, offset a mod 4096; None when unmapped. *)
Definition peek (m : mem) (a : Z) : option byte :=
  match pages m (a / 4096) with Some pg => Some (pg (a mod 4096)) | None => None end.

Definition mapped (m : mem) (a : Z) : Prop := peek m a <> None.

(** Every address of [a, a + n) is a 32-bit address and mapped. *)
Definition range_mapped (m : mem) (a n : Z) : Prop := forall x, a <= x < a + n -> addr_ok x /\ mapped m x.

(** The two memories have the same contents and the same mapping outside [a, a + n). *)
Definition same_outside (m m' : mem) (a n : Z) : Prop :=
  forall x, ~ (a <= x < a + n) -> peek m' x = peek m x.

(** The bytes bs are at a, a + 1, ... *)
Definition holds (m : mem) (a : Z) (bs : list byte) : Prop :=
  forall i b, nth_error bs i = Some b -> peek m (a + Z.of_nat i) = Some b.

(** A memory operation a program or the host can perform. *)
Inductive memop :=
| MStore (a : Z) (b : byte)
| MAlloc (len : Z)
| MAllocAt (a len : Z)
| MWrite (ptr align : Z) (bs : list byte).

(** The operation may write to address x. *)
Definition touches (o : memop) (x : Z) : Prop :=
  match o with
  | MStore a _ => x = a
  | MWrite ptr _ bs => ptr <= x < ptr + Z.of_nat (length bs)
  | _ => False
  end.

Definition memop_ok (o : memop) : Prop :=
  match o with
  | MStore a _ => addr_ok a
  | MAlloc len => addr_ok len
  | MAllocAt a len => addr_ok a /\ addr_ok len
  | MWrite ptr align bs => addr_ok ptr /\ 0 <= align /\ Z.of_nat (length bs) < 2 ^ 32
  end.

(** The memory after one operation, whether it succeeds or fails. *)
Definition apply (p : profile) (o : memop) (m : mem) : mem :=
  match o with
  | MStore a b => fst (try_store a b m)
  | MAlloc len => fst (try_allocate p len m)
  | MAllocAt a len => fst (try_allocate_at a len m)
  | MWrite ptr align bs => fst (try_write_type p ptr align bs m)
  end.

Definition history (p : profile) (os : list memop) (m : mem) : mem := fold_left (fun m o => apply p o m) os m.

(** n-byte little-endian contents as a number: byte i has weight 256^i. *)
Fixpoint le_value (bs : list Z) : Z := match bs with [] => 0 | b :: bs => b + 256 * le_value bs end.

Definition byte_val (v : Z) : Prop := 0 <= v < 256.

(** The signed number an n-byte value denotes. *)
Definition signed_value (n : nat) (v : Z) : Z := if v <? 2 ^ (8 * Z.of_nat n - 1) then v else v - 2 ^ (8 * Z.of_nat n).

(** Where the call frame layout puts each argument: offsets from the frame base, each the least aligned offset at or
    after the end of the previous argument. *)
Inductive layout : Z -> list arg -> list Z -> Z -> Prop :=
| layout_nil off : layout off [] [] off
| layout_cons off a args o os e :
    off <= o < off + alignment a -> (alignment a | o) ->
    layout (o + Z.of_nat (length (bytes a))) args os e ->
    layout off (a :: args) (o :: os) e.

(** Alignments the ABI supports: powers of two up to 16. *)
Definition abi_align (k : Z) : Prop := k = 1 \/ k = 2 \/ k = 4 \/ k = 8 \/ k = 16.

(** A well-formed byte: a plaintext value below 256 or eight encrypted bits. *)
Definition byte_ok (b : byte) : Prop :=
  match b with BPlain v => byte_val v | BCipher c => length c = 8%nat end.

(** The number a byte holds (for an encrypted byte, the number it decrypts to). *)
Definition byte_num (b : byte) : Z := match b with BPlain v => v | BCipher c => uval c end.

(** The little-endian number a sequence of bytes holds. *)
Definition bytes_value (bs : list byte) : Z := le_value (map byte_num bs).

Definition all_plain (bs : list byte) : Prop := Forall (fun b => exists v, b = BPlain v) bs.
Definition all_cipher (bs : list byte) : Prop := Forall (fun b => exists c, b = BCipher c) bs.

(** The access widths of the load and store instructions. *)
Definition access_width (w : Z) : Prop := w = 8 \/ w = 16 \/ w = 32 \/ w = 64 \/ w = 128.

(** Two byte ranges do not overlap. *)
Definition disjoint (a n b k : Z) : Prop := a + n <= b \/ b + k <= a.

(** Memory operations other than mapping at a caller-chosen address (which only the loader and the stack set-up do). *)
Definition never_at (o : memop) : Prop := match o with MAllocAt _ _ => False | _ => True end.

(** A loadable segment that lies in the address space and in the file. *)
Definition seg_ok (file : list Z) (s : segment) : Prop :=
  0 <= vaddr s /\ 0 <= memsz s /\ 0 <= foffset s /\ 0 <= filesz s /\ vaddr s + memsz s < 2 ^ 32 /\
  foffset s + filesz s < 2 ^ 32 /\ foffset s + Z.min (filesz s) (memsz s) <= Z.of_nat (length file).

(** The byte segment s must put at offset k: the file's byte, or zero past the file part. *)
Definition seg_byte (file : list Z) (s : segment) (k : Z) : byte :=
  BPlain (if k <? filesz s then nth (Z.to_nat (foffset s + k)) file 0 else 0).

(** Address x lies inside one of the arguments placed at offsets os from s. *)
Definition in_args (s : Z) (args : list arg) (os : list Z) (x : Z) : Prop :=
  exists i a o, nth_error args i = Some a /\ nth_error os i = Some o /\ s + o <= x < s + o + Z.of_nat (length (bytes a)).

(** A type whose values of interest survive conversion to bytes and back. *)
Definition ty_ok {T} (ty : argtype T) (P : T -> Prop) : Prop :=
  forall x, P x -> exists bs, ty_to_bytes ty x = Ok bs /\ length bs = ty_size ty /\ ty_from_bytes ty bs = Ok x.

(** Packed allocations: requests (length, alignment) served one after the other; the (pointer, length) returned. *)
Definition req_ok (r : Z * Z) : Prop := 0 < fst r <= 4294963200 /\ 0 < snd r /\ (snd r | 4096).
Definition rdisj (r s : Z * Z) : Prop := disjoint (fst r) (snd r) (fst s) (snd s).
Fixpoint packed_run (p : profile) (st : option allocation) (reqs : list (Z * Z)) (m : mem) : option (list (Z * Z)) :=
  match reqs with
  | [] => Some []
  | (len, align) :: reqs =>
      match allocation_try_allocate p st len align m with
      | (m', Ok (e, ptr)) => match packed_run p (Some e) reqs m' with Some l => Some ((ptr, len) :: l) | None => None end
      | _ => None
      end
  end.

(** The sizes in bytes of the valid load and store accesses. *)
Definition acc_size (n : Z) : Prop := n = 1 \/ n = 2 \/ n = 4 \/ n = 8 \/ n = 16.

Definition empty_mem : mem := {| pages := fun _ => None; sp := 0 |}.
