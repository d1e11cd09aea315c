(** Model of parasol_concurrency/src/lib.rs: AtomicRefCell and Spinlock.

    A state holds the atomic word, the borrows or handles that exist, and the protected value. A step is one atomic instruction of one
    thread (sequentially consistent; T is the number of threads). The value a successful call returns is the borrow it adds. *)
From Verif Require Import Base.
Open Scope Z_scope.

(** * AtomicRefCell *)
Definition USIZE : Z := 2 ^ 64.
Record rcell (A : Type) := {
  word : Z;  (* state: AtomicUsize *)
  refs : nat;  (* live immutable borrows *)
  muts : nat;  (* live mutable borrows *)
  lost : nat;  (* immutable borrows given to mem::forget *)
  lost_mut : nat;  (* mutable borrows given to mem::forget *)
  undoing : nat;  (* threads between lines 83 and 84 *)
  failed : bool;  (* (statements only) an immutable borrow was refused because of a mutable one *)
  value : A
}.
Arguments word {A}. Arguments refs {A}. Arguments muts {A}. Arguments lost {A}. Arguments lost_mut {A}. Arguments undoing {A}. Arguments failed {A}. Arguments value {A}.

(** What a thread does next. *)
Inductive rop (A : Type) := RBorrow | RUndo | RBorrowMut | RDropRef | RDropMut | RForgetRef | RForgetMut | RWrite (v : A).
Arguments RBorrow {A}. Arguments RUndo {A}. Arguments RBorrowMut {A}. Arguments RDropRef {A}. Arguments RDropMut {A}. Arguments RForgetRef {A}. Arguments RForgetMut {A}. Arguments RWrite {A}.

(** lib.rs:64-69 new. *)
Definition rcell_new {A} (v : A) : rcell A := {| word := 1; refs := 0; muts := 0; lost := 0; lost_mut := 0; undoing := 0; failed := false; value := v |}.

(** One atomic step; None if the thread cannot do it (there is no such borrow, no thread left). *)
Definition rstep {A} (T : nat) (o : rop A) (s : rcell A) : option (rcell A) :=
  let mk w r m l lm u f v := Some {| word := w; refs := r; muts := m; lost := l; lost_mut := lm; undoing := u; failed := f; value := v |} in
  match o with
  | RBorrow =>                                                            (* lib.rs:75-92 borrow *)
      let old := word s in
      let w := (old + 1) mod USIZE in
      if old =? 0 then mk w (refs s) (muts s) (lost s) (lost_mut s) (undoing s) true (value s)          (* panic *)
      else if (USIZE - 1) / 2 <=? old then
        if Nat.ltb (undoing s) T then mk w (refs s) (muts s) (lost s) (lost_mut s) (undoing s + 1)%nat (failed s) (value s) else None
      else mk w (refs s + 1)%nat (muts s) (lost s) (lost_mut s) (undoing s) (failed s) (value s)
  | RUndo =>                                                              (* lib.rs:83 fetch_sub, then panic *)
      if Nat.ltb 0 (undoing s) then mk ((word s - 1) mod USIZE) (refs s) (muts s) (lost s) (lost_mut s) (undoing s - 1)%nat (failed s) (value s) else None
  | RBorrowMut =>                                                         (* lib.rs:98-114 borrow_mut *)
      if word s =? 1 then mk 0 (refs s) (muts s + 1)%nat (lost s) (lost_mut s) (undoing s) (failed s) (value s)
      else Some s                                                         (* panic *)
  | RDropRef =>                                                           (* lib.rs:123-127 *)
      if Nat.ltb 0 (refs s) then mk ((word s - 1) mod USIZE) (refs s - 1)%nat (muts s) (lost s) (lost_mut s) (undoing s) (failed s) (value s) else None
  | RDropMut =>                                                           (* lib.rs:142-146 *)
      if Nat.ltb 0 (muts s) then mk 1 (refs s) (muts s - 1)%nat (lost s) (lost_mut s) (undoing s) (failed s) (value s) else None
  | RForgetRef => if Nat.ltb 0 (refs s) then mk (word s) (refs s - 1)%nat (muts s) (lost s + 1)%nat (lost_mut s) (undoing s) (failed s) (value s) else None
  | RForgetMut => if Nat.ltb 0 (muts s) then mk (word s) (refs s) (muts s - 1)%nat (lost s) (lost_mut s + 1)%nat (undoing s) (failed s) (value s) else None
  | RWrite v => if Nat.ltb 0 (muts s) then mk (word s) (refs s) (muts s) (lost s) (lost_mut s) (undoing s) (failed s) v else None
  end.
Fixpoint rrun {A} (T : nat) (os : list (rop A)) (s : rcell A) : option (rcell A) :=
  match os with [] => Some s | o :: os => match rstep T o s with Some s => rrun T os s | None => None end end.
(** Whether the call just made returns a borrow. *)
Definition borrow_ok {A} (s : rcell A) : bool := negb (word s =? 0) && (word s <? (USIZE - 1) / 2).
Definition borrow_mut_ok {A} (s : rcell A) : bool := word s =? 1.

(** * Spinlock *)
Record spin (A : Type) := {
  flag : bool;  (* lock: AtomicBool *)
  owner : list nat;  (* threads that hold a handle *)
  waiting : list nat;  (* threads inside lock() *)
  kept : bool;  (* (statements only) keep_locked was called *)
  inner_val : A
}.
Arguments flag {A}. Arguments owner {A}. Arguments waiting {A}. Arguments kept {A}. Arguments inner_val {A}.
Inductive sop (A : Type) := SLock (t : nat) | SSpin (t : nat) | STryLock (t : nat) | SDrop (t : nat) | SKeep (t : nat) | SWrite (t : nat) (v : A).
Arguments SLock {A}. Arguments SSpin {A}. Arguments STryLock {A}. Arguments SDrop {A}. Arguments SKeep {A}. Arguments SWrite {A}.
Definition spin_new {A} (v : A) : spin A := {| flag := false; owner := []; waiting := []; kept := false; inner_val := v |}.    (* lib.rs:177-182 *)
Definition mem_nat (t : nat) (l : list nat) : bool := existsb (Nat.eqb t) l.
Fixpoint remove1 (t : nat) (l : list nat) : list nat := match l with [] => [] | x :: l => if Nat.eqb t x then l else x :: remove1 t l end.
Definition sstep {A} (o : sop A) (s : spin A) : option (spin A) :=
  let mk f ow wa k v := Some {| flag := f; owner := ow; waiting := wa; kept := k; inner_val := v |} in
  match o with
  | SLock t => mk (flag s) (owner s) (t :: waiting s) (kept s) (inner_val s)                     (* lib.rs:189: enter the loop *)
  | SSpin t =>                                                                                   (* lib.rs:190-197: one compare_exchange *)
      if mem_nat t (waiting s) then
        if flag s then Some s else mk true (t :: owner s) (remove1 t (waiting s)) (kept s) (inner_val s)
      else None
  | STryLock t => if flag s then Some s else mk true (t :: owner s) (waiting s) (kept s) (inner_val s)        (* lib.rs:204-214 *)
  | SDrop t => if mem_nat t (owner s) then mk false (remove1 t (owner s)) (waiting s) (kept s) (inner_val s) else None   (* lib.rs:216-218, 234-238 *)
  | SKeep t => if mem_nat t (owner s) then mk (flag s) (remove1 t (owner s)) (waiting s) true (inner_val s) else None    (* lib.rs:227-231 keep_locked / mem::forget *)
  | SWrite t v => if mem_nat t (owner s) then mk (flag s) (owner s) (waiting s) (kept s) v else None           (* lib.rs:248-252 deref_mut *)
  end.
Fixpoint srun {A} (os : list (sop A)) (s : spin A) : option (spin A) :=
  match os with [] => Some s | o :: os => match sstep o s with Some s => srun os s | None => None end end.
