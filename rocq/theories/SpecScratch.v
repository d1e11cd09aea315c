(** Vocabulary for the statements about scratch buffers: what a program that holds buffers knows about them. *)
From Verif Require Import Base Scratch.
Open Scope Z_scope.

(** A buffer as its holder sees it: [v_count] elements of [v_size] bytes with the alignment asked for; [v_cell e j] is byte [j] of element [e]
    if the holder has stored it, unknown otherwise. *)
Record vbuf := { v_size : Z; v_align : Z; v_count : Z; v_cell : Z -> Z -> option Z }.

Definition v_set (b : vbuf) (e j x : Z) : vbuf :=
  {| v_size := v_size b; v_align := v_align b; v_count := v_count b;
     v_cell := fun e' j' => if (e' =? e) && (j' =? j) then Some x else v_cell b e' j' |}.

Fixpoint v_update (v : list (nat * vbuf)) (k : nat) (f : vbuf -> vbuf) : list (nat * vbuf) :=
  match v with [] => [] | (k', b) :: t => if Nat.eqb k k' then (k', f b) :: t else (k', b) :: v_update t k f end.

(** What the holder knows after each action: buffers are private arrays. *)
Definition v_step (v : list (nat * vbuf)) (o : sop) : list (nat * vbuf) :=
  match o with
  | SAlloc name size align count => (name, {| v_size := size; v_align := align; v_count := count; v_cell := fun _ _ => None |}) :: v
  | SDrop name => unassoc v name
  | SStore name e j x => v_update v name (fun b => v_set b e j x)
  | SLoad _ _ _ => v
  end.

(** The history is one that safe code can produce: an element type has a size; a buffer has a name of its own while it is held; bytes are
    addressed inside the element. In a release build the element type is not so large that the largest block holds 2^64 bytes of it. *)
Fixpoint possible (p : profile) (limit : Z) (v : list (nat * vbuf)) (os : list sop) : Prop :=
  match os with
  | [] => True
  | o :: t =>
      match o with
      | SAlloc name size align count => 0 < size /\ 0 <= count /\ assoc v name = None /\ (p = Debug \/ limit * size < 2 ^ 64)
      | SDrop name => assoc v name <> None
      | SStore name _ j _ | SLoad name _ j => exists b, assoc v name = Some b /\ 0 <= j < v_size b
      end /\ possible p limit (v_step v o) t
  end.

(** Every element used is one that was asked for, and no more memory is asked for than there is. *)
Fixpoint within (limit : Z) (v : list (nat * vbuf)) (os : list sop) : Prop :=
  match os with
  | [] => True
  | o :: t =>
      match o with
      | SAlloc _ size _ count => count * size <= limit /\ count * size < 2 ^ 64
      | SStore name e _ _ | SLoad name e _ => exists b, assoc v name = Some b /\ 0 <= e < v_count b
      | SDrop _ => True
      end /\ within limit (v_step v o) t
  end.

(** Every load returns what the holder of that buffer last stored there. *)
Fixpoint answers (v : list (nat * vbuf)) (os : list sop) (rs : list (option Z)) : Prop :=
  match os, rs with
  | o :: t, r :: rs' =>
      match o with
      | SLoad name e j => match assoc v name with Some b => forall x, v_cell b e j = Some x -> r = Some x | None => True end
      | _ => True
      end /\ answers (v_step v o) t rs'
  | _, _ => True
  end.

(** The largest number of buffers held at one time. *)
Fixpoint most_held (v : list (nat * vbuf)) (os : list sop) : nat :=
  match os with [] => length v | o :: t => Nat.max (length v) (most_held (v_step v o) t) end.
Fixpoint v_run (v : list (nat * vbuf)) (os : list sop) : list (nat * vbuf) :=
  match os with [] => v | o :: t => v_run (v_step v o) t end.
