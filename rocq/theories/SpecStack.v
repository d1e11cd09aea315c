(** Vocabulary for the stack-lifetime theorems (not a model of code): a host session on one memory object, i.e. any
    sequence of function-call set-ups and other memory operations (the program's stores, host writes, allocations). *)
From Verif Require Import Base Alu Memory SpecMem.

(** One function call: the arguments and the return slot. *)
Record callspec := { cargs : list arg; cret_align : Z; cret_size : Z }.

(** The number of bytes of stack its frame needs. *)
Definition frame_size (c : callspec) : Z := alloc_size (cargs c) (cret_align c) (cret_size c).

(** What the host or the running program does to the memory. *)
Inductive event := EvCall (c : callspec) | EvMem (o : memop).

(** [session pr m evs m']: the events happen in order, starting from [m] and ending in [m']; every call is set up
    successfully, the other operations may succeed or fail. *)
Inductive session (pr : profile) : mem -> list event -> mem -> Prop :=
| session_nil m : session pr m [] m
| session_call m c m1 r evs m2 :
    set_up_call pr (cargs c) (cret_align c) (cret_size c) m = (m1, Ok r) ->
    session pr m1 evs m2 -> session pr m (EvCall c :: evs) m2
| session_mem m o evs m2 : session pr (apply pr o m) evs m2 -> session pr m (EvMem o :: evs) m2.

(** Stack bytes asked for by the calls of a session, counted once per call. *)
Fixpoint calls_total (evs : list event) : Z :=
  match evs with
  | [] => 0
  | EvCall c :: evs => frame_size c + calls_total evs
  | EvMem _ :: evs => calls_total evs
  end.

(** A call whose frame is below 2 GiB. *)
Definition call_ok (e : event) : Prop :=
  match e with EvCall c => 0 <= frame_size c < 2 ^ 31 | EvMem _ => True end.

(** A call the ABI supports: alignments up to 16 and a frame below 2 GiB. *)
Definition abi_call (c : callspec) : Prop :=
  Forall (fun a => abi_align (alignment a)) (cargs c) /\ abi_align (cret_align c) /\ 0 <= cret_size c /\ 0 <= frame_size c < 2 ^ 31.
