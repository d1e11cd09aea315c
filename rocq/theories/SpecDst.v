(** Vocabulary for the statements about strided iteration and scratch buffers. *)
From Verif Require Import Base Dst.
Open Scope Z_scope.

(** [cs] is the slice [data] cut into elements of [stride] words. *)
Definition elements {A} (stride : Z) (data : list A) (cs : list (list A)) : Prop :=
  concat cs = data /\ Forall (fun c => Z.of_nat (length c) = stride) cs.

(** Taking from the two ends of a sequence: what each call answers and what is left. *)
Fixpoint take_ends {X} (l : list X) (ops : list side) : list (option X) * list X :=
  match ops with
  | [] => ([], l)
  | Front :: t =>
      match l with
      | [] => let '(r, e) := take_ends [] t in (None :: r, e)
      | x :: l' => let '(r, e) := take_ends l' t in (Some x :: r, e)
      end
  | Back :: t =>
      match rev l with
      | [] => let '(r, e) := take_ends [] t in (None :: r, e)
      | x :: l' => let '(r, e) := take_ends (rev l') t in (Some x :: r, e)
      end
  end.

(** Where the [n] elements start. *)
Definition starts (stride : Z) (n : nat) : list Z := map (fun k => Z.of_nat k * stride) (seq 0 n).

(** Every cut of the work is inside the piece it cuts: at an element boundary, possibly leaving one part empty... *)
Fixpoint cuts_ok (t : splits) (n : Z) : Prop :=
  match t with Whole => True | SplitAt i l r => 0 <= i <= n /\ cuts_ok l i /\ cuts_ok r (n - i) end.
(** ... or leaving neither part empty. *)
Fixpoint cuts_inside (t : splits) (n : Z) : Prop :=
  match t with Whole => True | SplitAt i l r => 0 < i < n /\ cuts_inside l i /\ cuts_inside r (n - i) end.
