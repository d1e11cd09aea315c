(** Specification vocabulary for encrypted programs (not a model of code): what the registers hold, as numbers. *)
From Verif Require Import Base Spec Alu SpecAlu FheGraph TfheGlwe Eval SpecEval Pipe.
Open Scope Z_scope.

(** The width and the value of each register, and the documented effect of an instruction and of a program on them. *)
Definition pvals := nat -> Z * Z.
Definition pvals_step (v : pvals) (i : pinstr) : pvals :=
  fun r => if (r =? pi_dst i)%nat
           then (binop_width (pi_op i) (fst (v (pi_a i))), binop_value (pi_op i) (fst (v (pi_a i))) (snd (v (pi_a i))) (snd (v (pi_b i))))
           else v r.
Definition pvals_run (v : pvals) (is : list pinstr) : pvals := fold_left pvals_step is v.
(** Programs of additions, subtractions, AND, OR and comparisons whose operands have equal widths, between 1 and W bits. *)
Fixpoint prog_ok (W : Z) (v : pvals) (is : list pinstr) : Prop :=
  match is with
  | [] => True
  | i :: is => fst (v (pi_a i)) = fst (v (pi_b i)) /\ 1 <= fst (v (pi_a i)) <= W /\ match pi_op i with BMul | BXor => False | _ => True end /\
      prog_ok W (pvals_step v i) is
  end.

(** Every ciphertext in the store encrypts a bit, with noise at most E. *)
Definition store_ok (P : params) (sk : secret_key) (E : Z) (st : pstate) : Prop :=
  Forall (fun c => exists b, encrypts P sk E (CGlwe1 (pconst (p_N P) b)) (KGlwe1 c)) (p_store st).
(** A register's handles name ciphertexts that encrypt, with noise at most E, the bits of a number of the given width; that decrypt to them. *)
Definition reg_holds (P : params) (sk : secret_key) (E : Z) (st : pstate) (r : nat) (x : Z * Z) : Prop :=
  exists bits, Z.of_nat (length bits) = fst x /\ uval bits = snd x /\
    Forall2 (fun h b => exists c, nth_error (p_store st) h = Some c /\ encrypts P sk E (CGlwe1 (pconst (p_N P) b)) (KGlwe1 c)) (p_regs st r) bits.
Definition reg_decrypts (pr : profile) (P : params) (sk : secret_key) (st : pstate) (r : nat) (x : Z * Z) : Prop :=
  exists bits, Z.of_nat (length bits) = fst x /\ uval bits = snd x /\
    Forall2 (fun h b => exists c, nth_error (p_store st) h = Some c /\ dec_glwe1 pr P sk c = Ok (map Z.b2z (pconst (p_N P) b))) (p_regs st r) bits.
