(** Rotation by a monomial: where each coefficient goes. *)
From Verif Require Import Base Graph FheGraph.
Open Scope nat_scope.

Lemma rotr_length n l : length (rotr n l) = length l.
Proof.
  unfold rotr. rewrite app_length, skipn_length, firstn_length.
  destruct (Nat.eq_dec (length l) 0) as [E|E]; [rewrite E; reflexivity|].
  pose proof (Nat.mod_upper_bound n (length l) E). lia.
Qed.
Lemma nth_skip {A} k (l : list A) i d : nth i (skipn k l) d = nth (k + i) l d.
Proof. revert l. induction k as [|k IH]; intros l; [reflexivity|]. destruct l; cbn [skipn]; [destruct i; reflexivity|]. apply IH. Qed.
Lemma nth_first {A} k (l : list A) i d : i < k -> nth i (firstn k l) d = nth i l d.
Proof.
  revert l i. induction k as [|k IH]; intros l i H; [lia|]. destruct l as [|a l]; [destruct i; reflexivity|]. destruct i as [|i]; [reflexivity|].
  cbn [firstn nth]. apply IH. lia.
Qed.
Lemma rotr_nth n l i d : i < length l -> nth ((i + n) mod (length l)) (rotr n l) d = nth i l d.
Proof.
  intros H. assert (E : length l <> 0) by lia. pose proof (Nat.mod_upper_bound n (length l) E) as B. unfold rotr.
  rewrite Nat.add_mod, (Nat.mod_small i) by lia. set (k := n mod length l) in *.
  destruct (Nat.lt_ge_cases (i + k) (length l)) as [L|L].
  - rewrite Nat.mod_small by lia. rewrite app_nth2 by (rewrite skipn_length; lia). rewrite skipn_length. rewrite nth_first by lia. f_equal. lia.
  - replace (i + k) with ((i + k - length l) + 1 * length l) by lia. rewrite Nat.mod_add by lia. rewrite Nat.mod_small by lia.
    rewrite app_nth1 by (rewrite skipn_length; lia). rewrite nth_skip. f_equal. lia.
Qed.
(** What an operation MulXN n produces. *)
Lemma mulxn_spec deg cells n p c : exec_op deg cells (FMulXN n) [(EUnary, Some (CGlwe1 p))] = Ok c ->
  exists q, c = (Some (CGlwe1 q), None) /\ length q = length p /\ forall i, i < length p -> nth ((i + n) mod (length p)) q false = nth i p false.
Proof.
  intros H. assert (E : c = (Some (CGlwe1 (rotr n p)), None)) by (revert H; vm_compute; congruence).
  exists (rotr n p). split; [exact E|]. split; [apply rotr_length|]. intros i. apply rotr_nth.
Qed.
Lemma mulxn_ok deg cells n p : exists c, exec_op deg cells (FMulXN n) [(EUnary, Some (CGlwe1 p))] = Ok c.
Proof. eexists. reflexivity. Qed.
(** Not flips the constant coefficient and no other. *)
Lemma not_spec deg cells p : length p = deg -> 0 < deg ->
  exists q, exec_op deg cells FNot [(EUnary, Some (CGlwe1 p))] = Ok (Some (CGlwe1 q), None) /\ length q = deg /\
    nth 0 q false = negb (nth 0 p false) /\ forall i, 0 < i -> nth i q false = nth i p false.
Proof.
  intros L D. eexists. split; [reflexivity|]. destruct deg as [|dg]; [lia|]. destruct p as [|b p]; [discriminate|]. cbn [length] in L. cbn [pconst pxor].
  assert (X : forall k l, length l = k -> pxor l (repeat false k) = l).
  { clear. intros k. induction k as [|k IH]; intros [|x l] E; try discriminate; [reflexivity|]. cbn. rewrite IH by (cbn in E; lia). now rewrite xorb_false_r. }
  rewrite X by lia. split; [cbn; lia|]. split; [destruct b; reflexivity|]. intros i Hi. destruct i; [lia|]. reflexivity.
Qed.
