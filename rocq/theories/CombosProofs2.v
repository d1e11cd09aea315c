(** Proofs: inserting an element into a reduced combination. *)
From Coq Require Import ZifyBool ZifyNat Sorted.
From Verif Require Import Base Combos Spec SpecMath.
Open Scope nat_scope.

Fixpoint ins (e : nat) (c : list nat) : list nat :=
  match c with [] => [e] | x :: c => if e <=? x then e :: map S (x :: c) else x :: ins e c end.
Fixpoint pos (e : nat) (c : list nat) : nat := match c with [] => 0 | x :: c => if e <=? x then 0 else S (pos e c) end.

Lemma ins_loop_done e c : forall i ix, ins_loop e c i true ix = (ix, map S c, true).
Proof. induction c as [|x c IH]; intros i ix; cbn [ins_loop map]; [auto|]. rewrite IH. now rewrite Nat.add_1_r. Qed.
Lemma ins_loop_spec e c : forall i ix, ix = i + length c ->
  exists l d, ins_loop e c i false ix = (i + pos e c, l, d) /\ ins e c = (if d then l else l ++ [e]).
Proof.
  induction c as [|x c IH]; intros i ix Hx; cbn [ins_loop ins pos length] in *; [exists [], false; split; [subst ix; rewrite !Nat.add_0_r; reflexivity|reflexivity]|].
  destruct (e <=? x) eqn:E.
  - rewrite ins_loop_done. exists (e :: (x + 1) :: map S c), true. split; [now rewrite Nat.add_0_r|]. cbn [map]. now rewrite Nat.add_1_r.
  - destruct (IH (S i) ix ltac:(lia)) as (l & d & H1 & H2). rewrite H1. exists (x :: l), d. split; [now rewrite <- Nat.add_succ_comm|]. rewrite H2. destruct d; reflexivity.
Qed.
Lemma insert_eq e c : insert_element e c = (pos e c, ins e c).
Proof. unfold insert_element. destruct (ins_loop_spec e c 0 (length c) eq_refl) as (l & d & -> & ->). reflexivity. Qed.

Lemma ins_nth e c : nth_error (ins e c) (pos e c) = Some e.
Proof. induction c as [|x c IH]; cbn [ins pos]; [reflexivity|]. destruct (e <=? x); [reflexivity|exact IH]. Qed.
Lemma ins_in e c y : In y (ins e c) -> y = e \/ In y c \/ exists z, In z c /\ y = S z.
Proof.
  induction c as [|x c IH]; cbn [ins]; [intros [<-|[]]; auto|]. destruct (e <=? x).
  - intros [<-|H]; [auto|]. apply in_map_iff in H as (z & <- & Hz). right. right. eauto.
  - intros [<-|H]; [right; left; now left|]. apply IH in H as [->|[H|(z & Hz & ->)]]; [auto|right; left; now right|right; right; exists z; split; [now right|auto]].
Qed.
Lemma map_S_sorted c : StronglySorted lt c -> StronglySorted lt (map S c).
Proof.
  induction c as [|x c IH]; intros H; cbn [map]; [constructor|]. inversion H as [|? ? H1 H2]; subst. constructor; [auto|].
  apply Forall_forall. intros y Hy. apply in_map_iff in Hy as (z & <- & Hz). rewrite Forall_forall in H2. apply H2 in Hz. lia.
Qed.
Lemma ins_sorted e c : StronglySorted lt c -> StronglySorted lt (ins e c).
Proof.
  induction c as [|x c IH]; intros H; cbn [ins]; [repeat constructor|]. inversion H as [|? ? H1 H2]; subst. rewrite Forall_forall in H2. destruct (e <=? x) eqn:E.
  - constructor; [now apply map_S_sorted|]. apply Forall_forall. intros y Hy. apply in_map_iff in Hy as (z & <- & [<-|Hz]); [lia|]. apply H2 in Hz. lia.
  - constructor; [auto|]. apply Forall_forall. intros y Hy. apply ins_in in Hy as [->|[Hy|(z & Hz & ->)]]; [lia|now apply H2|]. apply H2 in Hz. lia.
Qed.
Lemma ins_length e c : length (ins e c) = S (length c).
Proof. induction c as [|x c IH]; cbn [ins]; [auto|]. destruct (e <=? x); cbn [length]; [rewrite map_length; reflexivity|now rewrite IH]. Qed.
Lemma ins_comb n t e c : e < n -> is_comb 0 (n - 1) t c -> is_comb 0 n (S t) (ins e c).
Proof.
  intros He (H1 & H2 & H3). split; [rewrite ins_length; now rewrite H1|]. split; [now apply ins_sorted|]. rewrite Forall_forall in *.
  intros y Hy. apply ins_in in Hy as [->|[Hy|(z & Hz & ->)]]; [lia|apply H3 in Hy; lia|apply H3 in Hz; lia].
Qed.

(** The inverse. *)
Fixpoint del (e : nat) (d : list nat) : list nat := match d with [] => [] | y :: d => if y <? e then y :: del e d else map pred d end.
Lemma del_ins e c : del e (ins e c) = c.
Proof.
  induction c as [|x c IH]; cbn [ins del]; [rewrite Nat.ltb_irrefl; reflexivity|]. destruct (e <=? x) eqn:E; cbn [del].
  - rewrite Nat.ltb_irrefl. rewrite map_map. cbn [pred]. now rewrite map_id.
  - replace (x <? e) with true by lia. now rewrite IH.
Qed.
Lemma ins_del e d : StronglySorted lt d -> In e d -> ins e (del e d) = d.
Proof.
  induction d as [|y d IH]; intros H I; [destruct I|]. inversion H as [|? ? H1 H2]; subst. cbn [del]. destruct (y <? e) eqn:E.
  - cbn [ins]. replace (e <=? y) with false by lia. f_equal. apply IH; auto. destruct I as [->|I]; [lia|auto].
  - rewrite Forall_forall in H2. assert (y = e) as ->. { destruct I as [->|I]; [auto|]. apply H2 in I. lia. }
    destruct d as [|z d]; [reflexivity|]. assert (Hz := H2 z ltac:(now left)). cbn [map ins]. replace (e <=? pred z) with true by lia. f_equal.
    assert (P : forall l, (forall y, In y l -> e < y) -> map S (map pred l) = l).
    { induction l as [|u l IHl]; intros Hl; cbn [map]; [auto|]. rewrite IHl by (intros v Hv; apply Hl; now right). f_equal. assert (e < u) by (apply Hl; now left). lia. }
    apply (P (z :: d)). intros v Hv. now apply H2.
Qed.
Lemma map_pred_sorted d lo : Forall (lt lo) d -> StronglySorted lt d -> StronglySorted lt (map pred d).
Proof.
  induction d as [|x d IH]; intros F H; cbn [map]; [constructor|]. inversion H as [|? ? H1 H2]; subst. inversion F as [|? ? F1 F2]; subst. constructor; [auto|].
  apply Forall_forall. intros y Hy. apply in_map_iff in Hy as (z & <- & Hz). rewrite Forall_forall in H2. apply H2 in Hz. lia.
Qed.
Lemma del_in e d y : StronglySorted lt d -> In y (del e d) -> (In y d /\ y < e) \/ In (S y) d /\ e <= y.
Proof.
  induction d as [|x d IH]; cbn [del]; intros H I; [destruct I|]. inversion H as [|? ? H1 H2]; subst. destruct (x <? e) eqn:E.
  - destruct I as [<-|I]; [left; split; [now left|lia]|]. apply IH in I as [[A B]|[A B]]; auto; [left; split; [now right|auto]|right; split; [now right|auto]].
  - apply in_map_iff in I as (z & <- & Hz). rewrite Forall_forall in H2. pose proof (H2 _ Hz). right. replace (S (pred z)) with z by lia. split; [now right|lia].
Qed.
Lemma del_sorted e d : StronglySorted lt d -> StronglySorted lt (del e d).
Proof.
  induction d as [|x d IH]; cbn [del]; intros H; [constructor|]. inversion H as [|? ? H1 H2]; subst. destruct (x <? e) eqn:E.
  - constructor; [auto|]. apply Forall_forall. intros y Hy. apply del_in in Hy; auto. rewrite Forall_forall in H2. destruct Hy as [[A _]|[A B]]; [now apply H2|]. lia.
  - now apply (map_pred_sorted d x).
Qed.
Lemma del_comb n t e d : e < n -> is_comb 0 n (S t) d -> In e d -> is_comb 0 (n - 1) t (del e d).
Proof.
  intros He (H1 & H2 & H3) I. pose proof (ins_del e d H2 I) as E. split; [|split].
  - rewrite <- E, ins_length in H1. lia.
  - now apply del_sorted.
  - rewrite Forall_forall in *. intros y Hy. apply del_in in Hy; auto. destruct Hy as [[A B]|[A B]]; apply H3 in A; lia.
Qed.
Lemma lex_map_S a : forall b, lex_lt a b -> lex_lt (map S a) (map S b).
Proof. induction a as [|x a IH]; intros [|y b] H; cbn [lex_lt map] in *; try tauto. destruct H as [H|[-> H]]; [left; lia|right; split; [auto|now apply IH]]. Qed.
Lemma ins_lex e a : forall b, lex_lt a b -> lex_lt (ins e a) (ins e b).
Proof.
  induction a as [|x a IH]; intros [|y b] H; cbn [lex_lt] in H; try tauto. cbn [ins]. destruct H as [H|[-> H]].
  - destruct (e <=? x) eqn:E1; destruct (e <=? y) eqn:E2; try lia; cbn [lex_lt map]; [right; split; [auto|left; lia]|left; lia|left; lia].
  - destruct (e <=? y) eqn:E1; cbn [lex_lt]; [right; split; [auto|]|right; split; [auto|now apply IH]]. apply (lex_map_S (y :: a) (y :: b)). cbn. auto.
Qed.
Lemma drop_del e d : StronglySorted lt d -> In e d -> drop_element e d = del e d.
Proof.
  unfold drop_element. induction d as [|y d IH]; intros Hs Hi; [destruct Hi|]. inversion Hs as [|? ? Hs' Hf]; subst. cbn [filter del]. destruct (y <? e) eqn:E.
  - replace (y =? e) with false by lia. cbn [negb map]. rewrite E. f_equal. apply IH; [auto|]. destruct Hi as [->|]; [lia|auto].
  - destruct Hi as [->|Hi]; [|rewrite Forall_forall in Hf; specialize (Hf e Hi); lia]. rewrite Nat.eqb_refl. cbn [negb].
    clear IH Hs. induction d as [|z d IH]; [auto|]. inversion Hf as [|? ? Hz Hf']; subst. inversion Hs'; subst. cbn [filter map]. replace (z =? e) with false by lia. cbn [negb map]. replace (z <? e) with false by lia. f_equal. auto.
Qed.
Lemma ins_contains e c : In e (ins e c).
Proof. eapply nth_error_In. apply ins_nth. Qed.
Lemma insert_ok n t e c : e < n -> is_comb 0 (n - 1) t c ->
  let (p, d) := insert_element e c in is_comb 0 n (S t) d /\ nth_error d p = Some e /\ drop_element e d = c.
Proof.
  intros He Hc. rewrite insert_eq. split; [now apply ins_comb|]. split; [apply ins_nth|].
  rewrite drop_del; [apply del_ins| |apply ins_contains]. apply ins_sorted. apply Hc.
Qed.
Lemma insert_onto n t e d : e < n -> is_comb 0 n (S t) d -> In e d -> exists c, is_comb 0 (n - 1) t c /\ snd (insert_element e c) = d.
Proof. intros He Hd Hi. exists (del e d). split; [now apply del_comb|]. rewrite insert_eq. cbn [snd]. apply ins_del; [apply Hd|auto]. Qed.
