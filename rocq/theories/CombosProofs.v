(** Lemmas about the combination enumeration. *)
From Verif Require Import Base Spec Combos.
From Coq Require Import ZifyBool ZifyNat Sorted.
Ltac Zify.zify_post_hook ::= Z.div_mod_to_equations.

(** All t-subsets of {lo .. lo+cnt-1} in lexicographic order. *)
Fixpoint lex (lo cnt t : nat) : list (list nat) :=
  match t with
  | O => [[]]
  | S t' => match cnt with
            | O => []
            | S c => map (cons lo) (lex (S lo) c t') ++ lex (S lo) c t
            end
  end.

(** ** Binomials *)

Lemma binom_0 n : binom n 0 = 1. Proof. destruct n; reflexivity. Qed.
Lemma binom_SS n k : binom (S n) (S k) = binom n k + binom n (S k). Proof. reflexivity. Qed.
Lemma binom_gt : forall n k, (n < k)%nat -> binom n k = 0.
Proof. induction n as [|n IH]; intros [|k] H; try lia; [reflexivity|]. rewrite binom_SS, !IH by lia. lia. Qed.
Lemma binom_nn n : binom n n = 1.
Proof. induction n as [|n IH]; [reflexivity|]. rewrite binom_SS, IH, binom_gt by lia. lia. Qed.
Lemma binom_nonneg : forall n k, 0 <= binom n k.
Proof.
  induction n as [|n IH]; intros [|k]; cbn [binom]; try lia. pose proof (IH k). pose proof (IH (S k)). lia.
Qed.
Lemma binom_absorb : forall n k, Z.of_nat (S k) * binom (S n) (S k) = Z.of_nat (S n) * binom n k.
Proof.
  induction n as [|n IH]; intros k.
  - destruct k; cbn [binom]; rewrite ?binom_0; lia.
  - rewrite (binom_SS (S n) k). destruct k as [|k].
    + rewrite !binom_0. pose proof (IH 0%nat) as H0. rewrite binom_0 in H0. lia.
    + pose proof (IH k). pose proof (IH (S k)). rewrite (binom_SS n k) in *. nia.
Qed.
Lemma binom_sym : forall n k, (k <= n)%nat -> binom n k = binom n (n - k).
Proof.
  induction n as [|n IH]; intros [|k] H; try lia; try reflexivity.
  - rewrite binom_0, Nat.sub_0_r, binom_nn. reflexivity.
  - destruct (Nat.eq_dec k n) as [->|Hne].
    + rewrite Nat.sub_diag, binom_0, binom_nn. reflexivity.
    + replace (S n - S k)%nat with (S (n - S k)) by lia. rewrite !binom_SS.
      rewrite (IH k), (IH (S k)) by lia. replace (n - k)%nat with (S (n - S k)) by lia. lia.
Qed.

Lemma binom_loop_spec m k : forall fuel i,
  binom_loop (Z.of_nat m + Z.of_nat k) (Z.of_nat k) fuel (Z.of_nat (S i)) (binom (m + i) i) = binom (m + i + fuel) (i + fuel).
Proof.
  induction fuel as [|f IH]; intros i; cbn [binom_loop].
  - now rewrite !Nat.add_0_r.
  - replace (binom (m + i) i * (Z.of_nat m + Z.of_nat k - Z.of_nat k + Z.of_nat (S i)) / Z.of_nat (S i))
      with (binom (m + S i) (S i)).
    + replace (Z.of_nat (S i) + 1) with (Z.of_nat (S (S i))) by lia. rewrite IH. f_equal; lia.
    + replace (m + S i)%nat with (S (m + i)) by lia.
      pose proof (binom_absorb (m + i) i) as Ha.
      apply Z.div_unique with 0; [lia|]. 
      replace (Z.of_nat m + Z.of_nat k - Z.of_nat k + Z.of_nat (S i)) with (Z.of_nat (S (m + i))) by lia. lia.
Qed.

Lemma number_combinations_spec n k : number_combinations n k = binom n k.
Proof.
  unfold number_combinations. destruct (Nat.ltb_spec n k); [now rewrite binom_gt|].
  destruct (Nat.eqb_spec k 0) as [->|]; [now rewrite binom_0|].
  destruct (Nat.eqb_spec k n) as [->|]; [now rewrite binom_nn|].
  assert (H2 : forall j, (j <= n)%nat -> binom_loop (Z.of_nat n) (Z.of_nat j) j 1 1 = binom n j).
  { intros j Hj. pose proof (binom_loop_spec (n - j) j j 0) as H2.
    rewrite Nat.add_0_r, binom_0 in H2. change (Z.of_nat 1) with 1 in H2.
    replace (Z.of_nat (n - j) + Z.of_nat j) with (Z.of_nat n) in H2 by lia.
    rewrite H2. f_equal; lia. }
  destruct (Nat.ltb_spec (n / 2) k).
  - rewrite H2 by lia. symmetry. apply binom_sym. lia.
  - apply H2. lia.
Qed.

(** ** The lexicographic list *)

Lemma lex_0 lo cnt : lex lo cnt 0 = [[]]. Proof. destruct cnt; reflexivity. Qed.

Lemma lex_SS lo c t : lex lo (S c) (S t) = map (cons lo) (lex (S lo) c t) ++ lex (S lo) c (S t).
Proof. reflexivity. Qed.

Lemma lex_length : forall cnt t lo, Z.of_nat (length (lex lo cnt t)) = binom cnt t.
Proof.
  induction cnt as [|c IH]; intros [|t] lo; try reflexivity.
  rewrite lex_SS, app_length, map_length, Nat2Z.inj_add, !IH. reflexivity.
Qed.

Lemma lex_in : forall cnt t lo c, In c (lex lo cnt t) <-> is_comb lo (lo + cnt) t c.
Proof.
  unfold is_comb. induction cnt as [|cnt IH]; intros [|t] lo c.
  - cbn. split.
    + intros [<-|[]]. repeat split; constructor.
    + intros (H & _). left. destruct c; [reflexivity|discriminate].
  - cbn [lex In]. split; [tauto|]. intros (H & _ & H2). destruct c as [|x c]; [discriminate|].
    inversion H2; subst. lia.
  - cbn. split.
    + intros [<-|[]]. repeat split; constructor.
    + intros (H & _). left. destruct c; [reflexivity|discriminate].
  - rewrite lex_SS, in_app_iff, in_map_iff. split.
    + intros [(c' & <- & Hin)|Hin].
      * apply IH in Hin. destruct Hin as (H1 & H2 & H3). cbn [length]. repeat split; [lia| |].
        -- constructor; [exact H2|]. eapply Forall_impl; [|exact H3]. cbn. intros; lia.
        -- constructor; [lia|]. eapply Forall_impl; [|exact H3]. cbn. intros; lia.
      * apply IH in Hin. destruct Hin as (H1 & H2 & H3). repeat split; auto.
        eapply Forall_impl; [|exact H3]. cbn. intros; lia.
    + intros (H1 & H2 & H3). destruct c as [|x c]; [discriminate|]. cbn [length] in H1.
      inversion H2 as [|? ? Hs Hall]; subst. inversion H3 as [|? ? Hx Hr]; subst.
      destruct (Nat.eq_dec x lo) as [->|Hne].
      * left. exists c. split; [reflexivity|]. apply IH. repeat split; [lia|exact Hs|].
        rewrite Forall_forall in *. intros y Hy. specialize (Hall y Hy). specialize (Hr y Hy). lia.
      * right. apply IH. repeat split; [cbn; lia|exact H2|].
        rewrite Forall_forall in *. intros y [<-|Hy]; [lia|]. specialize (Hall y Hy). specialize (Hr y Hy). lia.
Qed.

Lemma lex_sorted : forall cnt t lo, StronglySorted lex_lt (lex lo cnt t).
Proof.
  induction cnt as [|cnt IH]; intros [|t] lo;
    [cbn; repeat constructor|cbn; repeat constructor|cbn; repeat constructor|].
  rewrite lex_SS.
  assert (Hm : StronglySorted lex_lt (map (cons lo) (lex (S lo) cnt t))).
  { specialize (IH t (S lo)). induction IH as [|x l Hs IHs Hall]; cbn [map]; constructor; auto.
    rewrite Forall_forall in *. intros y Hy. apply in_map_iff in Hy. destruct Hy as (z & <- & Hz).
    cbn. right. split; auto. }
  assert (Hcross : forall x y, In x (map (cons lo) (lex (S lo) cnt t)) -> In y (lex (S lo) cnt (S t)) -> lex_lt x y).
  { intros x y Hx Hy. apply in_map_iff in Hx. destruct Hx as (z & <- & _).
    apply lex_in in Hy. destruct Hy as (H1 & _ & H3). destruct y as [|y0 y]; [discriminate|].
    inversion H3; subst. cbn. left. lia. }
  induction Hm as [|x l Hs IHs Hall]; cbn [app]; [apply IH|]. constructor.
  - apply IHs. intros a b Ha Hb. apply Hcross; [now right|exact Hb].
  - rewrite Forall_forall in *. intros y Hy. apply in_app_or in Hy. destruct Hy as [Hy|Hy]; [auto|].
    apply Hcross; [now left|exact Hy].
Qed.

Lemma lex_lt_irrefl a : ~ lex_lt a a.
Proof. induction a as [|x a IH]; cbn; [tauto|]. intros [H|[_ H]]; [lia|auto]. Qed.

Lemma lex_nodup cnt t lo : NoDup (lex lo cnt t).
Proof.
  pose proof (lex_sorted cnt t lo) as H. induction H as [|x l Hs IHs Hall]; constructor; [|exact IHs].
  intros Hin. rewrite Forall_forall in Hall. apply (lex_lt_irrefl x). auto.
Qed.

(** ** The iterator *)

Fixpoint rnext (hi : nat) (c : list nat) : option (list nat) :=
  match c with
  | [] => None
  | x :: c =>
      match rnext hi c with
      | Some c' => Some (x :: c')
      | None => if (x + S (length c) =? hi)%nat then None else Some (seq (S x) (S (length c)))
      end
  end.

Definition maxed (n : nat) (c : list nat) (i : nat) : Prop := (nth i c 0 + (length c - i) = n)%nat.

Lemma rnext_none n c : rnext n c = None <-> forall i, (i < length c)%nat -> maxed n c i.
Proof.
  induction c as [|x c IH]; cbn [rnext length]; [split; [intros _ i Hi; lia|reflexivity]|].
  destruct (rnext n c) as [c'|] eqn:E.
  - split; [discriminate|]. intros H. exfalso. assert (E2 : Some c' = None); [|discriminate]. apply IH.
    intros i Hi. specialize (H (S i) ltac:(lia)). unfold maxed in *. cbn [nth length] in H. lia.
  - destruct (Nat.eqb_spec (x + S (length c)) n) as [He|Hne].
    + split; [|reflexivity]. intros _ [|i] Hi; unfold maxed; cbn [nth length]; [lia|].
      assert (H : maxed n c i) by (apply IH; [reflexivity|lia]). unfold maxed in H. lia.
    + split; [discriminate|]. intros H. specialize (H 0%nat ltac:(lia)). unfold maxed in H. cbn [nth length] in H. lia.
Qed.

Lemma rnext_some n c i :
  (i < length c)%nat -> ~ maxed n c i -> (forall j, (i < j < length c)%nat -> maxed n c j) ->
  rnext n c = Some (firstn i c ++ seq (S (nth i c O)) (length c - i)).
Proof.
  revert i; induction c as [|x c IH]; intros i Hi Hn Hmax; cbn [length] in *; [lia|]. cbn [rnext].
  destruct i as [|i].
  - assert (E : rnext n c = None).
    { apply rnext_none. intros j Hj. specialize (Hmax (S j) ltac:(lia)). unfold maxed in *. cbn [nth length] in Hmax. lia. }
    rewrite E. destruct (Nat.eqb_spec (x + S (length c)) n) as [He|Hne].
    + exfalso. apply Hn. unfold maxed. cbn [nth length]. lia.
    + cbn [firstn app nth]. now rewrite Nat.sub_0_r.
  - rewrite (IH i).
    + cbn [firstn nth app]. replace (S (length c) - S i)%nat with (length c - i)%nat by lia. reflexivity.
    + lia.
    + intros H. apply Hn. unfold maxed in *. cbn [nth length]. lia.
    + intros j Hj. specialize (Hmax (S j) ltac:(lia)). unfold maxed in *. cbn [nth length] in Hmax. lia.
Qed.

Lemma comb_scan_spec n t c : (t <= n)%nat -> length c = t -> forall k, (k <= t)%nat ->
  let i := comb_scan n t c k in
  (i <= k)%nat /\ (i = 0%nat \/ (i < k)%nat /\ ~ maxed n c i) /\ (forall j, (i < j < k)%nat -> maxed n c j)
  /\ ((0 < k)%nat -> i < k)%nat.
Proof.
  intros Htn Hl. induction k as [|k IH]; intros Hk; cbn [comb_scan].
  - repeat split; try lia.
  - destruct (Nat.eqb_spec (nth k c 0%nat) (n - t + k)) as [He|Hne].
    + destruct (IH ltac:(lia)) as (H1 & H2 & H3 & H4).
      repeat split; try lia.
      * destruct H2 as [H2|[H2 H2']]; [now left|right; split; [lia|exact H2']].
      * intros j Hj. destruct (Nat.eq_dec j k) as [->|]; [unfold maxed; lia|apply H3; lia].
    + repeat split; try lia. right. split; [lia|]. unfold maxed. lia.
Qed.

Lemma comb_next_rnext n t c : (t <= n)%nat -> length c = t -> comb_next n t (Some c) = rnext n c.
Proof.
  intros Htn Hl. cbn [comb_next]. destruct (Nat.eqb_spec t 0) as [->|Ht].
  - destruct c; [reflexivity|discriminate].
  - cbn [orb]. pose proof (comb_scan_spec n t c Htn Hl t ltac:(lia)) as Hs.
    set (i := comb_scan n t c t) in *. cbn zeta in Hs. destruct Hs as (H1 & H2 & H3 & H4).
    specialize (H4 ltac:(lia)).
    destruct (Nat.eqb_spec i 0) as [E0|E0]; cbn [andb].
    + destruct (Nat.eqb_spec (nth i c 0%nat) (n - t)) as [E1|E1].
      * symmetry. apply rnext_none. intros j Hj. destruct (Nat.eq_dec j i) as [->|]; [unfold maxed; lia|apply H3; lia].
      * symmetry. unfold comb_bump. rewrite <- Hl. apply rnext_some; [lia|unfold maxed; lia|intros j Hj; apply H3; lia].
    + symmetry. unfold comb_bump. rewrite <- Hl. apply rnext_some; [lia| |intros j Hj; apply H3; lia].
      destruct H2 as [H2|[_ H2]]; [lia|exact H2].
Qed.

Fixpoint chain (hi : nat) (l : list (list nat)) : Prop :=
  match l with
  | [] => False
  | x :: l' => match l' with [] => rnext hi x = None | y :: _ => rnext hi x = Some y /\ chain hi l' end
  end.

Lemma lex_chain : forall cnt t lo, (t <= cnt)%nat ->
  hd_error (lex lo cnt t) = Some (seq lo t) /\ chain (lo + cnt) (lex lo cnt t).
Proof.
  induction cnt as [|c IH]; intros [|t] lo Ht; try lia; try (split; reflexivity).
  rewrite lex_SS. replace (lo + S c)%nat with (S lo + c)%nat by lia.
  destruct (IH t (S lo) ltac:(lia)) as [Hh Hc].
  assert (HB : c = t /\ lex (S lo) c (S t) = [] \/ (S t <= c)%nat /\
      hd_error (lex (S lo) c (S t)) = Some (seq (S lo) (S t)) /\ chain (S lo + c) (lex (S lo) c (S t))).
  { destruct (Nat.eq_dec c t) as [->|Hne].
    - left. split; [reflexivity|]. pose proof (lex_length t (S t) (S lo)) as Hl.
      rewrite binom_gt in Hl by lia. destruct (lex (S lo) t (S t)); [reflexivity|cbn in Hl; lia].
    - right. split; [lia|]. apply IH. lia. }
  assert (Hlen : forall z, In z (lex (S lo) c t) -> length z = t) by (intros z Hz; apply lex_in in Hz; apply Hz).
  set (A := lex (S lo) c t) in *. set (B := lex (S lo) c (S t)) in *.
  split.
  - destruct A as [|a A]; [discriminate|]. cbn in *. injection Hh as ->. reflexivity.
  - clear Hh. clearbody A B. revert Hc Hlen. induction A as [|a A IHA]; intros Hc Hlen; [destruct Hc|].
    cbn [map app]. destruct A as [|a' A].
    + cbn [map app]. cbn [chain] in Hc |- *. cbn [rnext]. rewrite Hc.
      rewrite (Hlen a) by (now left).
      destruct HB as [[-> ->]|(Hle & HhB & HcB)].
      * replace (lo + S t)%nat with (S lo + t)%nat by lia. now rewrite Nat.eqb_refl.
      * destruct B as [|b B]; [discriminate|]. cbn in HhB. injection HhB as ->.
        destruct (Nat.eqb_spec (lo + S t) (S lo + c)); [lia|]. split; [reflexivity|exact HcB].
    + destruct Hc as [H1 H2].
      assert (E : rnext (S lo + c) (lo :: a) = Some (lo :: a')) by (cbn [rnext]; now rewrite H1).
      change ((lo :: a) :: map (cons lo) (a' :: A) ++ B) with ((lo :: a) :: (lo :: a') :: (map (cons lo) A ++ B)).
      cbn [chain]. split; [exact E|]. apply IHA; [exact H2|]. intros z Hz. apply Hlen. now right.
Qed.

Lemma comb_collect_chain n t : (t <= n)%nat -> forall l x fuel,
  chain n (x :: l) -> (forall z, In z (x :: l) -> length z = t) -> (length l < fuel)%nat ->
  comb_collect n t fuel (Some x) = l.
Proof.
  intros Htn. induction l as [|y l IH]; intros x fuel Hc Hlen Hf; (destruct fuel as [|f]; [cbn in Hf; lia|]);
    cbn [comb_collect]; rewrite comb_next_rnext by (auto; apply Hlen; now left).
  - cbn in Hc. now rewrite Hc.
  - destruct Hc as [H1 H2]. rewrite H1. f_equal. apply IH; [exact H2| |cbn in Hf; lia].
    intros z Hz. apply Hlen. now right.
Qed.

Lemma comb_collect_lex n t fuel : (t <= n)%nat -> binom n t < Z.of_nat fuel ->
  comb_collect n t fuel None = lex 0 n t.
Proof.
  intros Htn Hf. destruct (lex_chain n t 0 Htn) as [Hh Hc]. cbn [Nat.add] in Hc.
  pose proof (lex_length n t 0) as Hl.
  assert (Hlen : forall z, In z (lex 0 n t) -> length z = t) by (intros z Hz; apply lex_in in Hz; apply Hz).
  destruct (lex 0 n t) as [|x l]; [discriminate|]. cbn in Hh. injection Hh as ->.
  destruct fuel as [|f]; [pose proof (binom_nonneg n t); lia|]. cbn [comb_collect comb_next]. f_equal.
  apply comb_collect_chain; auto. cbn [length] in Hl. lia.
Qed.

(** ** get_index *)

(** Position of c in lex lo cnt t. *)
Lemma gi_loop_spec n : forall cnt c lo t off index,
  is_comb lo n t c -> (lo + cnt = n)%nat -> (0 < n)%nat ->
  exists r, gi_loop (n - 1) (off + t) c off lo index = Some (index + Z.of_nat r) /\
            nth_error (lex lo cnt t) r = Some c.
Proof.
  induction cnt as [|cnt IH]; intros c lo t off index Hc Hn Hn0.
  - destruct c as [|x c].
    + destruct Hc as (Hl & _). cbn in Hl. subst t. exists 0%nat. cbn. split; [f_equal; lia|reflexivity].
    + destruct Hc as (_ & _ & H). inversion H; subst. lia.
  - destruct c as [|x c].
    + destruct Hc as (Hl & _). cbn in Hl. subst t. exists 0%nat. cbn. split; [f_equal; lia|reflexivity].
    + destruct Hc as (Hl & Hs & Hr). cbn [length] in Hl. destruct t as [|t]; [lia|]. injection Hl as Hl.
      inversion Hs as [|? ? Hs' Hall]; subst. inversion Hr as [|? ? Hx Hr']; subst.
      destruct (Nat.eq_dec x lo) as [->|Hne].
      * destruct (IH c (S lo) (length c) (S off) index) as (r & Hg & Hnth); [|lia|lia|].
        { repeat split; auto. rewrite Forall_forall in *. intros y Hy. specialize (Hall y Hy). specialize (Hr' y Hy). lia. }
        exists r. split.
        -- cbn [gi_loop]. destruct (Nat.ltb_spec (lo + S cnt - 1) lo); [lia|].
           rewrite Nat.sub_diag. cbn [gi_while]. rewrite Nat.max_id.
           replace (off + S (length c))%nat with (S off + length c)%nat by lia. exact Hg.
        -- rewrite lex_SS. rewrite nth_error_app1.
           ++ rewrite nth_error_map, Hnth. reflexivity.
           ++ rewrite map_length. apply nth_error_Some. congruence.
      * destruct (IH (x :: c) (S lo) (S (length c)) off (index + binom cnt (length c))) as (r & Hg & Hnth); [|lia|lia|].
        { repeat split; auto. rewrite Forall_forall in *. intros y [<-|Hy]; [lia|].
          specialize (Hall y Hy). specialize (Hr' y Hy). lia. }
        pose proof (lex_length cnt (length c) (S lo)) as Hlen.
        exists (length (lex (S lo) cnt (length c)) + r)%nat. split.
        -- cbn [gi_loop] in Hg |- *. destruct (Nat.ltb_spec (lo + S cnt - 1) x); [lia|].
           replace (x - lo)%nat with (S (x - S lo)) by lia. cbn [gi_while].
           replace (Nat.max lo x) with (Nat.max (S lo) x) by lia.
           rewrite number_combinations_spec.
           replace (off + S (length c) - (off + 1))%nat with (length c) in * by lia.
           replace (lo + S cnt - 1 - lo)%nat with cnt by lia. rewrite Hg. f_equal. lia.
        -- rewrite lex_SS. rewrite nth_error_app2 by (rewrite map_length; lia). rewrite map_length.
           replace (length (lex (S lo) cnt (length c)) + r - length (lex (S lo) cnt (length c)))%nat with r by lia.
           exact Hnth.
Qed.

Lemma get_index_spec n t c : (0 < n)%nat -> is_comb 0 n t c ->
  exists r, comb_get_index n t c = Some (Z.of_nat r) /\ nth_error (lex 0 n t) r = Some c.
Proof.
  intros Hn Hc. destruct (gi_loop_spec n n c 0 t 0 0 Hc ltac:(lia) Hn) as (r & Hg & Hnth).
  exists r. split; [|exact Hnth]. unfold comb_get_index. destruct Hc as (Hl & _). rewrite Hl, Nat.eqb_refl. exact Hg.
Qed.

(** ** at_index *)

Lemma ai_loop_spec n : forall a b x, (a <= n)%nat -> (b <= a)%nat -> 0 <= x < binom a b ->
  exists c, ai_loop n b a b x = Some c /\
    nth_error (lex (n - a) a b) (Z.to_nat (binom a b - 1 - x)) = Some c.
Proof.
  induction a as [|a IH]; intros b x Ha Hb Hx.
  - assert (b = 0%nat) by lia. subst b. exists []. cbn in Hx. split; [reflexivity|].
    assert (x = 0) by lia. subst x. reflexivity.
  - destruct b as [|b].
    + rewrite binom_0 in *. assert (x = 0) by lia. subst x. exists []. split; [reflexivity|]. now rewrite lex_0.
    + rewrite binom_SS in Hx. rewrite lex_SS, binom_SS.
      pose proof (lex_length a b (S (n - S a))) as HlA.
      pose proof (binom_nonneg a b). pose proof (binom_nonneg a (S b)).
      replace (S (n - S a)) with (n - a)%nat in * by lia.
      cbn [ai_loop]. 
      assert (Hw : ai_while a (S b) x =
                   if number_combinations a (S b) >? x then match a with O => None | S a' => ai_while a' (S b) x end
                   else Some a) by (destruct a; reflexivity).
      rewrite Hw. rewrite number_combinations_spec. destruct (Z.gtb_spec (binom a (S b)) x) as [Hgt|Hle].
      * (* in the second part *)
        assert (Hba : (S b <= a)%nat).
        { destruct (Nat.le_gt_cases (S b) a); [assumption|]. rewrite (binom_gt a (S b)) in Hgt by lia. lia. }
        destruct (IH (S b) x ltac:(lia) Hba ltac:(lia)) as (c & Hc & Hn).
        destruct a as [|a1]; [lia|]. cbn [ai_loop] in Hc. exists c. split; [exact Hc|].
        rewrite nth_error_app2 by (rewrite map_length; lia). rewrite map_length.
        rewrite <- Hn. f_equal. lia.
      * destruct (IH b (x - binom a (S b)) ltac:(lia) ltac:(lia) ltac:(lia)) as (c & Hc & Hn).
        rewrite number_combinations_spec. replace (S b - 1)%nat with b by lia. rewrite Hc.
        exists ((n - S a)%nat :: c). split; [f_equal; f_equal; lia|].
        rewrite nth_error_app1 by (rewrite map_length; lia). rewrite nth_error_map.
        replace (binom a b + binom a (S b) - 1 - x) with (binom a b - 1 - (x - binom a (S b))) by lia.
        rewrite Hn. reflexivity.
Qed.

Lemma at_index_spec n t i : (t <= n)%nat -> 0 <= i ->
  if i <? binom n t then
    exists c, comb_at_index n t i = Some (Some c) /\ nth_error (lex 0 n t) (Z.to_nat i) = Some c
  else comb_at_index n t i = None.
Proof.
  intros Ht Hi. unfold comb_at_index. rewrite number_combinations_spec.
  destruct (Z.ltb_spec i (binom n t)) as [Hl|Hl]; destruct (Z.geb_spec i (binom n t)); try lia; [|reflexivity].
  destruct (ai_loop_spec n n t (binom n t - 1 - i) ltac:(lia) Ht ltac:(lia)) as (c & Hc & Hn).
  exists c. rewrite Hc. split; [reflexivity|]. rewrite Nat.sub_diag in Hn. rewrite <- Hn. f_equal. lia.
Qed.
