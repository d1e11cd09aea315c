From Coq Require Import Permutation.
From Verif Require Import Base Scratch SpecScratch.
Open Scope Z_scope.

Lemma Forall2_length' {A B} (P : A -> B -> Prop) l m : Forall2 P l m -> length l = length m.
Proof. induction 1; cbn; congruence. Qed.

Lemma nodup_app_r {A} (l m : list A) : NoDup (l ++ m) -> NoDup m.
Proof. induction l as [|x l IH]; [auto|]. cbn. intros H. inversion H; auto. Qed.

Lemma assoc_unassoc_ne {B} (l : list (nat * B)) k k' : k <> k' -> assoc (unassoc l k) k' = assoc l k'.
Proof.
  intros H. induction l as [|[a b] l IH]; [reflexivity|]. cbn. destruct (Nat.eqb_spec k a).
  - subst. destruct (Nat.eqb_spec k' a); [congruence|reflexivity].
  - cbn. destruct (Nat.eqb_spec k' a); [reflexivity|exact IH].
Qed.

Lemma assoc_in {B} (l : list (nat * B)) k b : assoc l k = Some b -> In k (map fst l).
Proof. induction l as [|[a c] l IH]; [discriminate|]. cbn. destruct (Nat.eqb_spec k a); [subst; auto|intros H; right; auto]. Qed.

Lemma in_assoc {B} (l : list (nat * B)) k : In k (map fst l) -> exists b, assoc l k = Some b.
Proof. induction l as [|[a c] l IH]; [intros []|]. cbn. destruct (Nat.eqb_spec k a); [eauto|]. intros [->|H]; [congruence|auto]. Qed.

Lemma unassoc_perm {B} (l : list (nat * B)) k b : assoc l k = Some b -> Permutation l ((k, b) :: unassoc l k).
Proof.
  induction l as [|[a c] l IH]; [discriminate|]. cbn. destruct (Nat.eqb_spec k a).
  - subst. intros H. inversion H; subst. reflexivity.
  - intros H. rewrite (IH H) at 1. apply perm_swap.
Qed.

Lemma unassoc_assoc_nd {B} (l : list (nat * B)) k : NoDup (map fst l) -> assoc (unassoc l k) k = None.
Proof.
  induction l as [|[a c] l IH]; [reflexivity|]. cbn. intros H. inversion H; subst. destruct (Nat.eqb_spec k a).
  - subst. destruct (assoc l a) eqn:E; [|reflexivity]. apply assoc_in in E. contradiction.
  - cbn. destruct (Nat.eqb_spec k a); [congruence|auto].
Qed.

Lemma pop_back_some l a q : pop_back l = Some (a, q) -> l = q ++ [a].
Proof. unfold pop_back. destruct (rev l) eqn:E; [discriminate|]. intros H. inversion H; subst. rewrite <- (rev_involutive l), E. reflexivity. Qed.
Lemma pop_back_none l : pop_back l = None -> l = [].
Proof. unfold pop_back. destruct (rev l) eqn:E; [|discriminate]. intros _. rewrite <- (rev_involutive l), E. reflexivity. Qed.

Lemma set_byte_keys h k pos v : map fst (set_byte h k pos v) = map fst h.
Proof. induction h as [|[a b] h IH]; [reflexivity|]. cbn. destruct (Nat.eqb k a); cbn; [reflexivity|f_equal; exact IH]. Qed.

Lemma set_byte_ne h k k' pos v : k <> k' -> assoc (set_byte h k pos v) k' = assoc h k'.
Proof.
  intros H. induction h as [|[a b] h IH]; [reflexivity|]. cbn. destruct (Nat.eqb_spec k a).
  - subst. cbn. destruct (Nat.eqb_spec k' a); [congruence|reflexivity].
  - cbn. destruct (Nat.eqb_spec k' a); [reflexivity|exact IH].
Qed.

Lemma set_byte_eq h k pos v b : assoc h k = Some b ->
  assoc (set_byte h k pos v) k = Some {| b_align := b_align b; b_len := b_len b; b_data := fun i => if i =? pos then v else b_data b i |}.
Proof.
  induction h as [|[a c] h IH]; [discriminate|]. cbn. destruct (Nat.eqb_spec k a).
  - subst. intros H. inversion H; subst. cbn. rewrite Nat.eqb_refl. reflexivity.
  - intros H. cbn. destruct (Nat.eqb_spec k a); [congruence|auto].
Qed.

(** A held buffer and what its holder knows agree. *)
Definition agree (limit simd : Z) (heap : list (nat * block)) (x : nat * buffer) (y : nat * vbuf) : Prop :=
  fst x = fst y /\ f_count (snd x) = v_count (snd y) /\ f_size (snd x) = v_size (snd y) /\ 0 < v_size (snd y) /\ 0 <= v_count (snd y) /\
  exists b, assoc heap (f_block (snd x)) = Some b /\ b_len b <= limit /\ Z.max simd (v_align (snd y)) <= b_align b /\
    (v_count (snd y) * v_size (snd y) <= b_len b \/ (b_len b < v_count (snd y) /\ 2 ^ 64 <= v_count (snd y) * v_size (snd y))) /\
    (forall e j v, 0 <= e < v_count (snd y) -> 0 <= j < v_size (snd y) -> v_cell (snd y) e j = Some v -> b_data b (e * v_size (snd y) + j) = v).

Definition blocks (l : list (nat * buffer)) : list nat := map (fun x => f_block (snd x)) l.

Record inv (limit simd : Z) (s : scratch) (v : list (nat * vbuf)) : Prop := {
  inv_fresh : forall k, In k (map fst (s_heap s)) -> (k < s_fresh s)%nat;
  inv_nd : NoDup (map fst (s_heap s));
  inv_perm : Permutation (map fst (s_heap s)) (s_pool s ++ blocks (s_live s));
  inv_len : forall k b, assoc (s_heap s) k = Some b -> b_len b <= limit;
  inv_names : NoDup (map fst (s_live s));
  inv_agree : Forall2 (agree limit simd (s_heap s)) (s_live s) v }.

Lemma inv_new limit simd : inv limit simd scratch_new [].
Proof. constructor; cbn; try constructor; try discriminate; intros k []. Qed.

Lemma agree_heap limit simd h h' x y : assoc h' (f_block (snd x)) = assoc h (f_block (snd x)) -> agree limit simd h x y -> agree limit simd h' x y.
Proof. unfold agree. intros E H. rewrite E. exact H. Qed.

Lemma agree_heap_all limit simd h h' l v : (forall k, In k (blocks l) -> assoc h' k = assoc h k) ->
  Forall2 (agree limit simd h) l v -> Forall2 (agree limit simd h') l v.
Proof.
  intros E H. induction H as [|x y l v Hxy H IH]; [constructor|]. constructor.
  - apply (agree_heap _ _ h); [apply E; left; reflexivity|exact Hxy].
  - apply IH. intros k Hk. apply E. right. exact Hk.
Qed.

Lemma agree_names limit simd h l v : Forall2 (agree limit simd h) l v -> map fst l = map fst v.
Proof. induction 1 as [|x y l v Hxy H IH]; [reflexivity|]. cbn. f_equal; [apply Hxy|exact IH]. Qed.

Lemma agree_assoc limit simd h l v k y : Forall2 (agree limit simd h) l v -> assoc v k = Some y ->
  exists x, assoc l k = Some x /\ agree limit simd h (k, x) (k, y).
Proof.
  induction 1 as [|x0 y0 l v Hxy H IH]; [discriminate|]. destruct x0 as [a x0], y0 as [a' y0]. assert (a = a') by apply Hxy. subst a'.
  cbn. destruct (Nat.eqb_spec k a); [|auto]. subst. intros E. inversion E; subst. exists x0. auto.
Qed.

Lemma agree_unassoc limit simd h l v k : Forall2 (agree limit simd h) l v -> Forall2 (agree limit simd h) (unassoc l k) (unassoc v k).
Proof.
  induction 1 as [|x0 y0 l v Hxy H IH]; [constructor|]. destruct x0 as [a x0], y0 as [a' y0]. assert (a = a') by apply Hxy. subst a'.
  cbn. destruct (Nat.eqb_spec k a); [exact H|]. constructor; assumption.
Qed.

Lemma blocks_unassoc l k x : assoc l k = Some x -> Permutation (blocks l) (f_block x :: blocks (unassoc l k)).
Proof.
  induction l as [|[a c] l IH]; [discriminate|]. cbn. destruct (Nat.eqb_spec k a).
  - intros H. inversion H; subst. reflexivity.
  - intros H. cbn. unfold blocks in *. rewrite (IH H). apply perm_swap.
Qed.

Lemma unassoc_in {B} (l : list (nat * B)) k x : In x (map fst (unassoc l k)) -> In x (map fst l).
Proof. induction l as [|[a c] l IH]; [intros []|]. cbn. destruct (Nat.eqb k a); cbn; [auto|]. intros [H|H]; auto. Qed.
Lemma unassoc_nd {B} (l : list (nat * B)) k : NoDup (map fst l) -> NoDup (map fst (unassoc l k)).
Proof.
  induction l as [|[a c] l IH]; [auto|]. cbn. intros H. inversion H; subst. destruct (Nat.eqb k a); [assumption|]. cbn. constructor; [|auto].
  intros Hin. apply unassoc_in in Hin. contradiction.
Qed.

Lemma live_in_heap limit simd s v k : inv limit simd s v -> In k (blocks (s_live s)) -> In k (map fst (s_heap s)).
Proof. intros I0 H. eapply Permutation_in; [symmetry; apply (inv_perm _ _ _ _ I0)|]. apply in_or_app. right. exact H. Qed.

(** Taking a fresh block. *)
Lemma inv_fresh_block limit simd s v pool heap name size align count len :
  inv limit simd s v -> 0 < size -> 0 <= count -> assoc v name = None -> len <= limit ->
  (count * size <= len \/ (len < count /\ 2 ^ 64 <= count * size)) ->
  (forall k, In k (map fst heap) -> In k (map fst (s_heap s))) -> NoDup (map fst heap) ->
  Permutation (map fst heap) (pool ++ blocks (s_live s)) ->
  (forall k, In k (blocks (s_live s)) -> assoc heap k = assoc (s_heap s) k) ->
  (forall k b, assoc heap k = Some b -> b_len b <= limit) ->
  inv limit simd
    {| s_heap := (s_fresh s, {| b_align := Z.max simd align; b_len := len; b_data := fun _ => 0 |}) :: heap; s_fresh := S (s_fresh s); s_pool := pool;
       s_live := (name, {| f_block := s_fresh s; f_count := count; f_size := size |}) :: s_live s |}
    ((name, {| v_size := size; v_align := align; v_count := count; v_cell := fun _ _ => None |}) :: v).
Proof.
  intros I0 Hs Hc Hn Hl Hcl Hsub Hnd Hp Hsame Hlen. destruct I0 as [A B C D E F].
  assert (NF : ~ In (s_fresh s) (map fst heap)). { intros H. apply Hsub, A in H. lia. }
  constructor; cbn [s_heap s_fresh s_pool s_live map fst].
  - intros k [<-|H]; [lia|]. apply Hsub, A in H. lia.
  - constructor; assumption.
  - cbn [blocks map snd f_block]. rewrite <- Permutation_middle. constructor. exact Hp.
  - intros k b. cbn. destruct (Nat.eqb k (s_fresh s)); [intros H; inversion H; subst; exact Hl|apply Hlen].
  - constructor; [|exact E]. rewrite (agree_names _ _ _ _ _ F). intros H. apply in_assoc in H as [b Hb]. congruence.
  - constructor.
    + unfold agree. cbn. repeat split; try assumption. rewrite Nat.eqb_refl. eexists. split; [reflexivity|]. cbn. repeat split; try assumption; try lia.
      intros; discriminate.
    + apply (agree_heap_all _ _ (s_heap s)); [|exact F]. intros k Hk. cbn. destruct (Nat.eqb_spec k (s_fresh s)); [|apply Hsame; exact Hk].
      subst. exfalso. assert (In (s_fresh s) (map fst (s_heap s))) by (eapply Permutation_in; [symmetry; exact C|apply in_or_app; right; exact Hk]).
      apply A in H. lia.
Qed.

Lemma umul_cases p limit count size u : 0 < size -> 0 <= count -> (p = Debug \/ limit * size < 2 ^ 64) -> umul p 64 count size = Ok u ->
  forall len, u <= len -> len <= limit -> count * size <= len \/ (len < count /\ 2 ^ 64 <= count * size).
Proof.
  intros Hs Hc Hp Hu len H1 H2. unfold umul in Hu. destruct (count * size <? 2 ^ 64) eqn:E.
  - inversion Hu; subst. left. lia.
  - apply Z.ltb_ge in E. destruct p; [discriminate|]. destruct Hp as [|Hp]; [discriminate|].
    right. split; [|exact E]. destruct (Z.lt_ge_cases len count) as [|G]; [assumption|]. exfalso.
    assert (count * size <= limit * size) by nia. lia.
Qed.

Lemma step_inv p limit simd s v o s' r : inv limit simd s v ->
  (match o with
   | SAlloc name size align count => 0 < size /\ 0 <= count /\ assoc v name = None /\ (p = Debug \/ limit * size < 2 ^ 64)
   | SDrop name => assoc v name <> None
   | SStore name _ j _ | SLoad name _ j => exists b, assoc v name = Some b /\ 0 <= j < v_size b
   end) ->
  sc_step p limit simd s o = SOk s' r ->
  inv limit simd s' (v_step v o) /\
  (match o with SLoad name e j => match assoc v name with Some b => forall x, v_cell b e j = Some x -> r = Some x | None => True end | _ => True end) /\
  (length (s_heap s) <= length (s_heap s') <= Nat.max (length (s_heap s)) (length (v_step v o)))%nat.
Proof.
  intros I0 Hpre Hstep. destruct o as [name size align count|name|name e j x|name e j]; cbn [sc_step v_step] in *.
  - (* allocation *)
    destruct Hpre as (Hs & Hc & Hn & Hp). unfold sc_alloc in Hstep. replace (size =? 0) with false in Hstep by lia.
    destruct (umul p 64 count size) as [u| |] eqn:Eu; try discriminate.
    pose proof (umul_cases p limit count size u Hs Hc Hp Eu) as Hcases.
    assert (HLV : length (s_live s) = length v) by (eapply Forall2_length'; apply (inv_agree _ _ _ _ I0)).
    assert (HLH : length (s_heap s) = (length (s_pool s) + length (s_live s))%nat).
    { rewrite <- (map_length fst (s_heap s)). rewrite (Permutation_length (inv_perm _ _ _ _ I0)), app_length. unfold blocks. rewrite map_length. reflexivity. }
    destruct (pop_back (s_pool s)) as [[a pool]|] eqn:Ep.
    + apply pop_back_some in Ep. destruct (assoc (s_heap s) a) as [b|] eqn:Ea; [|discriminate].
      assert (HPM : Permutation (map fst (s_heap s)) (a :: pool ++ blocks (s_live s))).
      { rewrite (inv_perm _ _ _ _ I0), Ep. rewrite <- app_assoc. cbn [app]. symmetry. apply Permutation_middle. }
      assert (HND : NoDup (a :: pool ++ blocks (s_live s))) by (eapply Permutation_NoDup; [exact HPM|apply (inv_nd _ _ _ _ I0)]).
      assert (HPH : Permutation (map fst (unassoc (s_heap s) a)) (pool ++ blocks (s_live s))).
      { apply (Permutation_cons_inv (a := a)). rewrite <- HPM. symmetry. apply (Permutation_map fst (unassoc_perm _ _ _ Ea)). }
      destruct ((b_align b <? Z.max simd align) || (b_len b <? u)) eqn:Eb.
      * unfold new_block in Hstep. destruct (limit <? u) eqn:El; [discriminate|]. injection Hstep as <- <-.
        split; [|split; [exact Logic.I|]].
        -- apply inv_fresh_block; try assumption; try lia; try (apply Hcases; lia).
           ++ intros k Hk. eapply unassoc_in; exact Hk.
           ++ apply unassoc_nd, (inv_nd _ _ _ _ I0).
           ++ intros k Hk. apply assoc_unassoc_ne. intros ->. inversion HND; subst. apply H1. apply in_or_app. right. exact Hk.
           ++ intros k b0 Hb0. destruct (Nat.eq_dec a k) as [<-|NE].
              ** rewrite unassoc_assoc_nd in Hb0 by apply (inv_nd _ _ _ _ I0). discriminate.
              ** rewrite assoc_unassoc_ne in Hb0 by exact NE. apply (inv_len _ _ _ _ I0 k); exact Hb0.
        -- cbn [s_heap length]. pose proof (Permutation_length (unassoc_perm _ _ _ Ea)) as PL. cbn [length] in PL. lia.
      * injection Hstep as <- <-. apply orb_false_iff in Eb as [Eb1 Eb2]. apply Z.ltb_ge in Eb1, Eb2.
        split; [|split; [exact Logic.I|cbn [s_heap]; lia]]. destruct I0 as [A B C D E F].
        constructor; cbn [s_heap s_fresh s_pool s_live map fst]; try assumption.
        -- rewrite HPM. cbn [blocks map snd f_block]. apply Permutation_middle.
        -- constructor; [|exact E]. rewrite (agree_names _ _ _ _ _ F). intros H. apply in_assoc in H as [b0 Hb0]. congruence.
        -- constructor; [|exact F]. unfold agree. cbn. repeat split; try assumption. exists b. split; [exact Ea|]. repeat split.
           ++ apply (D a); exact Ea.
           ++ exact Eb1.
           ++ apply Hcases; [exact Eb2|apply (D a); exact Ea].
           ++ intros; discriminate.
    + apply pop_back_none in Ep. unfold new_block in Hstep. destruct (limit <? u) eqn:El; [discriminate|]. injection Hstep as <- <-.
      split; [|split; [exact Logic.I|]].
      * apply inv_fresh_block; try assumption; try lia; try (apply Hcases; lia); try apply I0; auto.
      * cbn [s_heap length]. rewrite Ep in HLH. cbn [length] in *. lia.
  - (* drop *)
    unfold sc_drop in Hstep. destruct (assoc v name) as [y|] eqn:Ey; [|congruence].
    destruct (agree_assoc _ _ _ _ _ _ _ (inv_agree _ _ _ _ I0) Ey) as (f & Ef & _). rewrite Ef in Hstep. injection Hstep as <- <-.
    split; [|split; [exact Logic.I|cbn [s_heap]; lia]]. destruct I0 as [A B C D E F].
    constructor; cbn [s_heap s_fresh s_pool s_live]; try assumption.
    + rewrite C. rewrite <- app_assoc. apply Permutation_app_head. cbn [app]. apply blocks_unassoc; exact Ef.
    + apply unassoc_nd; exact E.
    + apply agree_unassoc; exact F.
  - (* store *)
    destruct Hpre as (y & Ey & Hj). destruct (agree_assoc _ _ _ _ _ _ _ (inv_agree _ _ _ _ I0) Ey) as (f & Ef & Hag).
    unfold sc_place in Hstep. rewrite Ef in Hstep.
    destruct Hag as (_ & G1 & G2 & G3 & G4 & b & Gb & G5 & G6 & G7 & G8). cbn [fst snd] in *. rewrite Gb in Hstep.
    destruct (b_len b <? f_count f) eqn:E1; [discriminate|]. destruct ((0 <=? e) && (e <? f_count f)) eqn:E2; [|discriminate].
    destruct ((0 <=? e * f_size f + j) && (e * f_size f + j <? b_len b)) eqn:E3; [|discriminate]. injection Hstep as <- <-.
    split; [|split; [exact Logic.I|]]; cbn [s_heap].
    2:{ rewrite <- (map_length fst (set_byte _ _ _ _)), set_byte_keys, map_length. lia. }
    destruct I0 as [A B C D E F].
    assert (NDL : NoDup (blocks (s_live s))).
    { eapply nodup_app_r. eapply Permutation_NoDup; [exact C|exact B]. }
    constructor; cbn [s_heap s_fresh s_pool s_live]; rewrite ?set_byte_keys; try assumption.
    + intros k b0. destruct (Nat.eq_dec (f_block f) k) as [<-|NE].
      * rewrite (set_byte_eq _ _ _ _ _ Gb). intros H. inversion H; subst. cbn. exact G5.
      * rewrite set_byte_ne by exact NE. apply D.
    + (* agreement *)
      clear - F NDL Ef Ey Gb E Hj E2 G1 G2. revert Ef Ey NDL E. induction F as [|[a x0] [a' y0] l v Hxy F IH]; intros Ef Ey NDL E; [discriminate|].
      assert (a = a') by apply Hxy. subst a'. cbn in Ef, Ey |- *. inversion NDL; subst. inversion E; subst.
      destruct (Nat.eqb_spec name a) as [->|NE].
      * inversion Ef; subst x0. inversion Ey; subst y0. constructor.
        -- destruct Hxy as (_ & H1' & H2' & H3' & H4' & b0 & Gb0 & H6 & H7 & H8 & H9). cbn [fst snd] in *.
           rewrite Gb in Gb0. inversion Gb0; subst b0. unfold agree. cbn [fst snd v_size v_align v_count v_cell v_set]. repeat split; try assumption.
           exists {| b_align := b_align b; b_len := b_len b; b_data := fun i => if i =? e * f_size f + j then x else b_data b i |}.
           rewrite (set_byte_eq _ _ _ _ _ Gb). split; [reflexivity|]. cbn. repeat split; try assumption.
           intros e' j' w He' Hj'. destruct ((e' =? e) && (j' =? j)) eqn:EE.
           ++ intros HH. inversion HH; subst. apply andb_prop in EE as [EE1 EE2]. apply Z.eqb_eq in EE1, EE2. subst. rewrite H2'. rewrite Z.eqb_refl. reflexivity.
           ++ intros HH. rewrite H2'. destruct (Z.eqb_spec (e' * v_size y + j') (e * v_size y + j)) as [Q|Q]; [|apply H9; assumption].
              exfalso. assert (e' = e) by nia. subst e'. assert (j' = j) by lia. subst j'. rewrite !Z.eqb_refl in EE. discriminate.
        -- apply (agree_heap_all _ _ (s_heap s)); [|exact F]. intros k Hk. apply set_byte_ne. intros <-. apply H1. exact Hk.
      * constructor.
        -- apply (agree_heap _ _ (s_heap s)); [|exact Hxy]. cbn. apply set_byte_ne. intros Q. apply H1. cbn in *. rewrite <- Q.
           apply (in_map (fun z => f_block (snd z)) l (name, f)). clear - Ef. induction l as [|[q z] l IHl]; [discriminate|]. cbn in Ef. destruct (Nat.eqb_spec name q); [inversion Ef; subst; left; reflexivity|right; auto].
        -- apply IH; assumption.
  - (* load *)
    destruct Hpre as (y & Ey & Hj). destruct (agree_assoc _ _ _ _ _ _ _ (inv_agree _ _ _ _ I0) Ey) as (f & Ef & Hag).
    unfold sc_place in Hstep. rewrite Ef in Hstep.
    destruct Hag as (_ & G1 & G2 & G3 & G4 & b & Gb & G5 & G6 & G7 & G8). cbn [fst snd] in *. rewrite Gb in Hstep.
    destruct (b_len b <? f_count f) eqn:E1; [discriminate|]. destruct ((0 <=? e) && (e <? f_count f)) eqn:E2; [|discriminate].
    destruct ((0 <=? e * f_size f + j) && (e * f_size f + j <? b_len b)) eqn:E3; [|discriminate]. rewrite Gb in Hstep. injection Hstep as <- <-.
    split; [exact I0|split; [|lia]]. rewrite Ey. intros w Hw. f_equal. rewrite G2. apply G8; try assumption. rewrite <- G1. lia.
Qed.

(** No step leaves the block. *)
Lemma step_defined p limit simd s v o : inv limit simd s v ->
  (match o with
   | SAlloc name size align count => 0 < size /\ 0 <= count /\ assoc v name = None /\ (p = Debug \/ limit * size < 2 ^ 64)
   | SDrop name => assoc v name <> None
   | SStore name _ j _ | SLoad name _ j => exists b, assoc v name = Some b /\ 0 <= j < v_size b
   end) -> sc_step p limit simd s o <> SUndefined.
Proof.
  intros I0 Hpre. destruct o as [name size align count|name|name e j x|name e j]; cbn [sc_step].
  - unfold sc_alloc. destruct (size =? 0); [discriminate|]. destruct (umul p 64 count size); try discriminate.
    destruct (pop_back (s_pool s)) as [[k pool]|] eqn:Ep.
    + assert (Hk : In k (map fst (s_heap s))).
      { eapply Permutation_in; [symmetry; apply (inv_perm _ _ _ _ I0)|]. apply pop_back_some in Ep. rewrite Ep. apply in_or_app. left. apply in_or_app. right. left. reflexivity. }
      apply in_assoc in Hk as [b ->]. destruct (_ || _); [|discriminate]. unfold new_block. destruct (limit <? a); discriminate.
    + unfold new_block. destruct (limit <? a); discriminate.
  - unfold sc_drop. destruct (assoc (s_live s) name); discriminate.
  - destruct Hpre as (y & Ey & Hj). destruct (agree_assoc _ _ _ _ _ _ _ (inv_agree _ _ _ _ I0) Ey) as (f & Ef & Hag).
    destruct Hag as (_ & G1 & G2 & G3 & G4 & b & Gb & G5 & G6 & G7 & G8). cbn [fst snd] in *.
    unfold sc_place. rewrite Ef, Gb. destruct (b_len b <? f_count f) eqn:E1; [discriminate|]. destruct ((0 <=? e) && (e <? f_count f)) eqn:E2; [|discriminate].
    replace ((0 <=? e * f_size f + j) && (e * f_size f + j <? b_len b)) with true; [discriminate|]. symmetry. apply andb_true_intro.
    rewrite Z.leb_le, Z.ltb_lt. apply Z.ltb_ge in E1. apply andb_prop in E2. rewrite Z.leb_le, Z.ltb_lt in E2. rewrite G1, G2 in *. destruct G7 as [G7|[G7 _]]; nia.
  - destruct Hpre as (y & Ey & Hj). destruct (agree_assoc _ _ _ _ _ _ _ (inv_agree _ _ _ _ I0) Ey) as (f & Ef & Hag).
    destruct Hag as (_ & G1 & G2 & G3 & G4 & b & Gb & G5 & G6 & G7 & G8). cbn [fst snd] in *.
    unfold sc_place. rewrite Ef, Gb. destruct (b_len b <? f_count f) eqn:E1; [discriminate|]. destruct ((0 <=? e) && (e <? f_count f)) eqn:E2; [|discriminate].
    replace ((0 <=? e * f_size f + j) && (e * f_size f + j <? b_len b)) with true; [rewrite Gb; discriminate|]. symmetry. apply andb_true_intro.
    rewrite Z.leb_le, Z.ltb_lt. apply Z.ltb_ge in E1. apply andb_prop in E2. rewrite Z.leb_le, Z.ltb_lt in E2. rewrite G1, G2 in *. destruct G7 as [G7|[G7 _]]; nia.
Qed.

Lemma run_ok p limit simd : forall os s v, inv limit simd s v -> possible p limit v os ->
  fst (sc_run p limit simd s os) <> SUndefined /\ answers v os (snd (sc_run p limit simd s os)) /\
  forall s' r, fst (sc_run p limit simd s os) = SOk s' r ->
    inv limit simd s' (v_run v os) /\ (length (s_heap s) <= length (s_heap s') <= Nat.max (length (s_heap s)) (most_held v os))%nat.
Proof.
  induction os as [|o os IH]; intros s v I0 Hp.
  - cbn. split; [discriminate|]. split; [exact Logic.I|]. intros s' r H. inversion H; subst. split; [exact I0|lia].
  - cbn [possible] in Hp. destruct Hp as [Hp1 Hp2]. cbn [sc_run]. pose proof (step_defined _ _ _ _ _ _ I0 Hp1) as ND.
    destruct (sc_step p limit simd s o) as [s1 r1| |] eqn:Es; [|cbn; repeat split; discriminate|congruence].
    destruct (step_inv _ _ _ _ _ _ _ _ I0 Hp1 Es) as (I1 & A1 & L1). destruct (IH s1 _ I1 Hp2) as (R1 & R2 & R3).
    destruct (sc_run p limit simd s1 os) as [e rs]. cbn [fst snd] in *. split; [exact R1|]. split; [cbn [answers]; split; assumption|].
    intros s' r E. destruct (R3 s' r E) as [R4 R5]. split; [exact R4|]. cbn [most_held].
    assert (length (v_step v o) <= most_held (v_step v o) os)%nat by (destruct os; cbn [most_held]; lia). lia.
Qed.

(** A history that stays within what it asked for never aborts. *)
Definition sized (v : list (nat * vbuf)) : Prop := forall k y, assoc v k = Some y -> v_count y * v_size y < 2 ^ 64.

Lemma step_available p limit simd s v o : inv limit simd s v -> sized v ->
  (match o with
   | SAlloc name size align count => 0 < size /\ 0 <= count /\ assoc v name = None /\ (p = Debug \/ limit * size < 2 ^ 64)
   | SDrop name => assoc v name <> None
   | SStore name _ j _ | SLoad name _ j => exists b, assoc v name = Some b /\ 0 <= j < v_size b
   end) ->
  (match o with
   | SAlloc _ size _ count => count * size <= limit /\ count * size < 2 ^ 64
   | SStore name e _ _ | SLoad name e _ => exists b, assoc v name = Some b /\ 0 <= e < v_count b
   | SDrop _ => True
   end) -> sc_step p limit simd s o <> SAbort.
Proof.
  intros I0 HZ Hpre Hw. destruct o as [name size align count|name|name e j x|name e j]; cbn [sc_step].
  - destruct Hpre as (Hs & Hc & Hn & Hp). destruct Hw as [W1 W2]. unfold sc_alloc. replace (size =? 0) with false by lia.
    unfold umul. rewrite (proj2 (Z.ltb_lt _ _) W2).
    destruct (pop_back (s_pool s)) as [[k pool]|].
    + destruct (assoc (s_heap s) k); [|discriminate]. destruct (_ || _); [|discriminate]. unfold new_block. rewrite (proj2 (Z.ltb_ge _ _) W1). discriminate.
    + unfold new_block. rewrite (proj2 (Z.ltb_ge _ _) W1). discriminate.
  - unfold sc_drop. destruct (assoc v name) as [y|] eqn:Ey; [|congruence].
    destruct (agree_assoc _ _ _ _ _ _ _ (inv_agree _ _ _ _ I0) Ey) as (f & Ef & _). rewrite Ef. discriminate.
  - destruct Hpre as (y & Ey & Hj). destruct Hw as (y' & Ey' & He). rewrite Ey in Ey'. inversion Ey'; subst y'.
    destruct (agree_assoc _ _ _ _ _ _ _ (inv_agree _ _ _ _ I0) Ey) as (f & Ef & Hag).
    destruct Hag as (_ & G1 & G2 & G3 & G4 & b & Gb & G5 & G6 & G7 & G8). cbn [fst snd] in *. specialize (HZ _ _ Ey). destruct G7 as [G7|[_ G7]]; [|lia].
    unfold sc_place. rewrite Ef, Gb. rewrite G1, G2. rewrite (proj2 (Z.ltb_ge _ _)) by nia.
    rewrite (proj2 (Z.leb_le 0 e)), (proj2 (Z.ltb_lt e _)) by lia. cbn [andb]. destruct (_ && _); discriminate.
  - destruct Hpre as (y & Ey & Hj). destruct Hw as (y' & Ey' & He). rewrite Ey in Ey'. inversion Ey'; subst y'.
    destruct (agree_assoc _ _ _ _ _ _ _ (inv_agree _ _ _ _ I0) Ey) as (f & Ef & Hag).
    destruct Hag as (_ & G1 & G2 & G3 & G4 & b & Gb & G5 & G6 & G7 & G8). cbn [fst snd] in *. specialize (HZ _ _ Ey). destruct G7 as [G7|[_ G7]]; [|lia].
    unfold sc_place. rewrite Ef, Gb. rewrite G1, G2. rewrite (proj2 (Z.ltb_ge _ _)) by nia.
    rewrite (proj2 (Z.leb_le 0 e)), (proj2 (Z.ltb_lt e _)) by lia. cbn [andb]. destruct (_ && _); [rewrite Gb|]; discriminate.
Qed.

Lemma assoc_unassoc_some {B} (l : list (nat * B)) k k' b : NoDup (map fst l) -> assoc (unassoc l k) k' = Some b -> assoc l k' = Some b.
Proof.
  intros ND H. destruct (Nat.eq_dec k k') as [<-|NE]; [rewrite unassoc_assoc_nd in H by exact ND; discriminate|].
  rewrite assoc_unassoc_ne in H by exact NE. exact H.
Qed.

Lemma assoc_update v k f k' y : assoc (v_update v k f) k' = Some y -> exists y', assoc v k' = Some y' /\ (y = y' \/ y = f y').
Proof.
  induction v as [|[a b] v IH]; [discriminate|]. cbn. destruct (Nat.eqb k a); cbn; destruct (Nat.eqb k' a); eauto; intros H; inversion H; subst; eauto.
Qed.

Lemma run_available p limit simd : forall os s v, inv limit simd s v -> sized v -> possible p limit v os -> within limit v os ->
  exists s' r, fst (sc_run p limit simd s os) = SOk s' r.
Proof.
  induction os as [|o os IH]; intros s v I0 HZ Hp Hw; [cbn; eauto|].
  cbn [possible within] in Hp, Hw. destruct Hp as [Hp1 Hp2]. destruct Hw as [Hw1 Hw2]. cbn [sc_run].
  pose proof (step_defined _ _ _ _ _ _ I0 Hp1) as ND. pose proof (step_available _ _ _ _ _ _ I0 HZ Hp1 Hw1) as NA.
  destruct (sc_step p limit simd s o) as [s1 r1| |] eqn:Es; [|congruence|congruence].
  destruct (step_inv _ _ _ _ _ _ _ _ I0 Hp1 Es) as (I1 & _ & _).
  assert (HZ' : sized (v_step v o)).
  { assert (NDv : NoDup (map fst v)) by (rewrite <- (agree_names _ _ _ _ _ (inv_agree _ _ _ _ I0)); apply I0).
    intros k y. destruct o as [name size align count|name|name e j x|name e j]; cbn [v_step].
    - cbn. destruct (Nat.eqb k name); [intros H; inversion H; subst; cbn; apply Hw1|apply HZ].
    - intros H. apply assoc_unassoc_some in H; [apply (HZ k); exact H|exact NDv].
    - intros H. apply assoc_update in H as (y' & Hy' & [->| ->]); cbn; apply (HZ k); exact Hy'.
    - apply HZ. }
  destruct (IH s1 _ I1 HZ' Hp2 Hw2) as (s' & r & E). destruct (sc_run p limit simd s1 os) as [e rs]. cbn [fst] in *. eauto.
Qed.
