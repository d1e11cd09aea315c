(** Lemmas about checked deserialisation of keys and ciphertexts. *)
From Verif Require Import Base Alu FluentInt FluentIntProofs FluentIntProofs2 Tfhe TfheGlwe SpecTfhe SpecGlwe Eval Serde SpecSerde.
Ltac Zify.zify_post_hook ::= idtac.
Open Scope Z_scope.

(** ** Layouts *)
Definition lay {A} (f : A -> list Z) (g : list Z -> A) (sz : nat) (V : A -> Prop) : Prop :=
  (forall x, V x -> length (f x) = sz /\ toruses 64 (f x) /\ g (f x) = x) /\ (forall l, length l = sz -> toruses 64 l -> V (g l) /\ f (g l) = l).

Lemma toruses_app l m : toruses 64 (l ++ m) <-> toruses 64 l /\ toruses 64 m.
Proof. unfold toruses. apply Forall_app. Qed.
Lemma toruses_firstn n l : toruses 64 l -> toruses 64 (firstn n l).
Proof. intros H. rewrite <- (firstn_skipn n l) in H. now apply toruses_app in H. Qed.
Lemma toruses_skipn n l : toruses 64 l -> toruses 64 (skipn n l).
Proof. intros H. rewrite <- (firstn_skipn n l) in H. now apply toruses_app in H. Qed.
Lemma firstn_len_app {A} (l m : list A) n : length l = n -> firstn n (l ++ m) = l.
Proof. intros <-. rewrite firstn_app, Nat.sub_diag, firstn_all. cbn [firstn]. apply app_nil_r. Qed.
Lemma skipn_len_app {A} (l m : list A) n : length l = n -> skipn n (l ++ m) = m.
Proof. intros <-. rewrite skipn_app, Nat.sub_diag, skipn_all. reflexivity. Qed.

Lemma lay_many {A} (f : A -> list Z) g sz V cnt : lay f g sz V -> lay (flat_map f) (fun l => map g (chunks cnt sz l)) (sz * cnt) (many cnt V).
Proof.
  intros [H1 H2]. split.
  - intros xs [L F]. subst cnt. induction F as [|x xs Hx F IH]; cbn [flat_map length chunks map].
    + split; [lia|]. split; [constructor|reflexivity].
    + destruct IH as (L & T & E). destruct (H1 x Hx) as (L1 & T1 & E1). rewrite app_length. split; [lia|]. split; [apply toruses_app; auto|].
      rewrite firstn_len_app, skipn_len_app by assumption. now rewrite E1, E.
  - induction cnt as [|cnt IH]; intros l L T; cbn [chunks map flat_map].
    + split; [split; [reflexivity|constructor]|]. destruct l; [reflexivity|cbn in L; lia].
    + destruct (IH (skipn sz l)) as ([L1 F1] & E1); [rewrite skipn_length; lia|now apply toruses_skipn|].
      destruct (H2 (firstn sz l)) as (V1 & E2); [rewrite firstn_length; lia|now apply toruses_firstn|].
      split; [split; [cbn [length]; congruence|constructor; assumption]|]. rewrite E1, E2. apply firstn_skipn.
Qed.
Lemma lay_ext {A} (f f' : A -> list Z) g g' sz sz' V (V' : A -> Prop) : lay f g sz V -> (forall x, f x = f' x) -> (forall l, g l = g' l) -> sz = sz' -> (forall x, V x <-> V' x) -> lay f' g' sz' V'.
Proof.
  intros [H1 H2] Hf Hg <- HV. split.
  - intros x Hx. rewrite <- Hf, <- Hg. apply H1, HV, Hx.
  - intros l L T. rewrite <- Hf, <- Hg, <- HV. auto.
Qed.
Lemma lay_lwe n : lay flat_lwe (un_lwe n) (sz_lwe n) (lwe_wf 64 n).
Proof.
  unfold sz_lwe. split.
  - intros [a b] (L & Ta & Tb). cbn [lwe_a lwe_b] in *. unfold flat_lwe, un_lwe. cbn [lwe_a lwe_b]. rewrite app_length. split; [cbn [length]; lia|].
    split; [apply toruses_app; split; [assumption|repeat constructor; apply Tb]|]. rewrite firstn_len_app by assumption. rewrite app_nth2 by lia. rewrite L, Nat.sub_diag. reflexivity.
  - intros l L T. unfold flat_lwe, un_lwe, lwe_wf. cbn [lwe_a lwe_b].
    assert (E : l = firstn n l ++ [nth n l 0]).
    { rewrite <- (firstn_skipn n l) at 1. f_equal. assert (Ls : length (skipn n l) = 1%nat) by (rewrite skipn_length; lia).
      rewrite <- (firstn_skipn n l) at 2. rewrite app_nth2 by (rewrite firstn_length; lia). rewrite firstn_length, Nat.min_l by lia. rewrite Nat.sub_diag.
      destruct (skipn n l) as [|x [|]]; try discriminate. reflexivity. }
    split; [|symmetry; exact E]. split; [rewrite firstn_length; lia|]. split; [now apply toruses_firstn|].
    rewrite E in T. apply toruses_app in T as [_ T]. now inversion T.
Qed.
Lemma lay_polys N k : lay (@concat Z) (chunks k N) (N * k) (many k (fun p => length p = N /\ toruses 64 p)).
Proof.
  assert (H : lay (flat_map (fun x : list Z => x)) (fun l => map (fun x => x) (chunks k N l)) (N * k) (many k (fun p => length p = N /\ toruses 64 p))).
  { apply (lay_many (fun x => x) (fun x => x)). split; [intros x [L T]; auto|intros l L T; auto]. }
  eapply lay_ext; [exact H| | |reflexivity|intros x; reflexivity].
  - intros x. rewrite flat_map_concat_map. now rewrite map_id.
  - intros l. apply map_id.
Qed.
Lemma lay_glwe N k : lay flat_glwe (un_glwe N k) (sz_glwe N k) (glwe_wf 64 N k).
Proof.
  destruct (lay_polys N k) as [H1 H2]. unfold sz_glwe, sz_glwe_sk. split.
  - intros [a b] ([Sa Sb] & Ta & Tb). cbn [ga gb] in *. unfold flat_glwe, un_glwe. cbn [ga gb].
    destruct (H1 a) as (L & T & E). { split; [apply Sa|]. apply Forall_forall. intros x Hx. split; [apply (proj1 (Forall_forall _ _) (proj2 Sa) x Hx)|apply (proj1 (Forall_forall _ _) Ta x Hx)]. }
    rewrite app_length. split; [lia|]. split; [apply toruses_app; auto|]. rewrite skipn_len_app by lia. f_equal. rewrite <- E at 2. clear - L. revert L. generalize (concat a). clear a.
    revert b. induction k as [|k IH]; intros b l L; [reflexivity|]. cbn [chunks]. f_equal; [now rewrite firstn_app, (proj2 (Nat.sub_0_le N (length l))), app_nil_r by nia|].
    rewrite skipn_app, (proj2 (Nat.sub_0_le N (length l))) by nia. cbn [skipn]. apply IH. rewrite skipn_length. nia.
  - intros l L T. unfold flat_glwe, un_glwe. cbn [ga gb].
    destruct (H2 (firstn (k * N) l)) as ((Lk & F) & E); [rewrite firstn_length; lia|now apply toruses_firstn|].
    assert (Ec : chunks k N l = chunks k N (firstn (k * N) l)).
    { clear. revert l. induction k as [|k IH]; intros l; [reflexivity|]. cbn [chunks Nat.mul]. rewrite firstn_firstn, Nat.min_l by lia. f_equal. rewrite IH. f_equal.
      rewrite skipn_firstn_comm. f_equal. lia. }
    rewrite Ec. split.
    + split; [split|].
      * split; [assumption|]. eapply Forall_impl; [|exact F]. cbv beta. tauto.
      * cbn [gb]. rewrite skipn_length. lia.
      * cbn [ga gb]. split; [eapply Forall_impl; [|exact F]; cbv beta; tauto|now apply toruses_skipn].
    + rewrite E. apply firstn_skipn.
Qed.
Lemma lay_glev P cnt : lay flat_glev (un_glev (p_N P) (p_k P) cnt) (sz_glev (p_N P) (p_k P) cnt) (glev_ok P cnt).
Proof. apply lay_many, lay_glwe. Qed.
Lemma lay_ggsw P cnt : lay flat_ggsw (un_ggsw (p_N P) (p_k P) cnt) (sz_ggsw (p_N P) (p_k P) cnt) (ggsw_ok P cnt).
Proof. apply lay_many, lay_glev. Qed.
Lemma lay_bs P : lay flat_bs (un_bs P) (sz_bs P) (many (p_n P) (ggsw_ok P (r_count (p_pbs P)))).
Proof. apply lay_many, lay_ggsw. Qed.
Lemma lay_ks P : lay flat_ks (un_ks P) (sz_ks P) (lwe_ksk_ok P).
Proof. unfold flat_ks, un_ks, sz_ks, sz_lev, lwe_ksk_ok. apply (lay_many (flat_map flat_lwe) (fun r => map (un_lwe (p_n P)) (chunks (r_count (p_ks P)) (sz_lwe (p_n P)) r))). apply lay_many, lay_lwe. Qed.
Lemma lay_ss P : lay flat_ss (un_ss P) (sz_ss P) (many (tri_count (p_k P)) (glev_ok P (r_count (p_ss P)))).
Proof. apply lay_many, lay_glev. Qed.
Lemma lay_auto P : lay flat_auto (un_auto P) (sz_auto P) (many (Nat.log2 (p_N P)) (many (p_k P) (glev_ok P (r_count (p_tr P))))).
Proof.
  unfold flat_auto, un_auto, sz_auto. apply (lay_many (flat_map flat_glev) (fun r => map (un_glev (p_N P) (p_k P) (r_count (p_tr P))) (chunks (p_k P) (sz_glev (p_N P) (p_k P) (r_count (p_tr P))) r))).
  apply lay_many, lay_glev.
Qed.

(** ** Reading *)
Lemma le_word_bounds bs : bytes bs -> 0 <= le_word bs < 256 ^ Z.of_nat (length bs).
Proof.
  induction 1 as [|b bs Hb _ IH]; [cbn; lia|]. unfold le_word in *. cbn [fold_right length]. rewrite Nat2Z.inj_succ, Z.pow_succ_r by lia. lia.
Qed.
Lemma word_le_word bs : bytes bs -> word_le (length bs) (le_word bs) = bs.
Proof.
  induction 1 as [|b bs Hb F IH]; [reflexivity|]. cbn [length word_le]. unfold le_word in *. cbn [fold_right]. set (v := fold_right _ 0 bs) in *.
  replace (b + 256 * v) with (b + v * 256) by ring. rewrite Z.mod_add, Z.div_add by lia. rewrite (Z.mod_small b), (Z.div_small b) by lia. rewrite Z.add_0_l, IH. reflexivity.
Qed.
Lemma read_word_inv k data lim v r : bytes data -> read_word k (data, lim) = Ok (v, r) -> data = word_le k v ++ fst r /\ 0 <= v < 256 ^ Z.of_nat k /\ bytes (fst r) /\ snd r = lim - Z.of_nat k /\ Z.of_nat k <= lim.
Proof.
  intros B. unfold read_word. destruct (Z.ltb_spec lim (Z.of_nat k)); [discriminate|]. destruct (Nat.ltb_spec (length data) k); [discriminate|]. intros E. injection E as <- <-. cbn [fst snd].
  assert (Bf : bytes (firstn k data) /\ bytes (skipn k data)) by (rewrite <- (firstn_skipn k data) in B; now apply Forall_app in B).
  assert (L : length (firstn k data) = k) by (rewrite firstn_length; lia). destruct Bf as [B1 B2]. split; [|split; [|auto]].
  - rewrite <- L at 1. rewrite word_le_word by assumption. symmetry. apply firstn_skipn.
  - pose proof (le_word_bounds _ B1) as Hb. rewrite L in Hb. exact Hb.
Qed.
Lemma read_words_inv' n : forall data lim l r, bytes data -> read_seq (read_word 8) n (data, lim) = Ok (l, r) ->
  data = flat_map (word_le 8) l ++ fst r /\ toruses 64 l /\ length l = n /\ bytes (fst r).
Proof.
  induction n as [|n IH]; intros data lim l r B E; cbn [read_seq] in E.
  - injection E as <- <-. repeat split; [constructor|assumption].
  - destruct (read_word 8 (data, lim)) as [[x [d1 lim1]]|e|] eqn:E1; cbn [bind] in E; try discriminate.
    destruct (read_seq (read_word 8) n (d1, lim1)) as [[ys r2]|e|] eqn:E2; cbn [bind] in E; try discriminate. injection E as <- <-.
    apply read_word_inv in E1 as (D1 & H1 & B1 & _); [|assumption]. cbn [fst snd] in *. apply IH in E2 as (D2 & T & L & B2); [|assumption].
    cbn [flat_map length]. rewrite D1, D2 at 1. rewrite <- app_assoc. repeat split; [|lia|assumption]. constructor; assumption.
Qed.
Lemma read_elems_inv ew n : forall data lim xs r, bytes data -> read_seq (read_seq (read_word 8) ew) n (data, lim) = Ok (xs, r) ->
  data = flat_map (word_le 8) (concat xs) ++ fst r /\ toruses 64 (concat xs) /\ length (concat xs) = (ew * n)%nat /\ bytes (fst r).
Proof.
  induction n as [|n IH]; intros data lim xs r B E; cbn [read_seq] in E.
  - injection E as <- <-. cbn [concat flat_map app length]. repeat split; [constructor|lia|assumption].
  - destruct (read_seq (read_word 8) ew (data, lim)) as [[x [d1 lim1]]|e|] eqn:E1; cbn [bind] in E; try discriminate.
    destruct (read_seq (read_seq (read_word 8) ew) n (d1, lim1)) as [[ys r2]|e|] eqn:E2; cbn [bind] in E; try discriminate. injection E as <- <-.
    apply read_words_inv' in E1 as (D1 & T1 & L1 & B1); [|assumption]. cbn [fst snd] in *. apply IH in E2 as (D2 & T & L & B2); [|assumption].
    cbn [concat]. rewrite flat_map_app, app_length. rewrite D1, D2 at 1. rewrite <- app_assoc. repeat split; [|lia|assumption]. apply toruses_app; auto.
Qed.
Lemma elem_consumes ew : (1 <= ew)%nat -> consumes (read_seq (read_word 8) ew).
Proof. intros H r x r' E. apply read_seq_bound in E; [lia|apply read_word_consumes; lia]. Qed.
Lemma read_words_inv ew data lim l r : (1 <= ew)%nat -> bytes data -> read_words ew (data, lim) = Ok (l, r) ->
  exists n, length l = (ew * n)%nat /\ data = ser_words ew l ++ fst r /\ toruses 64 l /\ bytes (fst r).
Proof.
  intros He B E. unfold read_words in E. destruct (read_vec _ (data, lim)) as [[xs r1]|e|] eqn:E1; cbn [bind] in E; try discriminate. injection E as <- <-.
  apply read_vec_uncapped in E1 as (n & [d1 lim1] & E1 & E2); [|now apply elem_consumes]. apply read_word_inv in E1 as (D1 & H1 & B1 & _); [|assumption]. cbn [fst snd] in *.
  apply read_elems_inv in E2 as (D2 & T & L & B2); [|assumption]. exists (Z.to_nat n). split; [assumption|]. split; [|auto]. unfold ser_words. rewrite L.
  rewrite Nat.mul_comm, Nat.div_mul by lia. rewrite Z2Nat.id by lia. rewrite <- app_assoc, <- D2. exact D1.
Qed.
Lemma read_seq_words_ser ew x rest lim : toruses 64 x -> length x = ew -> 8 * Z.of_nat ew <= lim ->
  read_seq (read_word 8) ew (flat_map (word_le 8) x ++ rest, lim) = Ok (x, (rest, lim - 8 * Z.of_nat ew)).
Proof. intros T <- H. apply read_words_ser; assumption. Qed.
Lemma read_elems_ser ew n : (1 <= ew)%nat -> forall l rest lim, toruses 64 l -> length l = (ew * n)%nat -> 8 * Z.of_nat (ew * n) <= lim ->
  exists xs, read_seq (read_seq (read_word 8) ew) n (flat_map (word_le 8) l ++ rest, lim) = Ok (xs, (rest, lim - 8 * Z.of_nat (ew * n))) /\ concat xs = l.
Proof.
  intros He. induction n as [|n IH]; intros l rest lim T L H; cbn [read_seq].
  - destruct l; [|cbn in L; lia]. exists []. split; [|reflexivity]. cbn [flat_map app]. do 3 f_equal. lia.
  - assert (E : flat_map (word_le 8) l = flat_map (word_le 8) (firstn ew l) ++ flat_map (word_le 8) (skipn ew l)) by now rewrite <- flat_map_app, firstn_skipn.
    rewrite E, <- app_assoc.
    rewrite (read_seq_words_ser ew (firstn ew l) _ lim (toruses_firstn ew l T) ltac:(rewrite firstn_length; lia) ltac:(lia)). cbn [bind].
    destruct (IH (skipn ew l) rest (lim - 8 * Z.of_nat ew)) as (xs & E2 & C); [now apply toruses_skipn|rewrite skipn_length; lia|lia|]. rewrite E2. cbn [bind].
    exists (firstn ew l :: xs). split; [do 3 f_equal; lia|]. cbn [concat]. rewrite C. apply firstn_skipn.
Qed.
Lemma read_words_ok ew n l rest lim : (1 <= ew)%nat -> toruses 64 l -> length l = (ew * n)%nat -> fits n -> 8 + 8 * Z.of_nat (ew * n) <= lim ->
  read_words ew (ser_words ew l ++ rest, lim) = Ok (l, (rest, lim - (8 + 8 * Z.of_nat (ew * n)))).
Proof.
  intros He T L F H. unfold read_words, ser_words. rewrite L, Nat.mul_comm, Nat.div_mul, <- app_assoc by lia. unfold fits in F.
  destruct (read_elems_ser ew n He l rest (lim - 8) T L ltac:(lia)) as (xs & E & C).
  assert (R : read_vec (read_seq (read_word 8) ew) (word_le 8 (Z.of_nat n) ++ flat_map (word_le 8) l ++ rest, lim) = Ok (xs, (rest, lim - 8 - 8 * Z.of_nat (ew * n)))).
  { apply read_vec_uncapped; [now apply elem_consumes|]. exists (Z.of_nat n), (flat_map (word_le 8) l ++ rest, lim - 8). rewrite read_word_le by (rewrite ?p64; lia). split; [reflexivity|]. now rewrite Nat2Z.id. }
  rewrite R. cbn [bind]. rewrite C. do 3 f_equal. lia.
Qed.
Lemma read_words_no_panic ew r : read_words ew r <> Panic.
Proof.
  unfold read_words. pose proof (read_vec_no_panic (read_seq (read_word 8) ew) (read_seq_no_panic (read_word 8) (read_word_no_panic 8) ew) r) as H.
  destruct (read_vec _ r) as [[xs r1]|e|]; cbn [bind]; [discriminate..|contradiction].
Qed.

(** ** Fields *)
Definition fields_ok (fs : list (nat * nat)) (xs : list (list Z)) : Prop := Forall2 (fun f x => length x = (fst f * snd f)%nat /\ toruses 64 x) fs xs.
Fixpoint fields_size (fs : list (nat * nat)) : Z := match fs with [] => 0 | (ew, sz) :: fs => 8 + 8 * Z.of_nat (ew * sz) + fields_size fs end.
Lemma fields_size_nonneg fs : 0 <= fields_size fs.
Proof. induction fs as [|[ew sz] fs IH]; cbn [fields_size]; lia. Qed.
Lemma read_fields_no_panic ews r : read_fields ews r <> Panic.
Proof.
  revert r. induction ews as [|ew ews IH]; intros r; cbn [read_fields]; [discriminate|]. pose proof (read_words_no_panic ew r) as H.
  destruct (read_words ew r) as [[x r1]|e|]; cbn [bind]; [|discriminate|contradiction]. specialize (IH r1). destruct (read_fields ews r1) as [[xs r2]|e|]; cbn [bind]; [discriminate..|contradiction].
Qed.
Lemma de_fields_no_panic lim fs data : de_fields lim fs data <> Panic.
Proof.
  unfold de_fields. pose proof (read_fields_no_panic (map fst fs) (data, lim)) as H. destruct (read_fields _ _) as [[xs r]|e|]; cbn [bind]; [destruct (fields_valid fs xs); discriminate|discriminate|contradiction].
Qed.
Lemma read_fields_inv : forall ews data lim xs r, Forall (fun ew => (1 <= ew)%nat) ews -> bytes data -> read_fields ews (data, lim) = Ok (xs, r) ->
  data = ser_fields ews xs ++ fst r /\ length xs = length ews /\ Forall (toruses 64) xs.
Proof.
  induction ews as [|ew ews IH]; intros data lim xs r F B E; cbn [read_fields] in E.
  - injection E as <- <-. repeat split. constructor.
  - apply Forall_cons_iff in F as [He F]. destruct (read_words ew (data, lim)) as [[x [d1 lim1]]|e|] eqn:E1; cbn [bind] in E; try discriminate.
    destruct (read_fields ews (d1, lim1)) as [[ys r2]|e|] eqn:E2; cbn [bind] in E; try discriminate. injection E as <- <-.
    apply read_words_inv in E1 as (n & L & D1 & T & B1); [|assumption..]. cbn [fst] in *. apply IH in E2 as (D2 & L2 & T2); [|assumption..].
    cbn [ser_fields length]. rewrite <- app_assoc, <- D2. split; [exact D1|]. split; [lia|]. now constructor.
Qed.
Lemma read_fields_ok : forall fs xs rest lim, Forall (fun f => (1 <= fst f)%nat /\ fits (snd f)) fs -> fields_ok fs xs -> fields_size fs <= lim ->
  read_fields (map fst fs) (ser_fields (map fst fs) xs ++ rest, lim) = Ok (xs, (rest, lim - fields_size fs)).
Proof.
  intros fs xs rest lim F H. revert F rest lim. induction H as [|[ew sz] x fs xs [L T] H IH]; intros F rest lim Hs; cbn [map fst ser_fields read_fields fields_size] in *.
  - do 3 f_equal. lia.
  - apply Forall_cons_iff in F as [[He Hf] F]. cbn [fst snd] in *. pose proof (fields_size_nonneg fs). rewrite <- app_assoc, (read_words_ok ew sz) by (assumption || lia). cbn [bind].
    rewrite IH by (assumption || lia). cbn [bind]. do 3 f_equal. lia.
Qed.
Lemma fields_valid_iff fs xs : fields_valid fs xs = true <-> Forall2 (fun f x => length x = (fst f * snd f)%nat) fs xs.
Proof.
  revert xs. induction fs as [|[ew sz] fs IH]; intros [|x xs]; cbn [fields_valid]; split; intros H; try constructor; try discriminate; try (inversion H; fail).
  - apply andb_true_iff in H as [H _]. now apply Nat.eqb_eq in H.
  - apply andb_true_iff in H as [_ H]. now apply IH.
  - inversion H; subst. apply andb_true_iff. split; [now apply Nat.eqb_eq|now apply IH].
Qed.
Lemma de_fields_iff lim fs data xs : Forall (fun f => (1 <= fst f)%nat /\ fits (snd f)) fs -> fields_size fs <= lim -> bytes data ->
  (de_fields lim fs data = Ok xs <-> fields_ok fs xs /\ exists rest, data = ser_fields (map fst fs) xs ++ rest).
Proof.
  intros F Hs B. split.
  - unfold de_fields. intros E. destruct (read_fields (map fst fs) (data, lim)) as [[ys r]|e|] eqn:E1; cbn [bind] in E; try discriminate. destruct (fields_valid fs ys) eqn:V; [|discriminate]. injection E as <-.
    apply read_fields_inv in E1 as (D & L & T); [| |assumption].
    + split; [|exists (fst r); exact D]. apply fields_valid_iff in V. clear - V T. induction V as [|f x fs xs Hx V IH]; [constructor|]. apply Forall_cons_iff in T as [T1 T]. constructor; [auto|now apply IH].
    + clear - F. induction F as [|f fs [H _] F IH]; cbn [map]; constructor; auto.
  - intros (H & rest & ->). unfold de_fields. rewrite read_fields_ok by assumption. cbn [bind].
    assert (V : fields_valid fs xs = true). { apply fields_valid_iff. clear - H. induction H as [|f x fs xs [H1 _] H IH]; constructor; auto. }
    now rewrite V.
Qed.


Lemma word_le_bytes k v : bytes (word_le k v).
Proof. revert v. induction k as [|k IH]; intros v; cbn [word_le]; constructor; [apply Z.mod_pos_bound; lia|apply IH]. Qed.
Lemma ser_words_bytes ew l : bytes (ser_words ew l).
Proof.
  unfold ser_words. apply Forall_app. split; [apply word_le_bytes|]. induction l as [|x l IH]; [constructor|]. cbn [flat_map]. apply Forall_app. split; [apply word_le_bytes|exact IH].
Qed.
Lemma ser_fields_bytes ews xs : bytes (ser_fields ews xs).
Proof. revert xs. induction ews as [|ew ews IH]; intros [|x xs]; cbn [ser_fields]; [constructor|constructor|constructor|]. apply Forall_app. split; [apply ser_words_bytes|apply IH]. Qed.
Lemma ser_words_length ew l : length (ser_words ew l) = (8 + 8 * length l)%nat.
Proof. unfold ser_words. rewrite app_length, word_le_length. f_equal. induction l as [|x l IH]; [reflexivity|]. cbn [flat_map]. rewrite app_length, word_le_length, IH. cbn [length]. lia. Qed.
Lemma ser_fields_length fs xs : fields_ok fs xs -> Z.of_nat (length (ser_fields (map fst fs) xs)) = fields_size fs.
Proof. induction 1 as [|[ew sz] x fs xs [L _] H IH]; [reflexivity|]. cbn [map fst ser_fields fields_size snd] in *. rewrite app_length, ser_words_length, L. lia. Qed.

(** ** Codecs *)
Lemma codec_fields {A} (de : list Z -> res A) (ser : A -> list Z) (ok : A -> Prop) lim fs (f : A -> list (list Z)) (g : list (list Z) -> res A) :
  (forall data, de data = (xs <- de_fields lim fs data ;; g xs)) -> (forall x, ser x = ser_fields (map fst fs) (f x)) ->
  Forall (fun f => (1 <= fst f)%nat /\ fits (snd f)) fs -> fields_size fs <= lim ->
  (forall x, ok x -> fields_ok fs (f x) /\ g (f x) = Ok x) -> (forall xs, fields_ok fs xs -> exists x, g xs = Ok x /\ ok x /\ f x = xs) -> codec de ser ok (fields_size fs).
Proof.
  intros Hd Hse F Hs H1 H2. split; [|intros x O; destruct (H1 x O) as [Hok _]; rewrite Hse; split; [apply ser_fields_bytes|now apply ser_fields_length]].
  intros data B. split; [intros x; split|].
  - intros E. rewrite Hd in E. destruct (de_fields lim fs data) as [xs|e|] eqn:D; cbn [bind] in E; try discriminate.
    apply de_fields_iff in D as (Hok & rest & D); [|assumption..]. destruct (H2 xs Hok) as (y & Ey & Oy & Fy). rewrite Ey in E. injection E as <-. split; [assumption|]. exists rest. now rewrite Hse, Fy.
  - intros (O & rest & D). destruct (H1 x O) as [Hok E]. rewrite Hd. rewrite (proj2 (de_fields_iff lim fs data (f x) F Hs B)); [exact E|]. split; [exact Hok|]. exists rest. now rewrite <- Hse.
  - rewrite Hd. pose proof (de_fields_no_panic lim fs data) as Hn. destruct (de_fields lim fs data) as [xs|e|] eqn:D; cbn [bind]; [|discriminate|contradiction].
    apply de_fields_iff in D as (Hok & _); [|assumption..]. destruct (H2 xs Hok) as (y & Ey & _). rewrite Ey. discriminate.
Qed.
Lemma codec_one {A} (de : list Z -> res A) (ser : A -> list Z) (ok : A -> Prop) lim sz f g : lay f g sz ok ->
  (forall data, de data = (xs <- de_fields lim [(1, sz)]%nat data ;; match xs with [x] => Ok (g x) | _ => Panic end)) -> (forall x, ser x = ser_fields [1]%nat [f x]) ->
  fits sz -> 8 + 8 * Z.of_nat sz <= lim -> codec de ser ok (8 + 8 * Z.of_nat sz).
Proof.
  intros [H1 H2] Hd Hs F L. replace (8 + 8 * Z.of_nat sz) with (fields_size [(1, sz)]%nat) by (cbn [fields_size]; lia). apply (codec_fields de ser ok lim [(1, sz)]%nat (fun x => [f x]) (fun xs => match xs with [x] => Ok (g x) | _ => Panic end)); try assumption.
  - repeat constructor; assumption.
  - cbn [fields_size]. lia.
  - intros x O. destruct (H1 x O) as (A1 & A2 & A3). split; [|now rewrite A3]. constructor; [cbn [fst snd]; split; [lia|assumption]|constructor].
  - intros xs Hx. inversion Hx as [|? x ? l [Lx Tx] Hl]; subst. inversion Hl; subst. cbn [fst snd] in Lx. destruct (H2 x ltac:(lia) Tx) as [O E]. exists (g x). split; [reflexivity|]. split; [assumption|now rewrite E].
Qed.
