From Verif Require Import Base Dst SpecDst.
Open Scope Z_scope.

Lemma elements_len {A} s (data : list A) cs : elements s data cs -> Z.of_nat (length data) = Z.of_nat (length cs) * s.
Proof.
  intros [H1 H2]. subst data. induction H2 as [|c cs Hc Hcs IH]; [reflexivity|].
  cbn [concat length]. rewrite app_length. nia.
Qed.

Lemma elements_nth {A} s (data : list A) cs k c : elements s data cs -> nth_error cs k = Some c ->
  firstn (Z.to_nat s) (skipn (Z.to_nat (Z.of_nat k * s)) data) = c.
Proof.
  intros [H1 H2]. subst data. revert k. induction H2 as [|c0 cs Hc Hcs IH]; intros k Hk; [destruct k; discriminate|].
  destruct k as [|k].
  - cbn in Hk. inversion Hk; subst c0. cbn [concat]. replace (Z.to_nat (Z.of_nat 0 * s)) with 0%nat by lia. cbn [skipn].
    replace (Z.to_nat s) with (length c + 0)%nat by lia. rewrite firstn_app_2. cbn [firstn]. apply app_nil_r.
  - cbn [concat]. replace (Z.to_nat (Z.of_nat (S k) * s)) with (length c0 + Z.to_nat (Z.of_nat k * s))%nat by nia.
    rewrite skipn_app. rewrite skipn_all2 by lia. replace (length c0 + Z.to_nat (Z.of_nat k * s) - length c0)%nat with (Z.to_nat (Z.of_nat k * s)) by lia.
    cbn [app]. apply IH; exact Hk.
Qed.

(** The window [a, b) of a list. *)
Definition window {X} (l : list X) (a b : nat) : list X := firstn (b - a) (skipn a l).

Lemma window_nil {X} (l : list X) a : window l a a = [].
Proof. unfold window. rewrite Nat.sub_diag. reflexivity. Qed.

Lemma window_cons {X} (l : list X) a b : (a < b <= length l)%nat -> exists x, nth_error l a = Some x /\ window l a b = x :: window l (S a) b.
Proof.
  intros H. destruct (nth_error l a) as [x|] eqn:E.
  - exists x. split; [reflexivity|]. unfold window.
    apply nth_error_split in E. destruct E as (l1 & l2 & -> & E2).
    rewrite (skipn_app a), (skipn_app (S a)). rewrite E2. rewrite (skipn_all2 l1 (n := a)) by lia. rewrite (skipn_all2 l1 (n := S a)) by lia.
    replace (a - a)%nat with 0%nat by lia. replace (S a - a)%nat with 1%nat by lia.
    cbn [skipn app]. replace (b - a)%nat with (S (b - S a)) by lia. reflexivity.
  - apply nth_error_None in E. lia.
Qed.

Lemma window_len {X} (l : list X) a b : (b <= length l)%nat -> length (window l a b) = (b - a)%nat.
Proof. intros H. unfold window. rewrite firstn_length, skipn_length. lia. Qed.

Lemma firstn_S_nth {X} (m : list X) k x : nth_error m k = Some x -> firstn (S k) m = firstn k m ++ [x].
Proof. revert m. induction k as [|k IH]; intros [|y m] H; try discriminate; cbn in H |- *. - inversion H; reflexivity. - f_equal. apply IH; exact H. Qed.

Lemma nth_error_skipn' {X} (l : list X) a k : nth_error (skipn a l) k = nth_error l (a + k).
Proof. revert l. induction a as [|a IH]; intros [|y l]; cbn; auto. destruct k; reflexivity. Qed.

Lemma skipn_skipn' {X} (l : list X) a b : skipn a (skipn b l) = skipn (b + a) l.
Proof. revert l. induction b as [|b IH]; intros l; [reflexivity|]. destruct l; cbn; [apply skipn_nil|apply IH]. Qed.

Lemma window_snoc {X} (l : list X) a b : (a < b <= length l)%nat -> exists x, nth_error l (b - 1) = Some x /\ window l a b = window l a (b - 1) ++ [x].
Proof.
  intros H. destruct (nth_error l (b - 1)) as [x|] eqn:E; [|apply nth_error_None in E; lia].
  exists x. split; [reflexivity|]. unfold window. replace (b - a)%nat with (S (b - 1 - a)) by lia. apply firstn_S_nth.
  rewrite nth_error_skipn'. rewrite <- E. f_equal. lia.
Qed.

Lemma slice_elem {A} s (data : list A) cs k c : 0 < s -> elements s data cs -> nth_error cs k = Some c -> slice data (Z.of_nat k * s) s = Ok c.
Proof.
  intros Hs He Hk. unfold slice. rewrite (elements_len _ _ _ He).
  assert (k < length cs)%nat by (apply nth_error_Some; congruence).
  replace (0 <=? Z.of_nat k * s) with true by nia. replace (Z.of_nat k * s + s <=? Z.of_nat (length cs) * s) with true by nia.
  cbn [andb]. rewrite (elements_nth _ _ _ _ _ He Hk). reflexivity.
Qed.

Lemma iter_new_ok {A} s (data : list A) cs : 0 < s -> elements s data cs ->
  iter_new data s = Ok {| i_stride := s; i_front := 0; i_back := (Z.of_nat (length cs) - 1) * s |}.
Proof.
  intros Hs He. unfold iter_new. replace (s =? 0) with false by lia. rewrite (elements_len _ _ _ He). rewrite Z.mod_mul by lia.
  replace (0 =? 0) with true by reflexivity. do 2 f_equal. lia.
Qed.

Lemma iter_run_ok {A} s (data : list A) cs ops : 0 < s -> elements s data cs -> forall a b, (a <= b <= length cs)%nat ->
  exists it', iter_run data {| i_stride := s; i_front := Z.of_nat a * s; i_back := (Z.of_nat b - 1) * s |} ops = Ok (it', fst (take_ends (window cs a b) ops))
    /\ exists a' b', (a <= a' <= b')%nat /\ (b' <= b)%nat /\ it' = {| i_stride := s; i_front := Z.of_nat a' * s; i_back := (Z.of_nat b' - 1) * s |}
       /\ snd (take_ends (window cs a b) ops) = window cs a' b'.
Proof.
  intros Hs He. induction ops as [|o ops IH]; intros a b Hab.
  - cbn [iter_run take_ends fst snd]. eexists. split; [reflexivity|]. exists a, b. repeat split; try lia; reflexivity.
  - pose proof (elements_len _ _ _ He) as HL. cbn [iter_run].
    destruct (Nat.eq_dec a b) as [E|NE].
    + subst b. rewrite window_nil. cbn [take_ends rev].
      destruct (IH a a Hab) as (it' & H1 & H2). rewrite window_nil in H1, H2.
      destruct (take_ends (@nil (list A)) ops) as [r e] eqn:ET. cbn [fst snd] in *.
      assert (N : (match o with Front => iter_next data {| i_stride := s; i_front := Z.of_nat a * s; i_back := (Z.of_nat a - 1) * s |}
                   | Back => iter_next_back data {| i_stride := s; i_front := Z.of_nat a * s; i_back := (Z.of_nat a - 1) * s |} end)
                 = Ok ({| i_stride := s; i_front := Z.of_nat a * s; i_back := (Z.of_nat a - 1) * s |}, None)).
      { destruct o; unfold iter_next, iter_next_back; cbn [i_front i_back i_stride].
        - destruct (_ <=? _); [reflexivity|]. replace (_ =? _) with true by lia. reflexivity.
        - destruct (_ <? _); [reflexivity|]. replace (_ =? _) with true by lia. reflexivity. }
      rewrite N. cbn [bind]. rewrite H1. cbn [bind]. destruct o; rewrite ?ET; cbn [fst snd]; exists it'; (split; [reflexivity|]); exact H2.
    + destruct o.
      * destruct (window_cons cs a b ltac:(lia)) as (x & Hx & Hw). unfold iter_next. cbn [i_front i_back i_stride]. rewrite HL.
        replace (_ <=? _) with false by nia. replace (_ =? _) with false by nia.
        rewrite (slice_elem _ _ _ _ _ Hs He Hx). cbn [bind]. rewrite Hw. cbn [take_ends].
        destruct (IH (S a) b ltac:(lia)) as (it' & H1 & a' & b' & H2 & H3 & H4 & H5).
        replace (Z.of_nat a * s + s) with (Z.of_nat (S a) * s) by lia. rewrite H1. cbn [bind].
        destruct (take_ends (window cs (S a) b) ops) as [r e]. cbn [fst snd] in *. exists it'. split; [reflexivity|].
        exists a', b'. repeat split; try lia; assumption.
      * destruct (window_snoc cs a b ltac:(lia)) as (x & Hx & Hw). unfold iter_next_back. cbn [i_front i_back i_stride].
        replace (_ <? _) with false by nia. replace (_ =? _) with false by nia.
        replace ((Z.of_nat b - 1) * s) with (Z.of_nat (b - 1) * s) by nia.
        rewrite (slice_elem _ _ _ _ _ Hs He Hx). cbn [bind]. rewrite Hw. cbn [take_ends]. rewrite rev_app_distr. cbn [rev app]. rewrite rev_involutive.
        destruct (IH a (b - 1)%nat ltac:(lia)) as (it' & H1 & a' & b' & H2 & H3 & H4 & H5).
        replace (Z.of_nat (b - 1) * s - s) with ((Z.of_nat (b - 1) - 1) * s) by lia. rewrite H1. cbn [bind].
        destruct (take_ends (window cs a (b - 1)) ops) as [r e]. cbn [fst snd] in *. exists it'. split; [reflexivity|].
        exists a', b'. repeat split; try lia; assumption.
Qed.

Lemma window_all {X} (l : list X) : window l 0 (length l) = l.
Proof. unfold window. rewrite Nat.sub_0_r. apply firstn_all. Qed.

Lemma iter_run_new {A} s (data : list A) cs ops : 0 < s -> elements s data cs ->
  exists it it', iter_new data s = Ok it /\ iter_run data it ops = Ok (it', fst (take_ends cs ops)).
Proof.
  intros Hs He. destruct (iter_run_ok s data cs ops Hs He 0 (length cs) ltac:(lia)) as (it' & H1 & _).
  rewrite window_all in H1. exists {| i_stride := s; i_front := 0; i_back := (Z.of_nat (length cs) - 1) * s |}, it'.
  split; [apply iter_new_ok; assumption|]. exact H1.
Qed.

Lemma iter_new_panics {A} s (data : list A) : 0 <= s -> (forall cs, ~ elements s data cs) -> iter_new data s = Panic.
Proof.
  intros Hs H. unfold iter_new. destruct (s =? 0) eqn:E0; [reflexivity|]. destruct (_ mod s =? 0) eqn:E; [|reflexivity].
  exfalso. assert (0 < s) by lia. apply Z.eqb_eq in E. apply Z.mod_divide in E; [|lia]. destruct E as [n En].
  assert (0 <= n) by nia. clear E0.
  assert (G : forall m (d : list A), Z.of_nat (length d) = Z.of_nat m * s -> exists cs, elements s d cs).
  { induction m as [|m IH]; intros d Hd.
    - exists []. destruct d; [split; [reflexivity|constructor]|cbn [length] in Hd; lia].
    - destruct (IH (skipn (Z.to_nat s) d)) as (cs & C1 & C2). { rewrite skipn_length. nia. }
      exists (firstn (Z.to_nat s) d :: cs). split.
      + cbn [concat]. rewrite C1. apply firstn_skipn.
      + constructor; [|exact C2]. rewrite firstn_length. nia. }
  destruct (G (Z.to_nat n) data) as (cs & C); [lia|]. exact (H cs C).
Qed.

(** * Mutable *)
Definition mstate s (a b : nat) : miter := {| m_front := Z.of_nat a * s; m_back := (Z.of_nat b - 1) * s; m_stride := s |}.

Lemma starts_nth s n k : (k < n)%nat -> nth_error (starts s n) k = Some (Z.of_nat k * s).
Proof. intros H. unfold starts. rewrite nth_error_map. rewrite (nth_error_nth' _ 0%nat) by (rewrite seq_length; exact H). rewrite seq_nth by exact H. reflexivity. Qed.

Lemma starts_len s n : length (starts s n) = n.
Proof. unfold starts. rewrite map_length, seq_length. reflexivity. Qed.

Lemma miter_run_ok s n ops : 0 < s -> forall a b, (a <= b <= n)%nat ->
  exists a' b', (a <= a' <= b')%nat /\ (b' <= b)%nat /\
    miter_run (mstate s a b) ops = (mstate s a' b', fst (take_ends (window (starts s n) a b) ops)) /\
    snd (take_ends (window (starts s n) a b) ops) = window (starts s n) a' b'.
Proof.
  intros Hs. induction ops as [|o ops IH]; intros a b Hab.
  - exists a, b. cbn. repeat split; lia.
  - cbn [miter_run].
    destruct (Nat.eq_dec a b) as [E|NE].
    + subst b. rewrite window_nil. cbn [take_ends rev].
      destruct (IH a a Hab) as (a' & b' & H1 & H2 & H3 & H4). rewrite window_nil in H3, H4.
      destruct (take_ends (@nil Z) ops) as [r e] eqn:ET. cbn [fst snd] in *.
      assert (N : (match o with Front => miter_next (mstate s a a) | Back => miter_next_back (mstate s a a) end) = (mstate s a a, None)).
      { destruct o; unfold miter_next, miter_next_back, mstate; cbn [m_front m_back m_stride]; replace (_ <? _) with true by lia; reflexivity. }
      rewrite N. rewrite H3. exists a', b'. destruct o; rewrite ?ET; cbn [fst snd]; repeat split; try lia; assumption.
    + assert (L : length (starts s n) = n) by apply starts_len. destruct o.
      * destruct (window_cons (starts s n) a b ltac:(lia)) as (x & Hx & Hw). rewrite starts_nth in Hx by lia. inversion Hx; subst x.
        unfold miter_next. cbn [m_front m_back m_stride mstate]. replace (_ <? _) with false by nia.
        rewrite Hw. cbn [take_ends].
        destruct (IH (S a) b ltac:(lia)) as (a' & b' & H1 & H2 & H3 & H4).
        replace {| m_front := Z.of_nat a * s + s; m_back := (Z.of_nat b - 1) * s; m_stride := s |} with (mstate s (S a) b) by (unfold mstate; f_equal; lia).
        rewrite H3. destruct (take_ends (window (starts s n) (S a) b) ops) as [r e]. cbn [fst snd] in *.
        exists a', b'. repeat split; try lia; assumption.
      * destruct (window_snoc (starts s n) a b ltac:(lia)) as (x & Hx & Hw). rewrite starts_nth in Hx by lia. inversion Hx; subst x.
        unfold miter_next_back. cbn [m_front m_back m_stride mstate]. replace (_ <? _) with false by nia.
        rewrite Hw. cbn [take_ends]. rewrite rev_app_distr. cbn [rev app]. rewrite rev_involutive.
        destruct (IH a (b - 1)%nat ltac:(lia)) as (a' & b' & H1 & H2 & H3 & H4).
        replace {| m_front := Z.of_nat a * s; m_back := (Z.of_nat b - 1) * s - s; m_stride := s |} with (mstate s a (b - 1)) by (unfold mstate; f_equal; replace (Z.of_nat (b - 1)) with (Z.of_nat b - 1) by lia; ring).
        rewrite H3. destruct (take_ends (window (starts s n) a (b - 1)) ops) as [r e]. cbn [fst snd] in *.
        exists a', b'. repeat split; try lia; try assumption. do 3 f_equal. replace (Z.of_nat (b - 1)) with (Z.of_nat b - 1) by lia. reflexivity.
Qed.

Lemma miter_new_ok p s n : 0 < s -> s * Z.of_nat n < 2 ^ 63 -> s < 2 ^ 63 -> (p = Release \/ (0 < n)%nat) ->
  miter_new p (s * Z.of_nat n) s = Ok (mstate s 0 n).
Proof.
  intros Hs Hb Hs2 Hp. unfold miter_new. replace (s =? 0) with false by lia. rewrite Z.mul_comm, Z.mod_mul by lia. cbn [Z.eqb].
  unfold usub. destruct n as [|n].
  - rewrite (proj2 (Z.leb_gt s (Z.of_nat 0 * s))) by (change (Z.of_nat 0) with 0; lia). change (Z.of_nat 0) with 0. destruct Hp as [->|]; [|lia]. cbn [bind]. unfold mstate. f_equal. f_equal. unfold as_isize, uwrap.
    replace ((0 * s - s) mod 2 ^ 64) with (2 ^ 64 - s).
    + change (2 ^ 63) with 9223372036854775808 in *. change (2 ^ 64) with 18446744073709551616. replace (_ <? _) with false by lia. lia.
    + apply (Z.mod_unique _ _ (-1)); change (2 ^ 63) with 9223372036854775808 in *; change (2 ^ 64) with 18446744073709551616; lia.
  - rewrite (proj2 (Z.leb_le s (Z.of_nat (S n) * s))) by nia. cbn [bind]. unfold mstate. f_equal. f_equal. unfold as_isize.
    rewrite (proj2 (Z.ltb_lt _ _)) by nia. lia.
Qed.

Lemma miter_len_ok s a b : 0 < s -> (a <= b)%nat -> miter_len (mstate s a b) = Z.of_nat (b - a).
Proof.
  intros Hs H. unfold miter_len, mstate. cbn [m_front m_back m_stride].
  replace ((Z.of_nat b - 1) * s - Z.of_nat a * s + s) with (Z.of_nat (b - a) * s) by nia. apply Z.div_mul; lia.
Qed.

(** * Parallel *)
Lemma take_ends_fronts {X} (l : list X) n : (length l <= n)%nat ->
  concat (map (fun o : option X => match o with Some x => [x] | None => [] end) (fst (take_ends l (repeat Front n)))) = l.
Proof.
  revert l. induction n as [|n IH]; intros l H.
  - destruct l; [reflexivity|cbn in H; lia].
  - cbn [repeat take_ends]. destruct l as [|x l].
    + specialize (IH [] ltac:(cbn; lia)). destruct (take_ends [] (repeat Front n)) as [r e]. cbn [fst map concat app] in *. exact IH.
    + specialize (IH l ltac:(cbn in H; lia)). destruct (take_ends l (repeat Front n)) as [r e]. cbn [fst map concat app] in *. f_equal. exact IH.
Qed.

Lemma elements_app {A} s (d1 d2 : list A) c1 c2 : elements s d1 c1 -> elements s d2 c2 -> elements s (d1 ++ d2) (c1 ++ c2).
Proof. intros [H1 H2] [H3 H4]. split; [rewrite concat_app; congruence|apply Forall_app; auto]. Qed.

Lemma elements_window {A} s (data : list A) cs a b : 0 < s -> elements s data cs -> (a <= b <= length cs)%nat ->
  slice data (Z.of_nat a * s) (Z.of_nat (b - a) * s) = Ok (concat (window cs a b)) /\ elements s (concat (window cs a b)) (window cs a b).
Proof.
  intros Hs He Hab. pose proof (elements_len _ _ _ He) as HL. destruct He as [H1 H2].
  assert (S1 : cs = firstn a cs ++ window cs a b ++ skipn b cs).
  { unfold window. rewrite <- (firstn_skipn a cs) at 1. f_equal. rewrite <- (firstn_skipn (b - a) (skipn a cs)) at 1. f_equal.
    rewrite skipn_skipn'. f_equal. lia. }
  assert (HF : Forall (fun c : list A => Z.of_nat (length c) = s) (firstn a cs) /\ Forall (fun c => Z.of_nat (length c) = s) (window cs a b)).
  { rewrite S1 in H2. apply Forall_app in H2 as [F1 F2]. apply Forall_app in F2 as [F2 F3]. auto. }
  assert (EL : forall l : list (list A), Forall (fun c => Z.of_nat (length c) = s) l -> Z.of_nat (length (concat l)) = Z.of_nat (length l) * s).
  { intros l Hl. apply (elements_len s (concat l) l). split; auto. }
  split; [|split; [reflexivity|apply HF]].
  unfold slice. rewrite HL. rewrite (proj2 (Z.leb_le 0 _)) by nia. rewrite (proj2 (Z.leb_le _ _)) by nia. cbn [andb].
  assert (D : data = concat (firstn a cs) ++ concat (window cs a b) ++ concat (skipn b cs)).
  { rewrite <- H1. rewrite S1 at 1. rewrite !concat_app. reflexivity. }
  f_equal. rewrite D. pose proof (EL _ (proj1 HF)) as L1. pose proof (EL _ (proj2 HF)) as L2.
  rewrite firstn_length, Nat.min_l in L1 by lia. rewrite window_len in L2 by lia.
  rewrite skipn_app. rewrite skipn_all2 by lia. replace (_ - length (concat (firstn a cs)))%nat with 0%nat by lia. cbn [skipn app].
  rewrite <- L2. rewrite Nat2Z.id. replace (length (concat (window cs a b))) with (length (concat (window cs a b)) + 0)%nat by lia.
  rewrite firstn_app_2. cbn [firstn]. rewrite app_nil_r. reflexivity.
Qed.

Definition piece s (a b : nat) : prod := {| p_start := Z.of_nat a * s; p_len := Z.of_nat (b - a) * s; p_stride := s; p_count := Z.of_nat (b - a) |}.

Lemma prod_split_ok s a b i : 0 < s -> (a <= b)%nat -> 0 <= i <= Z.of_nat (b - a) ->
  prod_split (piece s a b) i = Ok (piece s a (a + Z.to_nat i), piece s (a + Z.to_nat i) b).
Proof.
  intros Hs Hab Hi. unfold prod_split, piece. cbn [p_start p_len p_stride p_count]. rewrite (proj2 (Z.leb_le _ _)) by nia.
  f_equal. f_equal; f_equal; nia.
Qed.

Lemma window_app {X} (l : list X) a m b : (a <= m <= b)%nat -> (b <= length l)%nat -> window l a m ++ window l m b = window l a b.
Proof.
  intros H1 H2. unfold window. replace (b - a)%nat with ((m - a) + (b - m))%nat by lia.
  replace (skipn m l) with (skipn (m - a) (skipn a l)) by (rewrite skipn_skipn'; f_equal; lia).
  generalize (skipn a l) as q. generalize (m - a)%nat as x. generalize (b - m)%nat as y. clear.
  intros y x. induction x as [|x IH]; intros q; [reflexivity|]. destruct q as [|z q]; cbn [firstn skipn Nat.add app]; [rewrite firstn_nil; reflexivity|].
  f_equal. apply IH.
Qed.

Lemma par_iter_ok {A} s (data : list A) cs t : 0 < s -> elements s data cs -> forall a b, (a <= b <= length cs)%nat -> cuts_ok t (Z.of_nat (b - a)) ->
  par_iter data (piece s a b) t = Ok (window cs a b).
Proof.
  intros Hs He. induction t as [|i l IHl r IHr]; intros a b Hab Hc.
  - cbn [par_iter]. destruct (elements_window s data cs a b Hs He Hab) as [E1 E2]. cbn [piece p_start p_len p_stride p_count]. rewrite E1. cbn [bind].
    destruct (iter_run_new s _ _ (repeat Front (S (Z.to_nat (Z.of_nat (b - a))))) Hs E2) as (it & it' & I1 & I2).
    rewrite I1. cbn [bind]. rewrite I2. cbn [bind]. rewrite take_ends_fronts; [reflexivity|]. rewrite window_len by lia. lia.
  - cbn [par_iter]. cbn [cuts_ok] in Hc. destruct Hc as (C1 & C2 & C3). rewrite prod_split_ok by (try lia; exact Hs). cbn [bind].
    rewrite IHl by (try lia; replace (a + Z.to_nat i - a)%nat with (Z.to_nat i) by lia; rewrite Z2Nat.id by lia; exact C2). cbn [bind].
    rewrite IHr by (try lia; replace (Z.of_nat (b - (a + Z.to_nat i))) with (Z.of_nat (b - a) - i) by lia; exact C3). cbn [bind].
    rewrite window_app by lia. reflexivity.
Qed.

Lemma cuts_inside_ok t : forall n, cuts_inside t n -> cuts_ok t n.
Proof. induction t as [|i l IHl r IHr]; intros n H; cbn in *; [exact Logic.I|]. destruct H as (H1 & H2 & H3). split; [lia|]. auto. Qed.

Lemma window_starts s n a b : (a <= b <= n)%nat -> window (starts s n) a b = map (fun x => Z.of_nat a * s + x) (starts s (b - a)).
Proof.
  intros H. unfold window, starts. rewrite map_map. rewrite <- (firstn_map (fun k => Z.of_nat k * s)) || idtac.
  rewrite skipn_map, firstn_map. assert (Q : firstn (b - a) (skipn a (seq 0 n)) = seq a (b - a)).
  { replace n with (a + ((b - a) + (n - b)))%nat by lia. rewrite seq_app. rewrite skipn_app. rewrite skipn_all2 by (rewrite seq_length; lia).
    rewrite seq_length. replace (a - a)%nat with 0%nat by lia. cbn [skipn app Nat.add]. rewrite seq_app.
    replace (b - a)%nat with (length (seq a (b - a)) + 0)%nat at 1 by (rewrite seq_length; lia). rewrite firstn_app_2. cbn [firstn]. apply app_nil_r. }
  rewrite Q. clear Q. replace (seq a (b - a)) with (map (fun k => (a + k)%nat) (seq 0 (b - a))).
  - rewrite map_map. apply map_ext. intros k. lia.
  - generalize (b - a)%nat as m. clear. intros m. replace (seq a m) with (seq (a + 0) m) by (f_equal; lia). generalize 0%nat as z. revert a. induction m as [|m IH]; intros a z; [reflexivity|].
    cbn [seq map]. f_equal. rewrite IH. f_equal. lia.
Qed.

Lemma par_miter_ok pf s n t : 0 < s -> s < 2 ^ 63 -> s * Z.of_nat n < 2 ^ 63 -> forall a b, (a <= b <= n)%nat ->
  cuts_ok t (Z.of_nat (b - a)) -> (pf = Release \/ ((a < b)%nat /\ cuts_inside t (Z.of_nat (b - a)))) ->
  par_miter pf (piece s a b) t = Ok (window (starts s n) a b).
Proof.
  intros Hs Hs2 Hn. induction t as [|i l IHl r IHr]; intros a b Hab Hc Hp.
  - cbn [par_miter]. cbn [piece p_start p_len p_stride p_count].
    rewrite (Z.mul_comm (Z.of_nat (b - a)) s). rewrite (miter_new_ok pf s (b - a) Hs ltac:(nia) Hs2 ltac:(clear - Hp; destruct Hp as [?|[? ?]]; [left; assumption|right; lia])).
    cbn [bind]. destruct (miter_run_ok s (b - a) (repeat Front (S (Z.to_nat (Z.of_nat (b - a))))) Hs 0 (b - a) ltac:(lia)) as (a' & b' & _ & _ & H3 & _).
    rewrite H3. replace (window (starts s (b - a)) 0 (b - a)) with (starts s (b - a)) by (rewrite <- (window_all (starts s (b - a))) at 1; rewrite starts_len; reflexivity). f_equal. rewrite window_starts by lia.
    pose proof (take_ends_fronts (starts s (b - a)) (S (Z.to_nat (Z.of_nat (b - a)))) ltac:(rewrite starts_len; lia)) as T.
    rewrite <- T at 2. clear. induction (fst _) as [|o os IH]; [reflexivity|].
    cbn [map concat]. rewrite map_app. f_equal; [|exact IH]. destruct o; reflexivity.
  - cbn [par_miter]. cbn [cuts_ok] in Hc. destruct Hc as (C1 & C2 & C3). rewrite prod_split_ok by (try lia; exact Hs). cbn [bind].
    rewrite IHl; [cbn [bind]; rewrite IHr; [cbn [bind]; rewrite window_app by (rewrite ?starts_len; lia); reflexivity|lia| |]|lia| |].
    + replace (Z.of_nat (b - (a + Z.to_nat i))) with (Z.of_nat (b - a) - i) by lia; exact C3.
    + destruct Hp as [?|[Hp1 Hp2]]; [left; assumption|right]. cbn [cuts_inside] in Hp2. destruct Hp2 as (P1 & P2 & P3). split; [lia|].
      replace (Z.of_nat (b - (a + Z.to_nat i))) with (Z.of_nat (b - a) - i) by lia; exact P3.
    + replace (a + Z.to_nat i - a)%nat with (Z.to_nat i) by lia; rewrite Z2Nat.id by lia; exact C2.
    + destruct Hp as [?|[Hp1 Hp2]]; [left; assumption|right]. cbn [cuts_inside] in Hp2. destruct Hp2 as (P1 & P2 & P3). split; [lia|].
      replace (a + Z.to_nat i - a)%nat with (Z.to_nat i) by lia; rewrite Z2Nat.id by lia; exact P2.
Qed.
