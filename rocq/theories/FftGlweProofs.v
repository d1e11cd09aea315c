(** The exact external product as sums of negacyclic products, component by component. *)
From Verif Require Import Base Alu AluProofs MuxGraph PolyRing Tfhe TfheGlwe SpecTfhe SpecGlwe FluentIntProofs TfheProofs TfheProofs2 TfheProofs3
  TfheGlweProofs TfheGlweProofs2 TfheGlweProofs3 TfheGlweProofs4.
From Verif Require Import SpecFft.
Require Import Setoid Morphisms Ring.
Ltac Zify.zify_post_hook ::= idtac.
Open Scope Z_scope.

(** ** The product of PolyRing is the schoolbook product *)
Lemma sumz_zsum n f : sumz n f = zsum n f. Proof. induction n; cbn [sumz zsum]; [reflexivity|now rewrite IHn]. Qed.
Lemma zsum_one n k c (f : nat -> Z) : (k < n)%nat -> (forall i, (i < n)%nat -> i <> k -> f i = 0) -> f k = c -> zsum n f = c.
Proof.
  revert c. induction n as [|n IH]; intros c Hk H0 H1; [lia|]. cbn [zsum]. destruct (Nat.eq_dec k n) as [->|Ne].
  - rewrite (zsum_ext n f (fun _ => 0)) by (intros; apply H0; lia). rewrite zsum_0 by auto. lia.
  - rewrite (IH c) by (auto; lia). rewrite H0 by lia. lia.
Qed.
Lemma negacyclic_pmul N a b k : (k < N)%nat -> negacyclic N a b k = pmul N a b k.
Proof.
  intros Hk. unfold negacyclic, pmul, psum. rewrite sumz_zsum. apply zsum_ext. intros i Hi. rewrite sumz_zsum.
  unfold pscale. rewrite pxn_closed by lia. destruct (Nat.ltb_spec k i).
  - apply (zsum_one N (N + k - i)); [lia| |].
    + intros j Hj Hn. destruct (Nat.eqb_spec (i + j) k); [lia|]. destruct (Nat.eqb_spec (i + j) (k + N)); [lia|reflexivity].
    + destruct (Nat.eqb_spec (i + (N + k - i)) k); [lia|]. destruct (Nat.eqb_spec (i + (N + k - i)) (k + N)); [ring|lia].
  - apply (zsum_one N (k - i)); [lia| |].
    + intros j Hj Hn. destruct (Nat.eqb_spec (i + j) k); [lia|]. destruct (Nat.eqb_spec (i + j) (k + N)); [lia|reflexivity].
    + destruct (Nat.eqb_spec (i + (k - i)) k); [ring|lia].
Qed.
Lemma sint_congr w x : congr w (sint w x) x.
Proof.
  unfold sint. destruct (_ <? _); [reflexivity|]. unfold zeq. replace (x - 2 ^ w) with (x + (-1) * 2 ^ w) by ring. apply Z_mod_plus_full.
Qed.

(** ** The digits *)
Fixpoint digit_polys (w log : Z) (n : nat) (vs : list Z) : list (list Z) :=
  match n with O => [] | S n => map (fun x => uwrap w (sdig log x)) vs :: digit_polys w log n (map (snext log) vs) end.

(** One gadget product as a list of (ciphertext, digit polynomial). *)
Definition glev_steps {A} (w log : Z) (count : nat) (a : list Z) (r : list A) : list (A * list Z) :=
  combine (rev r) (digit_polys w log (length r) (map (rnd w log count) a)).
Fixpoint rows_steps {A} (w log : Z) (count : nat) (polys : list (list Z)) (rows : list (list A)) : list (A * list Z) :=
  match polys, rows with a :: polys, r :: rows => glev_steps w log count a r ++ rows_steps w log count polys rows | _, _ => [] end.

Lemma foldM_app {A S} (f : S -> A -> res S) l l' s : foldM f (l ++ l') s = (s' <- foldM f l s ;; foldM f l' s').
Proof. revert s. induction l as [|x l IH]; intros s; cbn [foldM app]; [reflexivity|]. destruct (f s x); cbn [bind]; auto. Qed.

(** ** Components *)
Definition comps (c : glwe) : list (list Z) := ga c ++ [gb c].
Definition comp (j : nat) (c : glwe) : list Z := nth j (comps c) [].
Lemma comp_a j c : (j < length (ga c))%nat -> comp j c = nth j (ga c) []. Proof. intros. unfold comp, comps. now rewrite app_nth1. Qed.
Lemma comp_b c : comp (length (ga c)) c = gb c. Proof. unfold comp, comps. rewrite app_nth2, Nat.sub_diag by lia. reflexivity. Qed.

Lemma comp_b' k c : length (ga c) = k -> comp k c = gb c. Proof. intros <-. apply comp_b. Qed.
Lemma zip2M_nth (f : list Z -> list Z -> res (list Z)) a : forall c r, zip2M f c a = Ok r -> length c = length a ->
  forall j, (j < length c)%nat -> f (nth j c []) (nth j a []) = Ok (nth j r []).
Proof.
  induction a as [|y a IH]; intros [|x c] r; cbn [zip2M length]; intros E L j Hj; try lia.
  destruct (f x y) as [x'| |] eqn:E1; try discriminate. cbn [bind] in E.
  destruct (zip2M f c a) as [c'| |] eqn:E2; try discriminate. cbn [bind] in E. injection E as <-.
  destruct j; cbn [nth]; [exact E1|]. apply (IH c c' E2); lia.
Qed.

Section P.
Context (N : nat) (w : Z) (Hw : word w) (pr : profile) (log : Z) (count k : nat).
Context (Hl : 1 <= log) (Hcount : (1 <= count)%nat) (Hs : log * Z.of_nat count < w).
Definition estep (c : glwe) (s : glwe * list Z) : res glwe := glwe_poly_mad w k c (fst s) (snd s).

Lemma log_lt_w : 1 <= log < w. Proof. nia. Qed.

Lemma digits_fact n : forall vs, Forall (fun d => length d = length vs) (digit_polys w log n vs) /\ length (digit_polys w log n vs) = n /\
  Forall (Forall (fun x => Z.abs (sint w x) <= 2 ^ (log - 1))) (digit_polys w log n vs).
Proof.
  pose proof log_lt_w as Hlw. induction n as [|n IH]; intros vs; cbn [digit_polys length].
  - repeat constructor.
  - destruct (IH (map (snext log) vs)) as (A & B & C). rewrite map_length in A. split; [|split; [lia|]].
    + constructor; [now rewrite map_length|exact A].
    + constructor; [|exact C]. apply Forall_forall. intros x Hx. apply in_map_iff in Hx as (v & <- & _).
      pose proof (sdig_range log v Hl) as R. pose proof (pow_half w ltac:(lia)) as P.
      assert (2 ^ (log - 1) <= 2 ^ (w - 1)) by (apply Z.pow_le_mono_r; lia).
      unfold sint, uwrap. destruct (Z.ltb_spec (sdig log v) 0) as [Hneg|Hpos].
      * replace (sdig log v mod 2 ^ w) with (sdig log v + 2 ^ w).
        2:{ rewrite <- (Z_mod_plus_full (sdig log v) 1 (2 ^ w)). rewrite Z.mul_1_l. symmetry. apply Z.mod_small. lia. }
        destruct (Z.ltb_spec (sdig log v + 2 ^ w) (2 ^ (w - 1))); lia.
      * rewrite Z.mod_small by lia. destruct (Z.ltb_spec (sdig log v) (2 ^ (w - 1))); lia.
Qed.

Lemma loop_steps bs : forall vs l cur c, toruses w vs -> (l + length bs <= count)%nat ->
  glev_mad_loop pr w log count k {| ri_scratch := vs; ri_level := l |} cur bs c =
  foldM estep (combine bs (digit_polys w log (length bs) vs)) c.
Proof.
  pose proof log_lt_w as Hlw. pose proof (word_pos w Hw). induction bs as [|b bs IH]; intros vs l cur c Tv Hlv; cbn [glev_mad_loop length digit_polys combine foldM]; [reflexivity|].
  cbn [length] in Hlv. unfold write_next. cbn [ri_level ri_scratch]. destruct (Nat.eqb_spec l count) as [->|_]; [lia|].
  rewrite vec_next_map by assumption. cbn [bind]. rewrite !map_map. cbn [fst snd]. unfold estep at 1. cbn [fst snd].
  destruct (glwe_poly_mad _ _ _ _ _); cbn [bind]; try reflexivity. apply IH; [apply snexts_torus; (lia || assumption)|lia].
Qed.
Lemma round_map a : toruses w a -> mapM (radix_round pr w log (Z.of_nat count)) a = Ok (map (rnd w log count) a).
Proof. intros H. apply mapM_ok. intros x Hx. apply radix_round_ok; try assumption. apply (proj1 (Forall_forall _ _) H x Hx). Qed.
Lemma round_torus a : toruses w a -> toruses w (map (rnd w log count) a).
Proof. intros H. pose proof (word_pos w Hw). induction H; cbn [map]; constructor; auto. apply rnd_torus; (assumption || lia). Qed.
Lemma radix_new_eq a : toruses w a -> radix_new pr w log count a = Ok {| ri_scratch := map (rnd w log count) a; ri_level := 0 |}.
Proof.
  intros H. unfold radix_new. destruct (Z.ltb_spec (log * Z.of_nat count) w); [|lia]. destruct (Z.eqb_spec (log * Z.of_nat count) 0); [nia|].
  cbn [andb negb]. rewrite round_map by assumption. reflexivity.
Qed.
Lemma glev_mad_steps c a r : toruses w a -> length r = count ->
  glev_mad pr w log count N k c a r = foldM estep (glev_steps w log count a r) c.
Proof.
  intros Ta Lr. unfold glev_mad. rewrite radix_new_eq by assumption. cbn [bind]. rewrite loop_steps by (try apply round_torus; try rewrite rev_length; (assumption || lia)).
  unfold glev_steps. now rewrite rev_length.
Qed.
Lemma rows_mad_steps polys : forall rows c, Forall (toruses w) polys -> Forall (fun r => length r = count) rows ->
  rows_mad pr w log count N k c polys rows = foldM estep (rows_steps w log count polys rows) c.
Proof.
  induction polys as [|a polys IH]; intros [|r rows] c Tp Lr; cbn [rows_mad rows_steps foldM]; try reflexivity.
  apply Forall_cons_iff in Tp as [Ta Tp]. apply Forall_cons_iff in Lr as [L1 Lr].
  rewrite foldM_app, glev_mad_steps by assumption. destruct (foldM _ _ _); cbn [bind]; try reflexivity. apply IH; assumption.
Qed.

Lemma comp_len j c : glwe_shape N k c -> (j <= k)%nat -> length (comp j c) = N.
Proof.
  intros ([L F] & Lb) Hj. destruct (Nat.eq_dec j k) as [->|Ne].
  - rewrite <- L, comp_b. exact Lb.
  - rewrite comp_a by lia. apply (proj1 (Forall_forall _ _) F). apply nth_In. lia.
Qed.

Definition pairs (j : nat) (ss : list (glwe * list Z)) : list (list Z * list Z) := map (fun s => (comp j (fst s), snd s)) ss.
Definition step_ok (s : glwe * list Z) : Prop := glwe_shape N k (fst s) /\ length (snd s) = N.

Lemma sum_step j b d rest i : (i < N)%nat -> congr w (sum_of_products N w ((comp j b, d) :: rest) i)
  (pmul N (coef (comp j b)) (coef d) i + sum_of_products N w rest i).
Proof.
  intros Hi. cbn [sum_of_products]. apply zeq_add; [|reflexivity]. rewrite negacyclic_pmul by assumption.
  assert (Hc : forall p, peq N (2 ^ w) (scoef w p) (coef p)) by (intros p t _; apply sint_congr).
  assert (P : peq N (2 ^ w) (pmul N (scoef w (comp j b)) (scoef w d)) (pmul N (coef (comp j b)) (coef d))) by (rewrite !Hc; reflexivity).
  apply P. assumption.
Qed.

Lemma steps_exact : is_pow2 N = true -> forall ss c, Forall step_ok ss -> glwe_wf w N k c ->
  exists c', foldM estep ss c = Ok c' /\ glwe_wf w N k c' /\ forall j i, (j <= k)%nat -> (i < N)%nat ->
    congr w (nth i (comp j c') 0) (nth i (comp j c) 0 + sum_of_products N w (pairs j ss) i).
Proof.
  intros Hp. pose proof (word_pos w Hw). induction ss as [|[b d] ss IH]; intros c Fs Wc.
  - exists c. split; [reflexivity|]. split; [assumption|]. intros j i Hj Hi. cbn [pairs map sum_of_products]. now rewrite Z.add_0_r.
  - apply Forall_cons_iff in Fs as [(Sb & Ld) Fs]. cbn [fst snd] in *. cbn [foldM]. unfold estep at 1. cbn [fst snd].
    destruct (glwe_poly_mad_ok N w k c b d Hp (proj1 Wc) Sb Ld) as (c1 & E1 & S1 & W1 & _). specialize (W1 ltac:(lia) Wc).
    rewrite E1. cbn [bind]. destruct (IH c1 Fs W1) as (c' & E2 & W2 & H2). exists c'. split; [exact E2|]. split; [exact W2|].
    intros j i Hj Hi. rewrite (H2 j i Hj Hi). cbn [pairs map fst snd]. fold (pairs j ss). rewrite sum_step by assumption. rewrite Z.add_assoc. apply zeq_add; [|reflexivity].
    assert (Em : poly_mad w (comp j c) (comp j b) d = Ok (comp j c1)).
    { clear - E1 Wc Sb Hj S1. unfold glwe_poly_mad in E1. destruct Wc as (Sc & _). destruct Sc as [[Lc Fc] Lcb], Sb as [[Lb Fb] Lbb], S1 as [[L1 F1] L1b].
      rewrite Lc, Lb, Nat.eqb_refl in E1. cbn [andb] in E1.
      destruct (zip2M _ _ _) as [x| |] eqn:Ex; try discriminate. cbn [bind] in E1.
      destruct (poly_mad w (gb c) (gb b) d) as [y| |] eqn:Ey; try discriminate. cbn [bind] in E1. injection E1 as <-. cbn [ga gb] in *.
      destruct (Nat.eq_dec j k) as [->|Ne].
      - rewrite !comp_b' by assumption. exact Ey.
      - rewrite !comp_a by (cbn [ga]; lia). cbn [ga]. apply (zip2M_nth _ _ _ _ Ex); lia. }
    destruct (poly_mad_ok w N (comp j c) (comp j b) d Hp) as (r & Er & _ & _ & P); try (apply comp_len; (assumption || apply Wc || lia)); [assumption|].
    rewrite Em in Er. injection Er as Er. rewrite <- Er in P. apply (P i Hi).
Qed.

Lemma step_ok_rows polys : forall rows, Forall (fun a => length a = N) polys -> Forall (fun r => length r = count /\ Forall (glwe_shape N k) r) rows ->
  Forall step_ok (rows_steps w log count polys rows) /\
  Forall (fun s => Forall (fun x => Z.abs (sint w x) <= 2 ^ (log - 1)) (snd s)) (rows_steps w log count polys rows) /\
  length (rows_steps w log count polys rows) = (Nat.min (length polys) (length rows) * count)%nat.
Proof.
  induction polys as [|a polys IH]; intros [|r rows] Fp Fr; cbn [rows_steps]; try (split; [constructor|split; [constructor|reflexivity]]).
  apply Forall_cons_iff in Fp as [La Fp]. apply Forall_cons_iff in Fr as [[Lr Sr] Fr]. destruct (IH rows Fp Fr) as (A & B & C).
  destruct (digits_fact (length r) (map (rnd w log count) a)) as (D1 & D2 & D3). rewrite map_length in D1. unfold glev_steps.
  split; [|split].
  - apply Forall_app. split; [|exact A]. apply Forall_forall. intros [b d] Hin. split; cbn [fst snd].
    + apply (proj1 (Forall_forall _ _) Sr). apply in_rev. eapply in_combine_l; exact Hin.
    + rewrite (proj1 (Forall_forall _ _) D1 d) by (eapply in_combine_r; exact Hin). exact La.
  - apply Forall_app. split; [|exact B]. apply Forall_forall. intros [b d] Hin. cbn [snd].
    apply (proj1 (Forall_forall _ _) D3 d). eapply in_combine_r; exact Hin.
  - rewrite app_length, C, combine_length, rev_length, D2, Lr. cbn [length Nat.min]. lia.
Qed.
End P.
