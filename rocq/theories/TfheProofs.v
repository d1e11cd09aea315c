(** Torus encoding, radix decomposition and LWE: lemmas. *)
From Verif Require Import Base Alu AluProofs PolyRing Tfhe SpecTfhe FluentIntProofs.
Ltac Zify.zify_post_hook ::= idtac.
Open Scope Z_scope.

Lemma word_pos w : word w -> 0 < w. Proof. intros [->| ->]; lia. Qed.
Lemma word_le w : word w -> w <= 64. Proof. intros [->| ->]; lia. Qed.
Lemma pow_pos' n : 0 <= n -> 0 < 2 ^ n. Proof. intros. apply Z.pow_pos_nonneg; lia. Qed.
Lemma pow2_nz w : 0 <= w -> 2 ^ w <> 0. Proof. intros H. pose proof (pow_pos' w H). lia. Qed.
Lemma uwrap_torus w x : 0 <= w -> torus w (uwrap w x).
Proof. intros H. apply Z.mod_pos_bound. now apply pow_pos'. Qed.
Lemma uwrap_small w x : torus w x -> uwrap w x = x.
Proof. intros H. now apply Z.mod_small. Qed.
Lemma uwrap_congr w x : congr w (uwrap w x) x. Proof. apply zeq_mod. Qed.
Lemma uwrap_eq w x y : congr w x y -> uwrap w x = uwrap w y. Proof. intros H. exact H. Qed.
Lemma tadd_congr w a b : congr w (tadd w a b) (a + b). Proof. apply zeq_mod. Qed.
Lemma tsub_congr w a b : congr w (tsub w a b) (a - b). Proof. apply zeq_mod. Qed.
Lemma tmul_congr w a b : congr w (tmul w a b) (a * b). Proof. apply zeq_mod. Qed.
Lemma tneg_congr w a : congr w (tneg w a) (- a). Proof. apply zeq_mod. Qed.
Lemma pow_split a b : 0 <= a -> 0 <= b -> 2 ^ (a + b) = 2 ^ a * 2 ^ b.
Proof. intros. now rewrite Z.pow_add_r. Qed.
Lemma usub_ok p w a b : b <= a -> usub p w a b = Ok (a - b).
Proof. intros H. unfold usub. destruct (Z.leb_spec b a); [reflexivity|lia]. Qed.
Lemma uadd_ok p w a b : a + b < 2 ^ w -> uadd p w a b = Ok (a + b).
Proof. intros H. unfold uadd. destruct (Z.ltb_spec (a + b) (2 ^ w)); [reflexivity|lia]. Qed.
Lemma umul_ok p w a b : a * b < 2 ^ w -> umul p w a b = Ok (a * b).
Proof. intros H. unfold umul. destruct (Z.ltb_spec (a * b) (2 ^ w)); [reflexivity|lia]. Qed.
Lemma land_mask x p : 0 <= p -> Z.land x (2 ^ p - 1) = x mod 2 ^ p.
Proof. intros H. replace (2 ^ p - 1) with (Z.ones p) by (rewrite Z.ones_equiv; lia). now apply Z.land_ones. Qed.
Lemma land_1 x : Z.land x 1 = x mod 2.
Proof. exact (land_mask x 1 ltac:(lia)). Qed.

(** Rounding to the nearest multiple of [2^s]. *)
Lemma round_shift x s : 0 <= x -> 1 <= s ->
  x / 2 ^ s + (x / 2 ^ (s - 1)) mod 2 = (x + 2 ^ (s - 1)) / 2 ^ s.
Proof.
  intros Hx Hs. set (h := 2 ^ (s - 1)). assert (Hh : 0 < h) by (apply pow_pos'; lia).
  assert (E : 2 ^ s = h * 2). { unfold h. change 2 with (2 ^ 1) at 3. rewrite <- Z.pow_add_r by lia. f_equal. lia. }
  rewrite E, <- !Z.div_div by lia.
  replace ((x + h) / h) with (x / h + 1) by (rewrite <- (Z.div_add x 1 h) by lia; f_equal; lia).
  generalize (x / h). intros y.
  pose proof (Z.div_mod y 2 ltac:(lia)) as D. pose proof (Z.mod_pos_bound y 2 ltac:(lia)).
  apply (Z.div_unique (y + 1) 2 _ (1 - y mod 2)); lia.
Qed.

(** ** Encoding *)

Lemma t_encode_ok w m p : word w -> 0 < p < w -> t_encode w m p = Ok ((m * 2 ^ (w - p)) mod 2 ^ w).
Proof.
  intros Hw Hp. unfold t_encode, wshl. destruct (Z.ltb_spec p w); [|lia]. rewrite Z.mod_small by lia. reflexivity.
Qed.

(** Decoding rounds to the nearest multiple of 2^(w-p). *)
Lemma t_decode_ok pr w x p : word w -> 0 < p < w -> p < 32 -> torus w x ->
  t_decode pr w x p = Ok (((x + 2 ^ (w - p - 1)) / 2 ^ (w - p)) mod 2 ^ p).
Proof.
  intros Hw Hp Hp' [Hx Hx']. pose proof (word_pos w Hw). unfold t_decode.
  destruct (Z.ltb_spec p w); [|lia]. rewrite ushl_ok by lia. cbn [bind].
  assert (H1 : uwrap 32 (1 * 2 ^ p) = 2 ^ p).
  { rewrite Z.mul_1_l. apply Z.mod_small. split; [apply Z.lt_le_incl, pow_pos'; lia|]. apply Z.pow_lt_mono_r; lia. }
  rewrite H1. pose proof (pow_pos' p ltac:(lia)). rewrite usub_ok by lia. cbn [bind].
  unfold wshr. rewrite (Z.mod_small (w - p)), (Z.mod_small (w - p - 1)) by lia. rewrite land_1.
  pose proof (pow_pos' (w - p) ltac:(lia)). pose proof (pow_pos' (w - p - 1) ltac:(lia)).
  assert (Ew : 2 ^ w = 2 ^ p * 2 ^ (w - p)) by (rewrite <- pow_split by lia; f_equal; lia).
  assert (Hd : x / 2 ^ (w - p) < 2 ^ p) by (apply Z.div_lt_upper_bound; lia).
  pose proof (Z.mod_pos_bound (x / 2 ^ (w - p - 1)) 2 ltac:(lia)).
  assert (2 ^ p < 2 ^ w) by (apply Z.pow_lt_mono_r; lia).
  rewrite uadd_ok by lia. cbn [bind]. rewrite land_mask by lia. now rewrite round_shift by lia.
Qed.

Lemma decode_near w p m e x : word w -> 0 < p < w -> - 2 ^ (w - p - 1) <= e < 2 ^ (w - p - 1) ->
  x = (m * 2 ^ (w - p) + e) mod 2 ^ w ->
  ((x + 2 ^ (w - p - 1)) / 2 ^ (w - p)) mod 2 ^ p = m mod 2 ^ p.
Proof.
  intros Hw Hp He ->. pose proof (word_pos w Hw). set (h := 2 ^ (w - p - 1)) in *. set (s := 2 ^ (w - p)).
  assert (Es : s = 2 * h). { unfold s, h. change 2 with (2 ^ 1) at 2. rewrite <- Z.pow_add_r by lia. f_equal. lia. }
  assert (Hh : 0 < h) by (apply pow_pos'; lia).
  assert (Ew : 2 ^ w = 2 ^ p * s) by (unfold s; rewrite <- pow_split by lia; f_equal; lia).
  pose proof (pow_pos' p ltac:(lia)).
  set (y := m * s + e). pose proof (Z.div_mod y (2 ^ w) ltac:(lia)) as D. set (k := y / 2 ^ w) in *.
  replace (y mod 2 ^ w + h) with ((m - k * 2 ^ p) * s + (e + h)) by (unfold y in *; nia).
  rewrite Z.add_comm, Z.div_add by lia. rewrite (Z.div_small (e + h)) by lia. rewrite Z.add_0_l.
  replace (m - k * 2 ^ p) with (m + (- k) * 2 ^ p) by ring. now rewrite Z.mod_add by lia.
Qed.

(** ** Radix decomposition *)

(** The signed digit and the remaining quotient of [v]. *)
Definition sdig (log v : Z) : Z := (v + 2 ^ (log - 1)) mod 2 ^ log - 2 ^ (log - 1).
Definition snext (log v : Z) : Z := (v + 2 ^ (log - 1)) / 2 ^ log.
Fixpoint sdigs (log : Z) (n : nat) (v : Z) : list Z :=
  match n with O => [] | S n => sdig log v :: sdigs log n (snext log v) end.
Fixpoint srest (log : Z) (n : nat) (v : Z) : Z :=
  match n with O => v | S n => srest log n (snext log v) end.

Lemma pow_half log : 1 <= log -> 2 ^ log = 2 * 2 ^ (log - 1).
Proof. intros. change 2 with (2 ^ 1) at 2. rewrite <- Z.pow_add_r by lia. f_equal. lia. Qed.

Lemma sdig_range log v : 1 <= log -> - 2 ^ (log - 1) <= sdig log v < 2 ^ (log - 1).
Proof.
  intros H. unfold sdig. pose proof (pow_half log H). pose proof (pow_pos' (log - 1) ltac:(lia)).
  pose proof (Z.mod_pos_bound (v + 2 ^ (log - 1)) (2 ^ log) ltac:(lia)). lia.
Qed.
Lemma sdig_snext log v : 1 <= log -> v = sdig log v + 2 ^ log * snext log v.
Proof.
  intros H. unfold sdig, snext. pose proof (pow_pos' log ltac:(lia)).
  pose proof (Z.div_mod (v + 2 ^ (log - 1)) (2 ^ log) ltac:(lia)). lia.
Qed.
Lemma sdigs_range log n v : 1 <= log -> Forall (fun d => - 2 ^ (log - 1) <= d < 2 ^ (log - 1)) (sdigs log n v).
Proof. intros H. revert v. induction n; intros v; cbn [sdigs]; constructor; auto. now apply sdig_range. Qed.
Lemma sdigs_len log n v : length (sdigs log n v) = n.
Proof. revert v. induction n; intros v; cbn [sdigs length]; auto. Qed.
Lemma sdigs_value log n v : 1 <= log -> v = radix_value log (sdigs log n v) + 2 ^ (log * Z.of_nat n) * srest log n v.
Proof.
  intros H. revert v. induction n; intros v.
  - cbn [sdigs radix_value srest]. change (Z.of_nat 0) with 0. rewrite Z.mul_0_r. change (2 ^ 0) with 1. lia.
  - cbn [sdigs radix_value srest]. rewrite (sdig_snext log v H) at 1. rewrite (IHn (snext log v)) at 1.
    replace (log * Z.of_nat (S n)) with (log + log * Z.of_nat n) by lia. rewrite Z.pow_add_r by lia. ring.
Qed.
Lemma snext_range w log v : 1 <= log -> 0 <= w -> torus w v -> torus w (snext log v).
Proof.
  intros H Hw [Hv Hv']. unfold torus, snext. pose proof (pow_half log H). pose proof (pow_pos' (log - 1) ltac:(lia)). split.
  - apply Z.div_pos; lia.
  - apply Z.div_lt_upper_bound; [lia|]. rewrite H0. nia.
Qed.

(** Digit and carry as the code computes them. *)
Lemma digit_carry log v : 1 <= log -> 0 <= v ->
  let d := v mod 2 ^ log in let c := d / 2 ^ (log - 1) in
  0 <= d < 2 ^ log /\ 0 <= c <= 1 /\ v / 2 ^ log + c = snext log v /\ d - c * 2 ^ log = sdig log v.
Proof.
  intros Hl Hv d c. pose proof (pow_half log Hl) as E. pose proof (pow_pos' (log - 1) ltac:(lia)).
  assert (Hd : 0 <= d < 2 ^ log) by (apply Z.mod_pos_bound; lia).
  pose proof (Z.div_mod v (2 ^ log) ltac:(lia)) as D. fold d in D.
  assert (Hc : 0 <= c <= 1).
  { split; [apply Z.div_pos; lia|]. cut (c < 2); [lia|]. apply Z.div_lt_upper_bound; lia. }
  pose proof (Z.div_mod d (2 ^ (log - 1)) ltac:(lia)) as D2. fold c in D2.
  pose proof (Z.mod_pos_bound d (2 ^ (log - 1)) ltac:(lia)).
  assert (Hn : v / 2 ^ log + c = snext log v).
  { unfold snext. apply (Z.div_unique _ _ _ (d + 2 ^ (log - 1) - c * 2 ^ log)); [left; nia|nia]. }
  split; [assumption|]. split; [assumption|]. split; [assumption|].
  pose proof (sdig_snext log v Hl). nia.
Qed.

Lemma next_mask pr w log : word w -> 1 <= log < w ->
  exists m, (one <- ushl pr 64 1 log ;; usub pr 64 one 1) = Ok m /\ uwrap w m = 2 ^ log - 1.
Proof.
  intros Hw Hl. pose proof (word_le w Hw). rewrite ushl_ok by lia. cbn [bind]. unfold uwrap at 1. rewrite Z.mul_1_l.
  pose proof (pow_pos' log ltac:(lia)).
  assert (2 ^ log < 2 ^ w) by (apply Z.pow_lt_mono_r; lia).
  assert (2 ^ log < 2 ^ 64) by (apply Z.pow_lt_mono_r; lia).
  rewrite Z.mod_small by lia. rewrite usub_ok by lia. eexists. split; [reflexivity|]. apply uwrap_small. unfold torus. lia.
Qed.

Lemma vec_next_ok pr w log v : word w -> 1 <= log < w -> torus w v ->
  vec_next_digit pr w log v = Ok (uwrap w (sdig log v), snext log v).
Proof.
  intros Hw Hl Hv. destruct (next_mask pr w log Hw Hl) as (m & Hm & Em). unfold vec_next_digit.
  destruct (ushl pr 64 1 log) as [one| |]; cbn [bind] in *; try discriminate. rewrite Hm. cbn [bind].
  rewrite Em, land_mask by lia. pose proof (word_pos w Hw).
  rewrite !ushr_ok by lia. cbn [bind]. rewrite usub_ok by lia. cbn [bind]. rewrite ushr_ok by lia. cbn [bind].
  rewrite ushl_ok by lia. cbn [bind].
  destruct (digit_carry log v ltac:(lia) ltac:(destruct Hv; lia)) as (Hd & Hc & Hn & Hs).
  f_equal. f_equal.
  - unfold tsub. apply uwrap_eq. rewrite uwrap_congr. now rewrite Hs.
  - unfold tadd. rewrite Hn. apply uwrap_small. apply snext_range; (lia || assumption).
Qed.
Lemma scalar_next_ok pr w log v : word w -> 1 <= log < w -> torus w v ->
  scalar_next_digit pr w log v = Ok (uwrap w (sdig log v), snext log v).
Proof.
  intros Hw Hl Hv. destruct (next_mask pr w log Hw Hl) as (m & Hm & Em). unfold scalar_next_digit.
  destruct (ushl pr 64 1 log) as [one| |]; cbn [bind] in *; try discriminate. rewrite Hm. cbn [bind].
  rewrite Em, land_mask by lia. pose proof (word_pos w Hw).
  rewrite !ushr_ok by lia. cbn [bind]. rewrite usub_ok by lia. cbn [bind]. rewrite ushr_ok by lia. cbn [bind].
  destruct (digit_carry log v ltac:(lia) ltac:(destruct Hv; lia)) as (Hd & Hc & Hn & Hs).
  assert (Hr : torus w (snext log v)) by (apply snext_range; (lia || assumption)).
  rewrite uadd_ok by (rewrite Hn; destruct Hr; assumption). cbn [bind]. rewrite ushl_ok by lia. cbn [bind].
  rewrite Hn. f_equal. f_equal. unfold tsub. apply uwrap_eq. rewrite uwrap_congr. now rewrite Hs.
Qed.

(** The rounded value that is decomposed. *)
Definition rnd (w log : Z) (count : nat) (x : Z) : Z :=
  let s := w - log * Z.of_nat count in (x + 2 ^ (s - 1)) / 2 ^ s.
Lemma rnd_torus w log count x : word w -> 1 <= log -> (1 <= count)%nat -> log * Z.of_nat count < w -> torus w x ->
  torus w (rnd w log count x).
Proof.
  intros Hw Hl Hc Hs [Hx Hx']. unfold torus, rnd. set (s := w - log * Z.of_nat count). assert (1 <= s) by lia.
  assert (s < w) by (unfold s; nia).
  pose proof (pow_half s ltac:(lia)). pose proof (pow_pos' (s - 1) ltac:(lia)). split; [apply Z.div_pos; lia|].
  apply Z.div_lt_upper_bound; [lia|].
  assert (2 ^ (s - 1) <= 2 ^ w) by (apply Z.pow_le_mono_r; lia). nia.
Qed.
Lemma radix_round_ok pr w log count x : word w -> 1 <= log -> (1 <= count)%nat -> log * Z.of_nat count < w -> torus w x ->
  radix_round pr w log (Z.of_nat count) x = Ok (rnd w log count x).
Proof.
  intros Hw Hl Hc Hs Hx. pose proof (word_pos w Hw). unfold radix_round.
  rewrite usub_ok by lia. cbn [bind]. rewrite usub_ok by lia. cbn [bind]. rewrite !ushr_ok by nia. cbn [bind].
  rewrite land_1. f_equal. unfold tadd. rewrite round_shift by (destruct Hx; nia).
  apply uwrap_small. now apply rnd_torus.
Qed.
(** Rounding error. *)
Lemma rnd_error w log count x : 0 <= w -> 1 <= log -> log * Z.of_nat count < w ->
  Z.abs (rnd w log count x * 2 ^ (w - log * Z.of_nat count) - x) <= 2 ^ (w - log * Z.of_nat count - 1).
Proof.
  intros Hw Hl Hs. unfold rnd. set (s := w - log * Z.of_nat count). assert (1 <= s) by lia.
  pose proof (pow_half s ltac:(lia)). pose proof (pow_pos' (s - 1) ltac:(lia)).
  pose proof (Z.div_mod (x + 2 ^ (s - 1)) (2 ^ s) ltac:(lia)).
  pose proof (Z.mod_pos_bound (x + 2 ^ (s - 1)) (2 ^ s) ltac:(lia)). lia.
Qed.

Lemma scalar_digits_from_ok pr w log n v : word w -> 1 <= log < w -> torus w v ->
  scalar_digits_from pr w log n v = Ok (map (uwrap w) (sdigs log n v)).
Proof.
  intros Hw Hl. revert v. induction n; intros v Hv; cbn [scalar_digits_from sdigs map]; [reflexivity|].
  rewrite scalar_next_ok by assumption. cbn [bind]. rewrite IHn by (apply snext_range; (lia || (pose proof (word_pos w Hw); lia) || assumption)).
  reflexivity.
Qed.

(** What the digits of [x] recompose to. *)
Lemma digits_value w log count x : word w -> 1 <= log -> (1 <= count)%nat -> log * Z.of_nat count < w ->
  near w (2 ^ (w - log * Z.of_nat count - 1))
    (radix_value log (sdigs log count (rnd w log count x)) * 2 ^ (w - log * Z.of_nat count)) x.
Proof.
  intros Hw Hl Hc Hs. pose proof (word_pos w Hw). set (v := rnd w log count x).
  exists (v * 2 ^ (w - log * Z.of_nat count) - x). split; [apply rnd_error; lia|].
  pose proof (sdigs_value log count v Hl) as E. apply zeq_iff; [apply pow2_nz; lia|].
  exists (- srest log count v). rewrite E at 2.
  replace (2 ^ w) with (2 ^ (log * Z.of_nat count) * 2 ^ (w - log * Z.of_nat count)) by (rewrite <- pow_split by lia; f_equal; lia).
  ring.
Qed.

(** ** Linear algebra of phases *)

Lemma near_congr w E x y x' y' : congr w x x' -> congr w y y' -> near w E x y -> near w E x' y'.
Proof.
  intros Hx Hy (e & He & H). exists e. split; [assumption|]. rewrite <- Hx, <- Hy. assumption.
Qed.
Lemma near_refl w x : near w 0 x x. Proof. exists 0. split; [cbn; lia|]. now rewrite Z.add_0_r. Qed.
Lemma near_weaken w E E' x y : E <= E' -> near w E x y -> near w E' x y.
Proof. intros H (e & He & Hc). exists e. split; [lia|assumption]. Qed.
Lemma near_add w E E' x y x' y' : near w E x y -> near w E' x' y' -> near w (E + E') (x + x') (y + y').
Proof.
  intros (e & He & H) (e' & He' & H'). exists (e + e'). split; [lia|]. rewrite H, H'. apply zeq_refl'. ring.
Qed.
Lemma near_sub w E E' x y x' y' : near w E x y -> near w E' x' y' -> near w (E + E') (x - x') (y - y').
Proof.
  intros (e & He & H) (e' & He' & H'). exists (e - e'). split; [lia|]. rewrite H, H'. apply zeq_refl'. ring.
Qed.
Lemma near_mul w E x y c : near w E x y -> near w (Z.abs c * E) (c * x) (c * y).
Proof.
  intros (e & He & H). exists (c * e). split; [rewrite Z.abs_mul; nia|]. rewrite H. apply zeq_refl'. ring.
Qed.
Lemma near_trans w E E' x y z : near w E x y -> near w E' y z -> near w (E + E') x z.
Proof.
  intros (e & He & H) (e' & He' & H'). exists (e' + e). split; [lia|]. rewrite H, H'. apply zeq_refl'. ring.
Qed.
Lemma near_0 w x y : near w 0 x y <-> congr w x y.
Proof.
  split.
  - intros (e & He & H). replace e with 0 in H by lia. now rewrite Z.add_0_r in H.
  - intros H. exists 0. split; [cbn; lia|]. now rewrite Z.add_0_r.
Qed.

Lemma dotz_zip w f g h (a b : list Z) sk :
  (forall x y, congr w (f x y) (g * x + h * y)) -> length a = length b ->
  congr w (dotz (zip_assign f a b) sk) (g * dotz a sk + h * dotz b sk).
Proof.
  intros Hf. revert b sk. induction a as [|x a IH]; intros [|y b] sk Hl; cbn [length] in Hl; try lia; cbn [zip_assign].
  - cbn [dotz]. apply zeq_refl'. ring.
  - destruct sk as [|s sk]; cbn [dotz]; [apply zeq_refl'; ring|]. rewrite Hf, IH by lia. apply zeq_refl'. ring.
Qed.
Lemma zip_assign_len {A B} (f : A -> B -> A) a b : length (zip_assign f a b) = length a.
Proof. revert b. induction a; intros [|y b]; cbn [zip_assign length]; auto. Qed.
Lemma zip_assign_combine {A B C} (f : B -> C -> A) (c : list A) a b : length c = length a -> length c = length b ->
  zip_assign (fun _ xy => f (fst xy) (snd xy)) c (combine a b) = map (fun xy => f (fst xy) (snd xy)) (combine a b).
Proof.
  revert a b. induction c as [|z c IH]; intros [|x a] [|y b]; cbn [length]; intros; try lia; cbn [zip_assign combine map]; [reflexivity|].
  f_equal. apply IH; lia.
Qed.
Lemma dotz_combine w f g h (a b : list Z) sk :
  (forall x y, congr w (f x y) (g * x + h * y)) -> length a = length b ->
  congr w (dotz (map (fun xy => f (fst xy) (snd xy)) (combine a b)) sk) (g * dotz a sk + h * dotz b sk).
Proof.
  intros Hf. revert b sk. induction a as [|x a IH]; intros [|y b] sk Hl; cbn [length] in Hl; try lia; cbn [combine map].
  - cbn [dotz]. apply zeq_refl'. ring.
  - destruct sk as [|s sk]; cbn [dotz fst snd]; [apply zeq_refl'; ring|]. rewrite Hf, IH by lia. apply zeq_refl'. ring.
Qed.
Lemma dotz_map w f g (a : list Z) sk :
  (forall x, congr w (f x) (g * x)) -> congr w (dotz (map f a) sk) (g * dotz a sk).
Proof.
  intros Hf. revert sk. induction a as [|x a IH]; intros [|s sk]; cbn [map dotz]; try (apply zeq_refl'; ring).
  rewrite Hf, IH. apply zeq_refl'. ring.
Qed.
Lemma dotz_zeros (a sk : list Z) : Forall (eq 0) a -> dotz a sk = 0.
Proof. intros H. revert sk. induction H; intros [|s sk]; cbn [dotz]; auto. rewrite <- H, IHForall. ring. Qed.
Lemma repeat_0 n : Forall (eq 0) (repeat 0 n).
Proof. induction n; constructor; auto. Qed.
Lemma map_0 {A} (l : list A) : Forall (eq 0) (map (fun _ => 0) l).
Proof. induction l; constructor; auto. Qed.
Lemma phase_new sk n : lwe_phase sk (lwe_new n) = 0.
Proof. unfold lwe_phase, lwe_new. cbn [lwe_a lwe_b]. rewrite dotz_zeros by apply repeat_0. ring. Qed.

Lemma toruses_zip {B} w (f : Z -> B -> Z) a b : (forall x y, torus w (f x y)) -> toruses w a -> toruses w (zip_assign f a b).
Proof.
  intros Hf H. revert b. induction H; intros [|y b]; cbn [zip_assign]; constructor; auto. apply IHForall.
Qed.
Lemma toruses_map {A} w (f : A -> Z) a : (forall x, torus w (f x)) -> toruses w (map f a).
Proof. intros Hf. induction a; constructor; auto. Qed.
Lemma toruses_repeat w n : 0 <= w -> toruses w (repeat 0 n).
Proof. intros. pose proof (pow_pos' w H). induction n; constructor; auto. split; lia. Qed.

Lemma lwe_scalar_mad_ok w c s a : length (lwe_a c) = length (lwe_a a) ->
  exists c', lwe_scalar_mad w c s a = Ok c' /\ length (lwe_a c') = length (lwe_a c) /\
    (0 <= w -> toruses w (lwe_a c) -> toruses w (lwe_a c')) /\ (0 <= w -> torus w (lwe_b c')) /\
    forall sk, congr w (lwe_phase sk c') (lwe_phase sk c + s * lwe_phase sk a).
Proof.
  intros H. unfold lwe_scalar_mad. apply Nat.eqb_eq in H as H'. rewrite H'. eexists. split; [reflexivity|].
  cbn [lwe_a lwe_b]. split; [apply zip_assign_len|]. split; [intros; apply toruses_zip; auto; intros; now apply uwrap_torus|].
  split; [intros; now apply uwrap_torus|].
  intros sk. unfold lwe_phase. cbn [lwe_a lwe_b].
  rewrite (dotz_zip w _ 1 s (lwe_a c) (lwe_a a)) by (auto; intros; rewrite tadd_congr, tmul_congr; apply zeq_refl'; ring).
  rewrite tadd_congr, tmul_congr. apply zeq_refl'. ring.
Qed.
Lemma lwe_sub_ok w c a b : length (lwe_a c) = length (lwe_a a) -> length (lwe_a c) = length (lwe_a b) ->
  exists c', lwe_sub w c a b = Ok c' /\ length (lwe_a c') = length (lwe_a c) /\
    (0 <= w -> toruses w (lwe_a c')) /\ (0 <= w -> torus w (lwe_b c')) /\
    forall sk, congr w (lwe_phase sk c') (lwe_phase sk a - lwe_phase sk b).
Proof.
  intros H1 H2. unfold lwe_sub. rewrite (proj2 (Nat.eqb_eq _ _) H1), (proj2 (Nat.eqb_eq _ _) H2). cbn [andb].
  eexists. split; [reflexivity|]. cbn [lwe_a lwe_b]. rewrite (zip_assign_combine (tsub w)) by assumption.
  split; [rewrite map_length, combine_length; lia|].
  split; [intros; apply toruses_map; intros; now apply uwrap_torus|]. split; [intros; now apply uwrap_torus|].
  intros sk. unfold lwe_phase. cbn [lwe_a lwe_b].
  rewrite (dotz_combine w (tsub w) 1 (-1) (lwe_a a) (lwe_a b)) by (try congruence; intros; rewrite tsub_congr; apply zeq_refl'; ring).
  rewrite tsub_congr. apply zeq_refl'. ring.
Qed.
Lemma lwe_add_ok w c a : length (lwe_a c) = length (lwe_a a) ->
  exists c', lwe_add_inplace w c a = Ok c' /\ length (lwe_a c') = length (lwe_a c) /\
    (0 <= w -> toruses w (lwe_a c) -> toruses w (lwe_a c')) /\ (0 <= w -> torus w (lwe_b c')) /\
    forall sk, congr w (lwe_phase sk c') (lwe_phase sk c + lwe_phase sk a).
Proof.
  intros H. unfold lwe_add_inplace. rewrite (proj2 (Nat.eqb_eq _ _) H). eexists. split; [reflexivity|].
  cbn [lwe_a lwe_b]. split; [apply zip_assign_len|]. split; [intros; apply toruses_zip; auto; intros; now apply uwrap_torus|].
  split; [intros; now apply uwrap_torus|].
  intros sk. unfold lwe_phase. cbn [lwe_a lwe_b].
  rewrite (dotz_zip w (tadd w) 1 1) by (auto; intros; rewrite tadd_congr; apply zeq_refl'; ring).
  rewrite tadd_congr. apply zeq_refl'. ring.
Qed.
Lemma lwe_neg_ok w c : length (lwe_a (lwe_neg w c)) = length (lwe_a c) /\
    (0 <= w -> lwe_wf w (length (lwe_a c)) (lwe_neg w c)) /\
    forall sk, congr w (lwe_phase sk (lwe_neg w c)) (- lwe_phase sk c).
Proof.
  unfold lwe_neg, lwe_wf, lwe_phase. cbn [lwe_a lwe_b]. rewrite map_length. split; [reflexivity|]. split.
  - intros. split; [reflexivity|]. split; [apply toruses_map; intros|]; now apply uwrap_torus.
  - intros sk. rewrite (dotz_map w (tneg w) (-1)) by (intros; rewrite tneg_congr; apply zeq_refl'; ring).
    rewrite tneg_congr. apply zeq_refl'. ring.
Qed.

Lemma lwe_dot_ok w a sk d : congr w (lwe_dot w a sk d) (d + dotz a sk).
Proof.
  revert sk d. induction a as [|x a IH]; intros [|s sk] d; cbn [lwe_dot dotz]; try (apply zeq_refl'; ring).
  rewrite IH, tadd_congr, tmul_congr. apply zeq_refl'. ring.
Qed.
Lemma lwe_decrypt_raw_ok w dim sk c : dim <> O -> length (lwe_a c) = dim ->
  lwe_decrypt_raw w dim sk c = Ok (lwe_phase sk c mod 2 ^ w).
Proof.
  intros Hd Hl. unfold lwe_decrypt_raw, lwe_dim_valid, lwe_valid. rewrite (proj2 (Nat.eqb_eq _ _) Hl), (proj2 (Nat.eqb_neq _ _) Hd).
  cbn [negb andb]. f_equal. unfold tsub. apply uwrap_eq. rewrite lwe_dot_ok. apply zeq_refl'. unfold lwe_phase. ring.
Qed.

Lemma lwe_enc_loop_ok w a sk mask b : length a = length sk -> length a = length mask ->
  let r := lwe_enc_loop w a sk mask b in fst r = mask /\ congr w (snd r) (b + dotz mask sk).
Proof.
  revert sk mask b. induction a as [|x a IH]; intros [|s sk] [|m mask] b; cbn [length]; intros; try lia; cbn [lwe_enc_loop].
  - cbn [fst snd dotz]. split; [reflexivity|]. apply zeq_refl'. ring.
  - specialize (IH sk mask (tadd w b (tmul w m s)) ltac:(lia) ltac:(lia)).
    destruct (lwe_enc_loop w a sk mask (tadd w b (tmul w m s))) as [a' b']. cbn [fst snd dotz] in *.
    destruct IH as [-> IH]. split; [reflexivity|]. rewrite IH, tadd_congr, tmul_congr. apply zeq_refl'. ring.
Qed.
Lemma lwe_encrypt_ok w dim ct sk msg mask e : dim <> O -> length (lwe_a ct) = dim -> length sk = dim -> length mask = dim ->
  exists c, lwe_encrypt w dim ct sk msg mask e = Ok c /\ lwe_a c = mask /\ (0 <= w -> torus w (lwe_b c)) /\
    congr w (lwe_phase sk c) (msg + e).
Proof.
  intros Hd H1 H2 H3. unfold lwe_encrypt, lwe_dim_valid. rewrite (proj2 (Nat.eqb_neq _ _) Hd). cbn [negb].
  pose proof (lwe_enc_loop_ok w (lwe_a ct) sk mask 0 ltac:(congruence) ltac:(congruence)) as [E1 E2].
  destruct (lwe_enc_loop w (lwe_a ct) sk mask 0) as [a b]. cbn [fst snd] in *. subst a.
  eexists. split; [reflexivity|]. cbn [lwe_a lwe_b]. split; [reflexivity|]. split; [intros; now apply uwrap_torus|].
  unfold lwe_phase. cbn [lwe_a lwe_b]. rewrite !tadd_congr, E2. apply zeq_refl'. ring.
Qed.
