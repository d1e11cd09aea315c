(** GLWE: lemmas. *)
From Verif Require Import Base Alu AluProofs PolyRing Tfhe TfheGlwe SpecTfhe SpecGlwe FluentIntProofs TfheProofs TfheProofs2 TfheProofs3.
Require Import Setoid Morphisms Ring.
Ltac Zify.zify_post_hook ::= idtac.
Open Scope Z_scope.

(** ** Norms *)

Lemma pmul_bound N R G f g : 0 <= R -> pbnd N R f -> l1bnd N G g -> pbnd N (R * G) (pmul N f g).
Proof.
  intros HR Hf Hg k Hk.
  assert (E : pmul N f g k = pmul N g f k).
  { rewrite !pmul_negaconv by assumption. unfold negaconv. rewrite zsum_swap. apply zsum_ext. intros i Hi. apply zsum_ext. intros j Hj.
    rewrite (Nat.add_comm j i). destruct (_ =? _)%nat; [ring|]. destruct (_ =? _)%nat; ring. }
  rewrite E. unfold pmul, psum, pscale. eapply Z.le_trans; [apply zsum_abs|].
  apply (Z.le_trans _ (zsum N (fun i => Z.abs (g i) * R))).
  - apply zsum_le. intros i Hi. rewrite Z.abs_mul. apply Z.mul_le_mono_nonneg_l; [lia|].
    rewrite pxn_closed by lia. destruct (Nat.ltb_spec k i); [rewrite Z.abs_opp|]; apply Hf; lia.
  - rewrite zsum_mulr. unfold l1bnd in Hg. nia.
Qed.
Lemma pbnd_l1 N E f : pbnd N E f -> l1bnd N (Z.of_nat N * E) f.
Proof. intros H. unfold l1bnd. rewrite <- zsum_const. apply zsum_le. intros i Hi. now apply H. Qed.
Lemma pbnd_add N E E' f g : pbnd N E f -> pbnd N E' g -> pbnd N (E + E') (padd f g).
Proof. intros H H' k Hk. unfold padd. specialize (H k Hk). specialize (H' k Hk). lia. Qed.
Lemma pbnd_sub N E E' f g : pbnd N E f -> pbnd N E' g -> pbnd N (E + E') (psub f g).
Proof. intros H H' k Hk. unfold psub. specialize (H k Hk). specialize (H' k Hk). lia. Qed.
Lemma pbnd_opp N E f : pbnd N E f -> pbnd N E (popp f).
Proof. intros H k Hk. unfold popp. specialize (H k Hk). lia. Qed.
Lemma pbnd_weaken N E E' f : E <= E' -> pbnd N E f -> pbnd N E' f.
Proof. intros H H' k Hk. specialize (H' k Hk). lia. Qed.
Lemma pbnd_p0 N : pbnd N 0 p0. Proof. intros k Hk. cbn. lia. Qed.

Section P.
Context (N : nat) (w : Z).
Local Notation "f == g" := (peq N (2 ^ w) f g) (at level 70).
Add Ring poly_ring_w : (poly_ring N (2 ^ w)) (setoid (peq_equiv N (2 ^ w)) (poly_ring_ext N (2 ^ w))).
Local Notation pn := (pnear N w).

Lemma pnear_peq E f g f' g' : f == f' -> g == g' -> pn E f g -> pn E f' g'.
Proof. intros Hf Hg (e & He & H). exists e. split; [assumption|]. rewrite <- Hf, <- Hg. assumption. Qed.
Lemma pnear_refl f g : f == g -> pn 0 f g.
Proof. intros H. exists p0. split; [apply pbnd_p0|]. rewrite H. ring. Qed.
Lemma pnear_0 f g : pn 0 f g -> f == g.
Proof.
  intros (e & He & H). rewrite H. assert (e == p0) as ->; [|ring]. apply peq_exact. intros k Hk. specialize (He k Hk). unfold p0. lia.
Qed.
Lemma pnear_weaken E E' f g : E <= E' -> pn E f g -> pn E' f g.
Proof. intros H (e & He & Hc). exists e. split; [intros k Hk; specialize (He k Hk); lia|assumption]. Qed.
Lemma pnear_add E E' f g f' g' : pn E f g -> pn E' f' g' -> pn (E + E') (padd f f') (padd g g').
Proof. intros (e & He & H) (e' & He' & H'). exists (padd e e'). split; [now apply pbnd_add|]. rewrite H, H'. ring. Qed.
Lemma pnear_sub E E' f g f' g' : pn E f g -> pn E' f' g' -> pn (E + E') (psub f f') (psub g g').
Proof. intros (e & He & H) (e' & He' & H'). exists (psub e e'). split; [now apply pbnd_sub|]. rewrite H, H'. ring. Qed.
Lemma pnear_opp E f g : pn E f g -> pn E (popp f) (popp g).
Proof. intros (e & He & H). exists (popp e). split; [now apply pbnd_opp|]. rewrite H. ring. Qed.
Lemma pnear_trans E E' f g h : pn E f g -> pn E' g h -> pn (E + E') f h.
Proof. intros (e & He & H) (e' & He' & H'). exists (padd e e'). split; [now apply pbnd_add|]. rewrite H, H'. ring. Qed.
(** Multiplying by a polynomial whose coefficients are at most [D]. *)
Lemma pnear_mul D E d f g : 0 <= D -> pbnd N D d -> pn E f g -> pn (D * (Z.of_nat N * E)) (pmul N d f) (pmul N d g).
Proof.
  intros HD Hd (e & He & H). exists (pmul N d e). split; [apply pmul_bound; [lia|assumption|now apply pbnd_l1]|]. rewrite H. ring.
Qed.
(** Multiplying by a polynomial with small 1-norm. *)
Lemma pnear_mul_l1 M E m f g : 0 <= E -> l1bnd N M m -> pn E f g -> pn (E * M) (pmul N f m) (pmul N g m).
Proof.
  intros HE Hm (e & He & H). exists (pmul N e m). split; [now apply pmul_bound|]. rewrite H. ring.
Qed.
Lemma pnear_coef E f g k : (k < N)%nat -> pn E f g -> near w E (f k) (g k).
Proof. intros Hk (e & He & H). exists (e k). split; [now apply He|]. exact (H k Hk). Qed.

(** ** Shapes *)

Lemma polys_valid_iff k l : polys_valid N k l = true <-> polys_shape N k l.
Proof.
  unfold polys_valid, polys_shape. rewrite andb_true_iff, Nat.eqb_eq, forallb_forall, Forall_forall.
  apply and_iff_compat_l. split; intros H x Hx; specialize (H x Hx); now apply Nat.eqb_eq.
Qed.
Lemma glwe_valid_iff k c : glwe_valid N k c = true <-> glwe_shape N k c.
Proof. unfold glwe_valid, glwe_shape. now rewrite andb_true_iff, Nat.eqb_eq, polys_valid_iff. Qed.
Lemma zpoly_len : length (zpoly N) = N. Proof. apply repeat_length. Qed.
Lemma zpoly_coef : coef (zpoly N) == p0. Proof. apply coef_zeros, repeat_0. Qed.
Lemma glwe_new_shape k : glwe_shape N k (glwe_new N k).
Proof.
  split; [|apply zpoly_len]. split; [apply repeat_length|]. cbn [ga]. apply Forall_forall. intros x Hx. apply repeat_spec in Hx. subst. apply zpoly_len.
Qed.
Lemma glwe_new_wf k : 0 <= w -> glwe_wf w N k (glwe_new N k).
Proof.
  intros Hw. split; [apply glwe_new_shape|]. split; [|now apply toruses_repeat]. cbn [ga]. apply Forall_forall. intros x Hx. apply repeat_spec in Hx. subst. now apply toruses_repeat.
Qed.

Lemma pdots_zero a sk : Forall (Forall (eq 0)) a -> pdots N a sk == p0.
Proof.
  intros H. revert sk. induction H as [|x a Hx H IH]; intros [|s sk]; cbn [pdots]; try reflexivity. rewrite (IH sk), (coef_zeros w N x Hx). ring.
Qed.
Lemma glwe_phase_new k sk : glwe_phase N sk (glwe_new N k) == p0.
Proof.
  unfold glwe_phase. cbn [ga gb glwe_new]. rewrite zpoly_coef, pdots_zero; [ring|]. apply Forall_forall. intros x Hx. apply repeat_spec in Hx. subst. apply repeat_0.
Qed.

(** ** Sums of products *)

Lemma glwe_dot_ok k a sk tmp : is_pow2 N = true -> polys_shape N k a -> polys_shape N k sk -> length tmp = N ->
  exists r, glwe_dot w a sk tmp = Ok r /\ length r = N /\ (0 <= w -> toruses w tmp -> toruses w r) /\ coef r == padd (coef tmp) (pdots N a sk).
Proof.
  intros Hp. revert k sk tmp. induction a as [|x a IH]; intros k [|s sk] tmp [La Fa] [Ls Fs] Ht; cbn [length] in *; try lia; cbn [glwe_dot].
  - exists tmp. split; [reflexivity|]. split; [assumption|]. split; [auto|]. cbn [pdots]. ring.
  - apply Forall_cons_iff in Fa as [Hx Fa]. apply Forall_cons_iff in Fs as [Hs Fs].
    destruct (poly_mad_ok w N tmp x s) as (r1 & E1 & L1 & T1 & P1); try assumption.
    rewrite E1. cbn [bind]. destruct (IH (length a) sk r1) as (r & E & L & T & P); try (split; (lia || assumption)); [assumption|].
    exists r. split; [assumption|]. split; [assumption|]. split; [auto|]. rewrite P, P1. cbn [pdots]. ring.
Qed.

Lemma glwe_enc_loop_ok k a sk masks tmp : is_pow2 N = true -> length a = k -> polys_shape N k sk -> polys_shape N k masks -> length tmp = N ->
  exists t, glwe_enc_loop w a sk masks tmp = Ok (masks, t) /\ length t = N /\ (0 <= w -> toruses w tmp -> toruses w t) /\
    coef t == padd (coef tmp) (pdots N masks sk).
Proof.
  intros Hp. revert k sk masks tmp. induction a as [|x a IH]; intros k [|s sk] [|m masks] tmp La [Ls Fs] [Lm Fm] Ht; cbn [length] in *; try lia; cbn [glwe_enc_loop].
  - exists tmp. split; [reflexivity|]. split; [assumption|]. split; [auto|]. cbn [pdots]. ring.
  - apply Forall_cons_iff in Fs as [Hs Fs]. apply Forall_cons_iff in Fm as [Hm Fm].
    destruct (poly_mad_ok w N tmp m s) as (r1 & E1 & L1 & T1 & P1); try assumption.
    rewrite E1. cbn [bind]. destruct (IH (length a) sk masks r1) as (t & E & L & T & P); try (split; (lia || assumption)); try assumption; try reflexivity.
    rewrite E. cbn [bind]. exists t. split; [reflexivity|]. split; [assumption|]. split; [auto|]. rewrite P, P1. cbn [pdots]. ring.
Qed.

Definition err_poly (e : option (list Z)) : poly := match e with None => p0 | Some e => coef e end.

Lemma len_add a b : length (poly_add_assign w a b) = length a. Proof. apply zip_assign_len. Qed.

(** Encryption into a buffer [c]: the phase is message plus error plus what was in the buffer's body. *)
Lemma glwe_encrypt_ok k c msg sk masks e : is_pow2 N = true -> glwe_shape N k c -> length msg = N -> polys_shape N k sk -> polys_shape N k masks ->
  match e with None => True | Some e => length e = N end ->
  exists c', glwe_encrypt w N c msg sk masks e = Ok c' /\ ga c' = masks /\ glwe_shape N k c' /\
    (0 <= w -> toruses w (gb c) -> toruses w (gb c')) /\
    glwe_phase N sk c' == padd (padd (coef msg) (err_poly e)) (coef (gb c)).
Proof.
  intros Hp [[La Fa] Lb] Hm Hs Hk He. unfold glwe_encrypt.
  destruct (glwe_enc_loop_ok k (ga c) sk masks (zpoly N) Hp La Hs Hk zpoly_len) as (t & E & L & T & P). rewrite E. cbn [bind].
  eexists. split; [reflexivity|]. cbn [ga gb]. split; [reflexivity|].
  assert (HL : length (match e with None => poly_add_assign w (poly_add_assign w (gb c) t) msg | Some e => poly_add_assign w (poly_add_assign w (poly_add_assign w (gb c) t) msg) e end) = N)
    by (destruct e; rewrite !len_add; assumption).
  split; [split; assumption|]. split.
  { intros Hw Hb. destruct e; repeat (apply toruses_zip; [intros; now apply uwrap_torus|]); assumption. }
  unfold glwe_phase. cbn [ga gb].
  assert (P1 : coef (poly_add_assign w (poly_add_assign w (gb c) t) msg) == padd (padd (coef (gb c)) (pdots N masks sk)) (coef msg)).
  { rewrite coef_add by (rewrite ?len_add; assumption). rewrite coef_add by assumption. rewrite P, zpoly_coef. ring. }
  destruct e as [e|]; cbn [err_poly].
  - rewrite coef_add by (rewrite ?len_add; assumption). rewrite P1. ring.
  - rewrite P1. ring.
Qed.

Lemma zip_copy {A} (l r : list A) : length l = length r -> zip_assign (fun _ x => x) l r = r.
Proof. revert r. induction l; intros [|y r] H; cbn in H; try lia; cbn [zip_assign]; [reflexivity|]. f_equal. apply IHl. lia. Qed.

Lemma glwe_decrypt_ok k msg ct sk : is_pow2 N = true -> length msg = N -> glwe_shape N k ct -> polys_shape N k sk ->
  exists m, glwe_decrypt w msg ct sk = Ok m /\ length m = N /\ (0 <= w -> toruses w (gb ct) -> toruses w m) /\ coef m == glwe_phase N sk ct.
Proof.
  intros Hp Hm [Sa Lb] Hs. unfold glwe_decrypt. rewrite Lb. rewrite zip_copy by congruence.
  destruct (glwe_dot_ok k (ga ct) sk (zpoly N) Hp Sa Hs zpoly_len) as (t & E & L & T & P). rewrite E. cbn [bind].
  eexists. split; [reflexivity|]. split; [unfold poly_sub_assign; now rewrite zip_assign_len|].
  split; [intros; apply toruses_zip; [intros; now apply uwrap_torus|assumption]|].
  rewrite coef_sub by assumption. rewrite P, zpoly_coef. unfold glwe_phase. ring.
Qed.

Lemma glwe_trivial_ok k c msg : glwe_shape N k c -> length msg = N ->
  glwe_shape N k (glwe_trivial c msg) /\ gb (glwe_trivial c msg) = msg /\ (0 <= w -> toruses w msg -> glwe_wf w N k (glwe_trivial c msg)) /\
  forall sk, glwe_phase N sk (glwe_trivial c msg) == coef msg.
Proof.
  intros [[La Fa] Lb] Hm. unfold glwe_trivial. rewrite zip_copy by congruence. cbn [gb].
  assert (Sh : glwe_shape N k {| ga := map (map (fun _ => 0)) (ga c); gb := msg |}).
  { split; [|assumption]. split; [cbn [ga]; now rewrite map_length|]. cbn [ga]. apply Forall_forall. intros x Hx. apply in_map_iff in Hx as (y & <- & Hy).
    rewrite map_length. exact (proj1 (Forall_forall _ _) Fa y Hy). }
  split; [assumption|]. split; [reflexivity|]. split.
  { intros Hw Ht. split; [assumption|]. split; [|assumption]. cbn [ga]. apply Forall_forall. intros x Hx. apply in_map_iff in Hx as (y & <- & Hy).
    apply toruses_map. intros _. split; [lia|]. apply pow_pos'. lia. }
  intros sk. unfold glwe_phase. cbn [ga gb]. rewrite pdots_zero; [ring|]. apply Forall_forall. intros x Hx. apply in_map_iff in Hx as (y & <- & Hy). apply map_0.
Qed.

(** ** Linear operations *)

Lemma zip2M_ok k (f : list Z -> list Z -> res (list Z)) (g h : poly) c a : polys_shape N k c -> polys_shape N k a ->
  (forall x y, length x = N -> length y = N -> exists r, f x y = Ok r /\ length r = N /\ (0 <= w -> toruses w x -> toruses w r) /\ coef r == padd (pmul N g (coef x)) (pmul N h (coef y))) ->
  exists r, zip2M f c a = Ok r /\ polys_shape N k r /\ (0 <= w -> Forall (toruses w) c -> Forall (toruses w) r) /\
    forall sk, pdots N r sk == padd (pmul N g (pdots N c sk)) (pmul N h (pdots N a sk)).
Proof.
  intros Hc Ha Hf. revert k a Hc Ha. induction c as [|x c IH]; intros k [|y a] [Lc Fc] [La Fa]; cbn [length] in *; try lia; cbn [zip2M].
  - exists []. split; [reflexivity|]. split; [split; auto|]. split; [auto|]. intros sk. destruct sk; cbn [pdots]; ring.
  - apply Forall_cons_iff in Fc as [Hxc Fc]. apply Forall_cons_iff in Fa as [Hxa Fa]. destruct (Hf x y) as (r & E & L & T & P); try assumption; try congruence. rewrite E. cbn [bind].
    destruct (IH (length c) a) as (r' & E' & [L' F'] & T' & P'); try (split; (lia || assumption)). rewrite E'. cbn [bind].
    exists (r :: r'). split; [reflexivity|]. split; [split; [cbn; lia|constructor; assumption]|].
    split. { intros Hw Ht. apply Forall_cons_iff in Ht as [H1 H2]. constructor; auto. }
    intros [|s sk]; cbn [pdots]; [ring|]. rewrite P, P'. ring.
Qed.
Lemma zip3M_ok k (f : list Z -> list Z -> list Z -> res (list Z)) (g h : poly) c a b : polys_shape N k c -> polys_shape N k a -> polys_shape N k b ->
  (forall z x y, In x a -> In y b -> length z = N -> length x = N -> length y = N -> exists r, f z x y = Ok r /\ length r = N /\ (0 <= w -> toruses w r) /\ coef r == padd (pmul N g (coef x)) (pmul N h (coef y))) ->
  exists r, zip3M f c a b = Ok r /\ polys_shape N k r /\ (0 <= w -> Forall (toruses w) r) /\
    forall sk, pdots N r sk == padd (pmul N g (pdots N a sk)) (pmul N h (pdots N b sk)).
Proof.
  revert k a b. induction c as [|z c IH]; intros k [|x a] [|y b] [Lc Fc] [La Fa] [Lb Fb] Hf; cbn [length] in *; try lia; cbn [zip3M].
  - exists []. split; [reflexivity|]. split; [split; auto|]. split; [auto|]. intros sk. destruct sk; cbn [pdots]; ring.
  - apply Forall_cons_iff in Fc as [Hxc Fc]. apply Forall_cons_iff in Fa as [Hxa Fa]. apply Forall_cons_iff in Fb as [Hxb Fb]. destruct (Hf z x y) as (r & E & L & T & P); try (now left); try assumption; try congruence. rewrite E. cbn [bind].
    destruct (IH (length c) a b) as (r' & E' & [L' F'] & T' & P'); try (split; (lia || assumption)). { intros; apply Hf; try (now right); assumption. }
    rewrite E'. cbn [bind].
    exists (r :: r'). split; [reflexivity|]. split; [split; [cbn; lia|constructor; assumption]|].
    split. { intros Hw. constructor; auto. }
    intros [|s sk]; cbn [pdots]; [ring|]. rewrite P, P'. ring.
Qed.

Lemma glwe_poly_mad_ok k c a b : is_pow2 N = true -> glwe_shape N k c -> glwe_shape N k a -> length b = N ->
  exists c', glwe_poly_mad w k c a b = Ok c' /\ glwe_shape N k c' /\ (0 <= w -> glwe_wf w N k c -> glwe_wf w N k c') /\
    forall sk, glwe_phase N sk c' == padd (glwe_phase N sk c) (pmul N (coef b) (glwe_phase N sk a)).
Proof.
  intros Hp [Sc Lc] [Sa La] Hb. unfold glwe_poly_mad. rewrite (proj2 (Nat.eqb_eq _ _) (proj1 Sc)), (proj2 (Nat.eqb_eq _ _) (proj1 Sa)). cbn [andb].
  destruct (zip2M_ok k (fun c a => poly_mad w c a b) p1 (coef b) (ga c) (ga a) Sc Sa) as (r & E & S & T & P).
  { intros x y Hx Hy. destruct (poly_mad_ok w N x y b Hp Hy Hb Hx) as (r & E & L & T & P). exists r. split; [assumption|]. split; [assumption|]. split; [assumption|]. rewrite P. ring. }
  rewrite E. cbn [bind]. destruct (poly_mad_ok w N (gb c) (gb a) b Hp La Hb Lc) as (r' & E' & L' & T' & P'). rewrite E'. cbn [bind].
  eexists. split; [reflexivity|]. split; [split; assumption|]. split.
  { intros Hw (Sh & F1 & F2). split; [split; assumption|]. cbn [ga gb]. auto. }
  intros sk. unfold glwe_phase. cbn [ga gb]. rewrite P, P'. ring.
Qed.
End P.
