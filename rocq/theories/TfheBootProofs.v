(** Bootstrapping: modulus switching, rotation, CMUX, blind rotation. *)
From Verif Require Import Base Alu AluProofs PolyRing Tfhe TfheGlwe TfheBoot SpecTfhe SpecGlwe SpecBoot FluentIntProofs TfheProofs TfheProofs2 TfheProofs3 TfheGlweProofs TfheGlweProofs2 TfheGlweProofs3 TfheGlweProofs4.
Require Import Setoid Morphisms Ring.
Ltac Zify.zify_post_hook ::= idtac.
Open Scope Z_scope.

(** ** Modulus switching *)

Lemma mod_switch_ok pr w x chi v L : word w -> torus w x -> 0 <= chi < w -> 0 <= v < L -> L < w ->
  exists y, mod_switch pr w x chi v L = Ok y /\ torus w y /\ (2 ^ v | y) /\
    near w (2 ^ (w - L + v - 1)) (y * 2 ^ (w - L)) (x * 2 ^ chi).
Proof.
  intros Hw Hx Hc Hv HL. pose proof (word_pos w Hw). pose proof (word_le w Hw).
  unfold mod_switch.
  rewrite ushl_ok by lia. cbn [bind].
  assert (P1 : 1 < 2 ^ L < 2 ^ w) by (split; [apply Z.pow_gt_1; lia|apply Z.pow_lt_mono_r; lia]).
  assert (U1 : uwrap w (1 * 2 ^ L) = 2 ^ L) by (rewrite Z.mul_1_l; apply uwrap_small; unfold torus; lia).
  rewrite U1. rewrite usub_ok by lia. cbn [bind].
  rewrite ushl_ok by lia. cbn [bind].
  rewrite (usub_ok pr 64 L v) by lia. cbn [bind]. rewrite (usub_ok pr 64 w) by lia. cbn [bind].
  set (sh := w - (L - v)). rewrite (usub_ok pr 64 sh 1) by lia. cbn [bind].
  rewrite !ushr_ok by lia. cbn [bind].
  set (x1 := uwrap w (x * 2 ^ chi)). assert (Hx1 : torus w x1) by (apply uwrap_torus; lia).
  rewrite land_1. unfold tadd. rewrite round_shift by (destruct Hx1; lia).
  set (r := (x1 + 2 ^ (sh - 1)) / 2 ^ sh).
  assert (Psh : 0 < 2 ^ sh) by (apply pow_pos'; lia). assert (Psh1 : 0 < 2 ^ (sh - 1)) by (apply pow_pos'; lia).
  assert (Esh : 2 ^ sh = 2 * 2 ^ (sh - 1)) by (rewrite <- Z.pow_succ_r by lia; f_equal; lia).
  assert (Ew : 2 ^ w = 2 ^ sh * 2 ^ (L - v)) by (rewrite <- Z.pow_add_r by lia; f_equal; unfold sh; lia).
  assert (PLv : 0 < 2 ^ (L - v)) by (apply pow_pos'; lia).
  assert (Hr0 : 0 <= r) by (apply Z.div_pos; destruct Hx1; lia).
  assert (Hr1 : r <= 2 ^ (L - v)). { apply Z.lt_succ_r. apply Z.div_lt_upper_bound; [lia|]. destruct Hx1. nia. }
  assert (Hrw : r < 2 ^ w). { assert (2 ^ (L - v) < 2 ^ w) by (apply Z.pow_lt_mono_r; lia). lia. }
  rewrite uwrap_small by (unfold torus; lia).
  rewrite land_mask by lia. rewrite ushl_ok by lia.
  eexists. split; [reflexivity|]. split; [apply uwrap_torus; lia|].
  pose proof (Z.div_mod (x1 + 2 ^ (sh - 1)) (2 ^ sh) ltac:(lia)) as DM. fold r in DM.
  pose proof (Z.mod_pos_bound (x1 + 2 ^ (sh - 1)) (2 ^ sh) Psh) as MB.
  set (mm := (x1 + 2 ^ (sh - 1)) mod 2 ^ sh) in *.
  assert (E2 : 2 ^ w = 2 ^ v * 2 ^ (w - v)) by (rewrite <- Z.pow_add_r by lia; f_equal; lia).
  assert (C : congr w (uwrap w (r mod 2 ^ L * 2 ^ v)) (r mod 2 ^ L * 2 ^ v)) by apply uwrap_congr.
  split.
  - unfold uwrap. rewrite E2. rewrite (Z.mul_comm (r mod _)). rewrite Z.mul_mod_distr_l by (try apply Z.pow_nonzero; lia).
    exists ((r mod 2 ^ L) mod 2 ^ (w - v)). ring.
  - exists (2 ^ (sh - 1) - mm). split.
    + replace (w - L + v - 1) with (sh - 1) by (unfold sh; lia). lia.
    + transitivity (r mod 2 ^ L * 2 ^ v * 2 ^ (w - L)). { now apply zeq_mul. }
      transitivity (r * 2 ^ sh).
      * apply zeq_iff; [lia|]. pose proof (Z.div_mod r (2 ^ L) ltac:(lia)) as D2.
        exists (- (r / 2 ^ L) * 2 ^ v).
        assert (E3 : 2 ^ w = 2 ^ L * 2 ^ (w - L)) by (rewrite <- Z.pow_add_r by lia; f_equal; lia).
        assert (E4 : 2 ^ sh = 2 ^ v * 2 ^ (w - L)) by (rewrite <- Z.pow_add_r by lia; f_equal; unfold sh; lia).
        rewrite E3, E4. rewrite D2 at 2. ring.
      * transitivity (x1 + (2 ^ (sh - 1) - mm)). { apply zeq_refl'. lia. }
        apply zeq_add; [|reflexivity]. unfold x1. apply uwrap_congr.
Qed.

Lemma dotz_scaled_near w Q c d s : binary s -> 0 <= Q -> forall a' a, length a = length s ->
  Forall2 (fun y x => near w Q (y * c) (x * d)) a' a ->
  near w (Z.of_nat (length s) * Q) (dotz a' s * c) (dotz a s * d).
Proof.
  intros Hb HQ. induction Hb as [|y s Hy Hb IH]; intros a' a Hl H.
  - destruct a as [|x a]; [|discriminate]. inversion H; subst. cbn [dotz length]. apply near_refl.
  - destruct a as [|x a]; [discriminate|]. inversion H as [|y' x' a'' ? Hn H']; subst. cbn [length] in Hl. cbn [dotz].
    specialize (IH a'' a ltac:(lia) H').
    apply (near_congr w _ (y' * c * y + dotz a'' s * c) (x * d * y + dotz a s * d)); [apply zeq_refl'; ring|apply zeq_refl'; ring|].
    apply (near_weaken w (Q + Z.of_nat (length s) * Q)); [cbn [length]; nia|]. apply near_add; [|assumption].
    destruct Hy as [-> | ->].
    + rewrite !Z.mul_0_r. apply (near_weaken w 0); [assumption|]. apply near_refl.
    + rewrite !Z.mul_1_r. assumption.
Qed.
Lemma dotz_div (g : Z) a s : Forall (fun x => (g | x)) a -> (g | dotz a s).
Proof.
  intros H. revert s. induction H as [|x a Hx H IH]; intros [|y s]; cbn [dotz]; try apply Z.divide_0_r.
  apply Z.divide_add_r; [now apply Z.divide_mul_l|apply IH].
Qed.

Lemma lwe_mod_switch_ok pr w n c chi v L : word w -> lwe_wf w n c -> 0 <= chi < w -> 0 <= v < L -> L < w ->
  exists c', lwe_mod_switch pr w c chi v L = Ok c' /\ lwe_wf w n c' /\
    forall s, binary s -> length s = n ->
      (2 ^ v | lwe_phase s c') /\
      near w ((Z.of_nat n + 1) * 2 ^ (w - L + v - 1)) (lwe_phase s c' * 2 ^ (w - L)) (lwe_phase s c * 2 ^ chi).
Proof.
  intros Hw (Hl & Ha & Hb) Hc Hv HL. unfold lwe_mod_switch.
  assert (exists a', mapM (fun x => mod_switch pr w x chi v L) (lwe_a c) = Ok a' /\ length a' = length (lwe_a c) /\
     toruses w a' /\ Forall (fun x => (2 ^ v | x)) a' /\ Forall2 (fun y x => near w (2 ^ (w - L + v - 1)) (y * 2 ^ (w - L)) (x * 2 ^ chi)) a' (lwe_a c)) as (a' & Ea & La & Ta & Da & Na).
  { clear Hl Hb. induction Ha as [|x a Hx Ha IH]; [exists []; repeat split; constructor|].
    destruct IH as (a' & E & L1 & T1 & D1 & N1). destruct (mod_switch_ok pr w x chi v L Hw Hx Hc Hv HL) as (y & E' & Ty & Dy & Ny).
    exists (y :: a'). cbn [mapM]. rewrite E'. cbn [bind]. rewrite E. cbn [bind length]. repeat split; try constructor; auto. }
  destruct (mod_switch_ok pr w (lwe_b c) chi v L Hw Hb Hc Hv HL) as (b' & Eb & Tb & Db & Nb).
  rewrite Ea. cbn [bind]. rewrite Eb. cbn [bind]. eexists. split; [reflexivity|].
  split; [repeat split; cbn [lwe_a lwe_b]; try assumption; congruence || apply Tb|].
  intros s Hs Ls. unfold lwe_phase. cbn [lwe_a lwe_b]. split; [apply Z.divide_sub_r; [assumption|now apply dotz_div]|].
  assert (0 < 2 ^ (w - L + v - 1)) by (apply pow_pos'; lia).
  apply (near_congr w _ (b' * 2 ^ (w - L) - dotz a' s * 2 ^ (w - L)) (lwe_b c * 2 ^ chi - dotz (lwe_a c) s * 2 ^ chi)); [apply zeq_refl'; ring|apply zeq_refl'; ring|].
  replace ((Z.of_nat n + 1) * 2 ^ (w - L + v - 1)) with (2 ^ (w - L + v - 1) + Z.of_nat (length s) * 2 ^ (w - L + v - 1)) by (rewrite Ls; ring).
  apply near_sub; [assumption|]. apply dotz_scaled_near; try assumption; [lia|congruence].
Qed.

Section P.
Context (N : nat) (w : Z).
Local Notation "f == g" := (peq N (2 ^ w) f g) (at level 70).
Add Ring poly_ring_w5 : (poly_ring N (2 ^ w)) (setoid (peq_equiv N (2 ^ w)) (poly_ring_ext N (2 ^ w))).
Local Notation pn := (pnear N w).

(** ** Monomials *)

Lemma pmono_idx n k : (k < N)%nat -> (Z.to_nat ((Z.of_nat k - n) mod Z.of_nat N) < N)%nat.
Proof. intros Hk. pose proof (Z.mod_pos_bound (Z.of_nat k - n) (Z.of_nat N) ltac:(lia)). lia. Qed.
Lemma pmono_padd n f g k : pmono N n (padd f g) k = pmono N n f k + pmono N n g k.
Proof. unfold pmono, padd. ring. Qed.
Lemma pnear_mono E n f g : pn E f g -> pn E (pmono N n f) (pmono N n g).
Proof.
  intros (e & He & Hf). exists (pmono N n e). split.
  - intros k Hk. unfold pmono. pose proof (He _ (pmono_idx n k Hk)). destruct (Z.even _); lia.
  - transitivity (pmono N n (padd g e)); [now apply pmono_mor|]. intros k Hk. apply zeq_refl'. apply pmono_padd.
Qed.
Lemma pmono_as_mul n f : (0 < N)%nat -> pmono N n f == pmul N (pmono N n p1) f.
Proof.
  intros HN. symmetry. transitivity (pmono N n (pmul N p1 f)); [now apply pmono_mul_l|]. apply pmono_mor. ring.
Qed.

Lemma zip_copy_poly o a : length o = N -> length a = N -> zip_assign (fun _ x : Z => x) o a = a.
Proof. intros. apply zip_copy. congruence. Qed.
Lemma zip_self {A} (f : A -> A) (l l' : list A) : length l = length l' -> zip_assign (fun x (_ : A) => f x) l l' = map f l.
Proof. revert l'. induction l; intros [|y l'] H; try discriminate; cbn; [reflexivity|]. f_equal. apply IHl. now injection H. Qed.

Lemma glwe_rot_ok k out ct r : word w -> (0 < N)%nat -> glwe_shape N k out -> glwe_wf w N k ct ->
  glwe_wf w N k (glwe_rot w out ct r) /\
  forall sk, glwe_phase N sk (glwe_rot w out ct r) == pmono N r (glwe_phase N sk ct).
Proof.
  intros Hw HN ((Lo & Fo) & Lob) (((Lc & Fc) & Lcb) & Tc & Tcb). pose proof (word_pos w Hw) as Wp.
  set (rot := fun x => poly_rot w x r).
  assert (E : ga (glwe_rot w out ct r) = zip_assign (fun x _ => rot x) (ga ct) (ga ct)).
  { cbn [glwe_rot ga]. rewrite zip_self by reflexivity.
    revert Fo. assert (Hl : length (ga out) = length (ga ct)) by congruence. revert Hl. generalize (ga out). clear Lo Lc Tc.
    induction (ga ct) as [|a l IH]; intros [|o lo] Hl Fo; try discriminate; cbn [zip_assign map]; [reflexivity|].
    apply Forall_cons_iff in Fo as [? Fo]. apply Forall_cons_iff in Fc as [? Fc]. cbn [length] in Hl.
    rewrite zip_copy_poly by assumption. f_equal. apply IH; auto. }
  assert (Eb : gb (glwe_rot w out ct r) = rot (gb ct)). { cbn [glwe_rot gb]. now rewrite zip_copy_poly. }
  assert (Hrot : forall x, length x = N -> coef (rot x) == pmul N (pmono N r p1) (coef x)).
  { intros x Hx. unfold rot. pose proof (poly_rot_ok w x r) as Q. rewrite Hx in Q. transitivity (pmono N r (coef x)); [assumption|]. now apply pmono_as_mul. }
  destruct (zipL_ok N w k (fun x _ => rot x) (pmono N r p1) p0 (ga ct) (ga ct)) as (S1 & T1 & D1); [split; assumption|split; assumption| |].
  { intros x y Hx Hy. split; [unfold rot; now rewrite poly_rot_len|]. split; [intros; now apply poly_rot_torus|].
    rewrite (Hrot x Hx). ring. }
  split.
  - unfold glwe_wf, glwe_shape. rewrite E, Eb. split; [split; [assumption|unfold rot; now rewrite poly_rot_len]|].
    split; [apply T1; [lia|assumption]|apply poly_rot_torus; [lia|assumption]].
  - intros sk. unfold glwe_phase. rewrite E, Eb. rewrite (pmono_as_mul r _ HN). rewrite (Hrot _ Lcb), D1. ring.
Qed.

(** ** CMUX *)

Lemma glwe_perturb_ok k c d : word w -> glwe_wf w N k c -> glwe_shape N k d ->
  glwe_wf w N k (glwe_perturb w c d) /\
  forall sk, glwe_phase N sk (glwe_perturb w c d) == padd (glwe_phase N sk c) (glwe_phase N sk d).
Proof.
  intros Hw (((Lc & Fc) & Lcb) & Tc & Tcb) ((Ld & Fd) & Ldb). pose proof (word_pos w Hw).
  assert (TA : forall x y, toruses w x -> length x = length y -> toruses w (poly_add_assign w x y)).
  { intros x y Hx Hl. apply toruses_zip; [|assumption]. intros. apply uwrap_torus; lia. }
  destruct (zipL_ok N w k (poly_add_assign w) p1 p1 (ga c) (ga d)) as (S1 & T1 & D1); [split; assumption|split; assumption| |].
  { intros x y Hx Hy. split; [now rewrite len_add|]. split; [intros; apply TA; [assumption|congruence]|].
    rewrite (coef_add w N x y Hx Hy). ring. }
  split.
  - split; [split; [exact S1|cbn; now rewrite len_add]|]. split; [apply T1; [lia|assumption]|cbn; apply TA; [assumption|congruence]].
  - intros sk. unfold glwe_phase. cbn [glwe_perturb ga gb]. rewrite (coef_add w N _ _ Lcb Ldb), D1. ring.
Qed.

Lemma pdots_bnd D k a sk : 0 <= D -> polys_shape N k a -> polys_shape N k sk -> binary_polys sk ->
  Forall (Forall (fun x => Z.abs x <= D)) a -> pbnd N (D * (Z.of_nat k * Z.of_nat N)) (pdots N a sk).
Proof.
  intros HD (La & Fa) (Ls & Fs) Hb Ha. revert k sk La Ls Fs Hb.
  induction Ha as [|x a Hx Ha IH]; intros k sk La Ls Fs Hb; cbn [length pdots] in *.
  - intros i Hi. cbn. nia.
  - destruct sk as [|s sk]; [cbn [length] in *; intros i Hi; cbn; nia|]. cbn [length] in *. destruct k as [|k]; [lia|].
    apply Forall_cons_iff in Fa as [Lx Fa]. apply Forall_cons_iff in Fs as [Lss Fs]. apply Forall_cons_iff in Hb as [Hbs Hb].
    apply (pbnd_weaken N (D * Z.of_nat N + D * (Z.of_nat k * Z.of_nat N))); [nia|]. apply pbnd_add.
    + apply pmul_bound; [assumption| |now apply l1bnd_binary]. intros i Hi. unfold coef.
      apply (proj1 (Forall_forall _ _) Hx). apply nth_In. lia.
    + apply IH; auto.
Qed.
Lemma fft_err_phase k D d sk : 0 <= D -> fft_err N k D d -> polys_shape N k sk -> binary_polys sk ->
  pn (D * (1 + Z.of_nat k * Z.of_nat N)) (glwe_phase N sk d) p0.
Proof.
  intros HD ((Sa & Lb) & Fa & Fb) Hs Hb. exists (glwe_phase N sk d). split; [|ring].
  replace (D * (1 + Z.of_nat k * Z.of_nat N)) with (D + D * (Z.of_nat k * Z.of_nat N)) by ring.
  apply pbnd_sub; [|now apply pdots_bnd]. intros i Hi. unfold coef. apply (proj1 (Forall_forall _ _) Fb). apply nth_In. lia.
Qed.

Lemma pconst_mul b f : pmul N (pconst b) f == pscale b f.
Proof.
  rewrite (pscale_as_mul N (2 ^ w) b f). apply pmul_mor; [|reflexivity]. intros k Hk. apply zeq_refl'. unfold pconst, pscale, p1. destruct (k =? 0)%nat; ring.
Qed.
Lemma l1bnd_const b : (0 < N)%nat -> l1bnd N (Z.abs b) (pconst b).
Proof.
  intros HN. unfold l1bnd. rewrite (zsum_single N 0%nat); [unfold pconst; cbn; lia|assumption|].
  intros i Hi Hne. unfold pconst. destruct (Nat.eqb_spec i 0); [lia|reflexivity].
Qed.

Lemma cmux_ok h pr log count k c d0 d1 g d D : word w -> glwe_dim_valid N k = true ->
  add_exact h pr w -> sub_exact h pr w -> 1 <= log -> (1 <= count)%nat -> log * Z.of_nat count < w ->
  glwe_shape N k c -> glwe_wf w N k d0 -> glwe_wf w N k d1 -> ggsw_valid N k count g = true -> 0 <= D -> fft_err N k D d ->
  exists r, cmux h pr w log count N k c d0 d1 g d = Ok r /\ glwe_wf w N k r /\
    forall sk b E, polys_shape N k sk -> binary_polys sk -> (b = 0 \/ b = 1) -> 0 <= E ->
      ggsw_enc N k count w log E sk (pconst b) g ->
      pn (cmux_noise N k count w log E D) (glwe_phase N sk r) (if b =? 1 then glwe_phase N sk d1 else glwe_phase N sk d0).
Proof.
  intros Hw Hdim Hadd Hsub Hlog Hcnt Hlc Hc H0 H1 Hg HD Hd. pose proof (word_pos w Hw) as Wp.
  destruct (dim_valid N k Hdim) as (HP & HN & Hk).
  unfold cmux. rewrite Hdim, Hg. rewrite (proj2 (radix_valid_iff w log count)) by lia.
  rewrite (proj2 (glwe_valid_iff N k c) Hc), (proj2 (glwe_valid_iff N k d0) (proj1 H0)), (proj2 (glwe_valid_iff N k d1) (proj1 H1)). cbn [andb].
  destruct (glwe_sub_ok N w k h pr (glwe_new N k) d1 d0 Hw Hsub (glwe_new_shape N k) H1 H0) as (diff & Ed & Wd & Pd).
  rewrite Ed. cbn [bind]. apply ggsw_valid_iff in Hg as (Lg & Fg).
  destruct (glwe_ggsw_mad_ok N w pr log count k (glwe_new N k) diff g HP Hw Hlog Hcnt Hlc (glwe_new_shape N k) Wd Lg Fg) as (prod & Ep & Sp & Wpr & Pp).
  rewrite Ep. cbn [bind]. specialize (Wpr (glwe_new_wf N w k ltac:(lia))).
  destruct (glwe_perturb_ok k prod d Hw Wpr (proj1 Hd)) as (Wq & Pq).
  destruct (glwe_add_ok N w k h pr c (glwe_perturb w prod d) d0 Hw Hadd Hc Wq H0) as (r & Er & Wr & Pr).
  exists r. split; [assumption|]. split; [assumption|]. intros sk b E Hs Hbin Hb HE Henc.
  specialize (Pp sk (pconst b) (Z.of_nat N) 1 E HE (proj1 Hs)).
  assert (Hl1 : Forall (fun s => l1bnd N (Z.of_nat N) (coef s)) sk).
  { destruct Hs as (Ls & Fs). clear - Fs Hbin. induction Fs as [|s sk Hs Fs IH]; constructor.
    - apply Forall_cons_iff in Hbin as [? ?]. now apply l1bnd_binary.
    - apply IH. now apply Forall_cons_iff in Hbin as [? ?]. }
  specialize (Pp Hl1). assert (Hm : l1bnd N 1 (pconst b)) by (apply (l1bnd_weaken N (Z.abs b)); [lia|now apply l1bnd_const]).
  specialize (Pp Hm Henc).
  pose proof (fft_err_phase k D d sk HD Hd Hs Hbin) as Pe.
  unfold cmux_noise. set (X := D * _) in *. unfold extprod_bound in Pp. rewrite Z.mul_1_l in Pp.
  set (Y := Z.of_nat k * _ + _) in *.
  pose proof (pnear_add N w _ _ _ _ _ _ (pnear_add N w _ _ _ _ _ _ Pp Pe) (pnear_refl N w (glwe_phase N sk d0) _ (peq_refl N (2 ^ w) _))) as Q.
  rewrite Z.add_0_r in Q. eapply pnear_peq; [| |exact Q].
  - rewrite (Pr sk), (Pq sk). reflexivity.
  - rewrite (glwe_phase_new N w k sk), (pconst_mul b), (Pd sk).
    destruct Hb as [-> | ->].
    + change (0 =? 1) with false. cbv iota. intros i Hi. apply zeq_refl'. unfold padd, pscale, psub, p0. ring.
    + change (1 =? 1) with true. cbv iota. intros i Hi. apply zeq_refl'. unfold padd, pscale, psub, p0. ring.
Qed.
End P.
