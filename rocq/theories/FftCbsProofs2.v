(** Scheme switching in the Fourier domain. *)
From Coq Require Import Reals ZArith List Lia Lra Bool.
From Coquelicot Require Import Complex.
From Verif Require Import Base Alu AluProofs MuxGraph PolyRing Tfhe TfheGlwe TfheBoot SpecTfhe SpecGlwe SpecBoot FluentIntProofs TfheProofs TfheProofs2 TfheProofs3
  TfheGlweProofs TfheGlweProofs2 TfheGlweProofs3 TfheGlweProofs4 TfheBootProofs TfheBootProofs2 TfheBootProofs3 TfheBootProofs4 TfheSwitchProofs Props_Switch.
From Verif Require Import Fft FftGlwe FftCbs SpecFft FftProofs FftProofs2 FftProofs3 FftProofs4 FftProofs5 FftProofs6 FftGlweProofs FftGlweProofs2 FftGlweProofs3 SpecFftGlwe FftRep FftCbsProofs.
Import ListNotations.
Ltac Zify.zify_post_hook ::= idtac.
Open Scope Z_scope.

Lemma linear_index_lt j r k : (j < k)%nat -> (r < k)%nat -> exists idx, linear_index j r k = Ok idx /\ (idx < tri_count k)%nat.
Proof.
  intros Hj Hr. assert (Q : forall i, (i < k)%nat -> nth_error (seq 0 k) i = Some i).
  { intros i Hi. rewrite (nth_error_nth' _ 0%nat) by now rewrite seq_length. now rewrite seq_nth. }
  destruct (linear_index_correct (seq 0 k) j r j r (Q j Hj) (Q r Hr)) as (idx & E & L & _). rewrite seq_length in *. eauto.
Qed.
Lemma F2_nth {A C} (R : A -> C -> Prop) l l' : Forall2 R l l' -> forall i y, nth_error l' i = Some y -> exists x, nth_error l i = Some x /\ R x y.
Proof.
  induction 1 as [|x y l l' H F IH]; intros [|i] z E; cbn [nth_error] in *; try discriminate.
  - injection E as <-. eauto.
  - now apply IH.
Qed.
Lemma setnth_nth {A} (l : list A) i j x d : (i < length l)%nat -> nth j (setnth l i x) d = if (j =? i)%nat then x else nth j l d.
Proof.
  revert i j. induction l as [|y l IH]; intros [|i] [|j] L; cbn [setnth nth length Nat.eqb] in *; try lia; try reflexivity. apply IH. lia.
Qed.

Section Errs.
Context (u eta ea sa eb sb : R) (Hu : (0 <= u)%R) (He : (0 <= eta)%R) (Hea : (0 <= ea)%R) (Hsa : (0 <= sa)%R) (Heb : (0 <= eb)%R) (Hsb : (0 <= sb)%R).
Lemma mads_err_app L1 : forall L2 e s, mads_err u eta ea sa eb sb (L1 + L2) e s = mads_err u eta ea sa eb sb L2 (mads_err u eta ea sa eb sb L1 e s) (s + INR L1 * (sa * sb))%R.
Proof using Type.
  induction L1 as [|L1 IH]; intros L2 e s; cbn [mads_err Nat.add].
  - cbn [INR]. now replace (s + 0 * (sa * sb))%R with s by ring.
  - rewrite IH, S_INR. f_equal. ring.
Qed.
Lemma mads_err_ge L : forall e s, (0 <= e)%R -> (0 <= s)%R -> (e <= mads_err u eta ea sa eb sb L e s)%R.
Proof using All.
  induction L as [|L IH]; intros e s H0 H1; cbn [mads_err]; [lra|].
  assert (T : (e <= mad_gen_err u eta ea sa eb sb e s)%R).
  { unfold mad_gen_err. pose proof (Rmult_le_pos (sa + ea) eb ltac:(lra) Heb). pose proof (Rmult_le_pos ea sb Hea Hsb).
    pose proof (Rmult_le_pos (sa + ea) (sb + eb) ltac:(lra) ltac:(lra)).
    pose proof (Rmult_le_pos (14 * u) (s + e + (sa + ea) * (sb + eb)) ltac:(lra) ltac:(lra)). lra. }
  eapply Rle_trans; [exact T|]. apply IH; [lra|]. pose proof (Rmult_le_pos sa sb Hsa Hsb). lra.
Qed.
End Errs.

Section Switch.
Context (X : ext) (n : nat) (u eta tau delta : R) (Hac : accurate X n u eta tau delta) (Hn : (0 < n)%nat).
Context (w : Z) (Hw : word w) (Hp2 : is_pow2 n = true) (Hlog : (2 * n <= 4096)%nat).
Context (x86 : bool) (m : mad_kernel) (Hx86 : x86 = true -> (n mod 8 = 0)%nat) (k : nat).
Context (pr : profile) (log : Z) (count : nat) (Hl : 1 <= log) (Hcount : (1 <= count)%nat) (Hs : log * Z.of_nat count < w).
Notation N := (2 * n)%nat.
Notation fe := (fwd_err n u eta tau delta).
Notation fq := (freq n).
Notation A63 := (IZR (2 ^ (w - 1))).
Notation B := (IZR (2 ^ (log - 1))).

Lemma crep_mono e s e' s' f c : (e <= e')%R -> (s <= s')%R -> crep n w k e s f c -> crep n w k e' s' f c.
Proof using Type.
  intros He Hs' (Sf & H). split; [exact Sf|]. intros j Hj. destruct (H j Hj) as (v & (L & R) & C). exists v. split; [|exact C]. split; [exact L|].
  intros t Ht. destruct (R t Ht). split; lra.
Qed.
Lemma crep_congr e s f c c' : (forall j i, (j <= k)%nat -> (i < N)%nat -> congr w (nth i (comp j c) 0) (nth i (comp j c') 0)) -> crep n w k e s f c -> crep n w k e s f c'.
Proof using Type.
  intros HC (Sf & H). split; [exact Sf|]. intros j Hj. destruct (H j Hj) as (v & R & C). exists v. split; [exact R|]. intros i Hi. etransitivity; [apply C, Hi|]. now apply HC.
Qed.

(** *** Bounds are nonnegative *)
Lemma A_pos : (0 <= A63)%R.
Proof using Type. apply IZR_le, Z.pow_nonneg. discriminate. Qed.
Lemma B_pos : (0 <= B)%R.
Proof using Type. apply IZR_le, Z.pow_nonneg. discriminate. Qed.
Lemma zero_poly_rep D : (0 <= D)%R -> exists F v, rep n (fe D) (fq D) F v.
Proof using All.
  intros HD. assert (L : length (repeat 0%Z N) = N) by apply repeat_length.
  destruct (poly_fft_total X n u eta tau delta Hac Hn w Hw Hp2 Hlog x86 m Hx86 k (repeat 0 N) L) as (F & E & _).
  exists F, (scoef w (repeat 0 N)). apply (poly_fft_rep X n u eta tau delta Hac Hn w Hp2 Hlog (repeat 0 N) F D L HD); [|exact E].
  intros i Hi. unfold scoef. rewrite nth_repeat. replace (sint w 0) with 0; [rewrite Rabs_R0; exact HD|].
  unfold sint. destruct (Z.ltb_spec 0 (2 ^ (w - 1))); [reflexivity|]. pose proof (pow_pos' (w - 1)). pose proof (word_pos w Hw). lia.
Qed.
Lemma fe_pos D : (0 <= D)%R -> (0 <= fe D)%R /\ (0 <= fq D)%R.
Proof using All. intros HD. destruct (zero_poly_rep D HD) as (F & v & R). exact (rep_pos n Hn _ _ _ _ R). Qed.

(** *** The mask loop *)
Definition ssk_wf (ssk : list (list glwe)) : Prop := length ssk = tri_count k /\ Forall (fun r => length r = count /\ Forall (glwe_wf w N k) r) ssk.

Lemma glev_mad_rep e1 s1 a r rf cf c e s : toruses w a -> length a = N -> length r = count -> Forall (glwe_wf w N k) r -> rowrep n w k e1 s1 rf r ->
  glwe_wf w N k c -> crep n w k e s cf c ->
  exists cf' c', glev_mad_fft X x86 m pr w log count N k cf a rf = Ok cf' /\ glev_mad pr w log count N k c a r = Ok c' /\ glwe_wf w N k c' /\
    crep n w k (mads_err u eta e1 s1 (fe B) (fq B) count e s) (s + INR count * (s1 * fq B)) cf' c'.
Proof using All.
  intros Ta La Lr Fr R Wc Rc.
  destruct (rows_rep X n u eta tau delta Hac Hn w Hw Hp2 Hlog x86 m Hx86 k pr log count Hl Hcount Hs e1 s1 [a] [r] [rf] cf c e s) as (cf' & c' & E1 & E2 & W & R'); try assumption.
  - repeat constructor; assumption.
  - repeat constructor; assumption.
  - reflexivity.
  - constructor; [split; assumption|constructor].
  - constructor; [assumption|constructor].
  - cbn [rows_mad_fft] in E1. cbn [rows_mad] in E2. cbn [length] in R'. replace (1 * count)%nat with count in R' by lia.
    exists cf', c'. destruct (glev_mad_fft _ _ _ _ _ _ _ _ _ _ _ _); try discriminate. destruct (glev_mad _ _ _ _ _ _ _ _ _); try discriminate. auto.
Qed.

Lemma ss_mads_rep e1 s1 ssk sskf j : (j < k)%nat -> ssk_wf ssk -> Forall2 (rowrep n w k e1 s1) sskf ssk -> forall polys r cf c e s,
  (r + length polys <= k)%nat -> Forall (toruses w) polys -> Forall (fun p => length p = N) polys -> glwe_wf w N k c -> crep n w k e s cf c ->
  exists cf' c', ss_mads_freq X x86 m pr w log count N k sskf j r polys cf = Ok cf' /\ ss_mads pr w log count N k ssk j r polys c = Ok c' /\ glwe_wf w N k c' /\
    crep n w k (mads_err u eta e1 s1 (fe B) (fq B) (length polys * count) e s) (s + INR (length polys * count) * (s1 * fq B)) cf' c'.
Proof using All.
  intros Hj (Ls & Fs) R2. induction polys as [|a polys IH]; intros r cf c e s Hr Ta La Wc Rc; cbn [ss_mads_freq ss_mads length].
  - exists cf, c. rewrite Nat.mul_0_l. cbn [mads_err INR]. replace (s + 0 * (s1 * fq B))%R with s by ring. auto.
  - cbn [length] in Hr. apply Forall_cons_iff in Ta as [Ta1 Ta]. apply Forall_cons_iff in La as [La1 La].
    destruct (linear_index_lt j r k Hj ltac:(lia)) as (idx & Ei & Li). rewrite Ei. cbn [bind].
    destruct (nth_error ssk idx) as [g|] eqn:Eg; [|apply nth_error_None in Eg; lia].
    destruct (F2_nth _ _ _ R2 idx g Eg) as (gf & Egf & Rg). rewrite Egf.
    destruct (proj1 (Forall_forall _ _) Fs g (nth_error_In _ _ Eg)) as (Lg & Fg).
    destruct (glev_mad_rep e1 s1 a g gf cf c e s Ta1 La1 Lg Fg Rg Wc Rc) as (cf1 & c1 & E1 & E2 & W1 & R1). rewrite E1, E2. cbn [bind].
    destruct (IH (S r) cf1 c1 _ _ ltac:(lia) Ta La W1 R1) as (cf' & c' & E3 & E4 & W' & R'). exists cf', c'. split; [exact E3|]. split; [exact E4|]. split; [exact W'|].
    replace (S (length polys) * count)%nat with (count + length polys * count)%nat by lia. rewrite mads_err_app, plus_INR.
    replace (s + (INR count + INR (length polys * count)) * (s1 * fq B))%R with (s + INR count * (s1 * fq B) + INR (length polys * count) * (s1 * fq B))%R by ring. exact R'.
Qed.

(** *** One ciphertext of the result *)
Notation fA := (fe A63).
Notation sA := (fq A63).
Definition ss_e : R := mads_err u eta fA sA (fe B) (fq B) (k * count) fA sA.
Definition ss_s : R := (sA + INR (k * count) * (sA * fq B))%R.

Lemma fill_rep cf c p j : (j < k)%nat -> length p = N -> toruses w p -> glwe_wf w N k c -> crep n w k fA sA cf c ->
  exists cf' c', fill_a_freq X w N k cf p j = Ok cf' /\ fill_a N k c p j = Ok c' /\ glwe_wf w N k c' /\ crep n w k fA sA cf' c'.
Proof using All.
  intros Hj Lp Tp Wc (Sf & Rc). destruct (poly_fft_total X n u eta tau delta Hac Hn w Hw Hp2 Hlog x86 m Hx86 k p Lp) as (F & EF & LF).
  unfold fill_a_freq, fill_a. rewrite (proj2 (Nat.ltb_lt _ _) Hj), (proj2 (Nat.eqb_eq _ _) Lp), half_twice, EF. cbn [bind andb]. do 2 eexists. split; [reflexivity|]. split; [reflexivity|].
  destruct Sf as (La & Fa & Lb). destruct Wc as (([Lc Fc] & Lcb) & Tc & Tcb). split; [|split; [|]].
  - split; [split; [split; cbn [ga]; [now rewrite setnth_len|now apply setnth_Forall]|exact Lcb]|]. split; cbn [ga gb]; [now apply setnth_Forall|assumption].
  - split; cbn [fa fb]; [now rewrite setnth_len|]. split; [|exact Lb]. now apply setnth_Forall.
  - intros i Hi. destruct (Nat.eq_dec i j) as [->|Ne].
    + exists (scoef w p). split.
      * rewrite compf_a by (cbn [fa]; rewrite setnth_len; lia). cbn [fa]. rewrite setnth_nth by lia. rewrite Nat.eqb_refl.
        apply (poly_fft_rep X n u eta tau delta Hac Hn w Hp2 Hlog p F A63 Lp A_pos); [|exact EF].
        intros t Ht. apply IZR_abs_le. unfold scoef. apply sint_bound; [exact Hw|]. apply (proj1 (Forall_forall _ _) Tp). apply nth_In. lia.
      * intros t Ht. rewrite comp_a by (cbn [ga]; rewrite setnth_len; lia). cbn [ga]. rewrite setnth_nth by lia. rewrite Nat.eqb_refl. apply sint_congr.
    + destruct (Rc i Hi) as (v & Rv & Cv). exists v.
      assert (E1 : compf i {| fa := setnth (fa cf) j F; fb := fb cf |} = compf i cf).
      { destruct (Nat.eq_dec i k) as [->|Nk].
        - rewrite !(compf_b k) by (cbn [fa]; rewrite ?setnth_len; lia). reflexivity.
        - rewrite !compf_a by (cbn [fa]; rewrite ?setnth_len; lia). cbn [fa]. rewrite setnth_nth by lia. now rewrite (proj2 (Nat.eqb_neq _ _) Ne). }
      assert (E2 : comp i {| ga := setnth (ga c) j p; gb := gb c |} = comp i c).
      { destruct (Nat.eq_dec i k) as [->|Nk].
        - rewrite !(comp_b' k) by (cbn [ga]; rewrite ?setnth_len; lia). reflexivity.
        - rewrite !comp_a by (cbn [ga]; rewrite ?setnth_len; lia). cbn [ga]. rewrite setnth_nth by lia. now rewrite (proj2 (Nat.eqb_neq _ _) Ne). }
      rewrite E1, E2. auto.
Qed.
Lemma perturb_zero c : glwe_wf w N k c -> glwe_perturb w c (glwe_new N k) = c.
Proof using All.
  intros (([L F] & Lb) & T & Tb). destruct c as [a b]. cbn [ga gb] in *. unfold glwe_perturb, glwe_new. cbn [ga gb].
  assert (Z : forall p, length p = N -> toruses w p -> poly_add_assign w p (zpoly N) = p).
  { unfold poly_add_assign, zpoly. generalize N as M. intros M p. revert M. induction p as [|x p IH]; intros [|M] Lp Tp; cbn [length repeat zip_assign] in *; try lia; try reflexivity.
    apply Forall_cons_iff in Tp as [Tx Tp]. rewrite IH by (lia || assumption). f_equal. unfold tadd. rewrite Z.add_0_r. apply uwrap_small. exact Tx. }
  f_equal; [|now apply Z]. rewrite <- L. clear L Lb Tb. induction a as [|p a IH]; cbn [length repeat zip_assign]; [reflexivity|].
  apply Forall_cons_iff in F as [F1 F]. apply Forall_cons_iff in T as [T1 T]. rewrite Z by assumption. f_equal. now apply IH.
Qed.

Lemma ss_op_rep ssk sskf j cf c x : (j <= k)%nat -> ssk_wf ssk -> Forall2 (rowrep n w k fA sA) sskf ssk -> glwe_wf w N k x -> glwe_wf w N k c -> crep n w k fA sA cf c ->
  exists f r, ss_op_freq X x86 m pr w log count N k sskf j cf x = Ok f /\ ss_op_fft pr w log count N k ssk j c x (glwe_new N k) = Ok r /\ glwe_wf w N k r /\ crep n w k ss_e ss_s f r.
Proof using All.
  intros Hj Ws Rs Wx Wc Rc. pose proof (fe_pos A63 A_pos) as (P1 & P2). pose proof (fe_pos B B_pos) as (P3 & P4).
  pose proof (Hu X n u eta tau delta Hac) as HU. pose proof (Heta X n u eta tau delta Hac) as HE.
  unfold ss_op_freq, ss_op_fft. destruct (Nat.eqb_spec j k) as [->|Ne].
  - destruct (glwe_to_fft_ok X n u eta tau delta Hac Hn w Hw Hp2 Hlog x86 m Hx86 k x (proj1 Wx)) as (f & Ef & _).
    exists f, x. split; [exact Ef|]. rewrite perturb_zero by exact Wx. split; [reflexivity|]. split; [exact Wx|].
    apply (crep_mono fA sA).
    + unfold ss_e. apply mads_err_ge; lra.
    + unfold ss_s. pose proof (pos_INR (k * count)). pose proof (Rmult_le_pos _ _ P2 P4). pose proof (Rmult_le_pos _ _ H H0). lra.
    + exact (to_fft_rep X n u eta tau delta Hac Hn w Hw Hp2 Hlog x86 m Hx86 k x f Wx Ef).
  - destruct Wx as (([Lx Fx] & Lxb) & Tx & Txb).
    destruct (fill_rep cf c (gb x) j ltac:(lia) Lxb Txb Wc Rc) as (cf0 & c0 & E1 & E2 & W0 & R0). rewrite E1, E2. cbn [bind].
    destruct (ss_mads_rep fA sA ssk sskf j ltac:(lia) Ws Rs (ga x) 0%nat cf0 c0 fA sA ltac:(lia) Tx Fx W0 R0) as (f & r & E3 & E4 & Wr & Rr).
    rewrite E3, E4. cbn [bind]. exists f, r. rewrite perturb_zero by exact Wr. rewrite Lx in Rr. auto.
Qed.

Lemma zero_rep' : crep n w k fA sA (glwe_fft_zero N k) (glwe_new N k).
Proof using All. destruct (fe_pos A63 A_pos). apply (crep_mono 0 0); try assumption. now apply zero_rep. Qed.

Lemma ss_row_rep ssk sskf j : (j <= k)%nat -> ssk_wf ssk -> Forall2 (rowrep n w k fA sA) sskf ssk -> forall xs ds, (forall i, ds i = glwe_new N k) -> Forall (glwe_wf w N k) xs ->
  exists rf r, ss_row_freq X x86 m pr w log count N k sskf j xs (repeat (glwe_fft_zero N k) (length xs)) = Ok rf /\
    ss_row_fft pr w log count N k ssk j xs (repeat (glwe_new N k) (length xs)) ds = Ok r /\ length r = length xs /\ Forall (glwe_wf w N k) r /\ rowrep n w k ss_e ss_s rf r.
Proof using All.
  intros Hj Ws Rs. pose proof (word_pos w Hw) as Wp. induction xs as [|x xs IH]; intros ds Hds Fx; cbn [length repeat ss_row_freq ss_row_fft].
  - exists [], []. repeat split; constructor.
  - apply Forall_cons_iff in Fx as [Wx Fx]. rewrite (Hds 0%nat).
    destruct (ss_op_rep ssk sskf j _ _ x Hj Ws Rs Wx (glwe_new_wf N w k ltac:(lia)) zero_rep') as (f & r & E1 & E2 & Wr & Rr). rewrite E1, E2. cbn [bind].
    destruct (IH (fun i => ds (S i)) (fun i => Hds (S i)) Fx) as (rf & rs & E3 & E4 & Lr & Fr & Rr'). rewrite E3, E4. cbn [bind]. exists (f :: rf), (r :: rs).
    cbn [length]. repeat split; try constructor; auto.
Qed.
Lemma ss_rows_rep ssk sskf glev ds : ssk_wf ssk -> Forall2 (rowrep n w k fA sA) sskf ssk -> (forall i j, ds i j = glwe_new N k) -> Forall (glwe_wf w N k) glev -> forall q j, (j + q <= k + 1)%nat ->
  exists rf r, ss_rows_freq X x86 m pr w log count N k sskf glev j (repeat (repeat (glwe_fft_zero N k) (length glev)) q) = Ok rf /\
    ss_rows_fft pr w log count N k ssk glev j (repeat (repeat (glwe_new N k) (length glev)) q) ds = Ok r /\ length r = q /\
    Forall (fun l => length l = length glev /\ Forall (glwe_wf w N k) l) r /\ Forall2 (rowrep n w k ss_e ss_s) rf r.
Proof using All.
  intros Ws Rs Hds Fg. induction q as [|q IH]; intros j Hj; cbn [repeat ss_rows_freq ss_rows_fft].
  - exists [], []. repeat split; constructor.
  - destruct (ss_row_rep ssk sskf j ltac:(lia) Ws Rs glev (ds j) (Hds j) Fg) as (rf & r & E1 & E2 & Lr & Fr & Rr). rewrite E1, E2. cbn [bind].
    destruct (IH (S j) ltac:(lia)) as (rfs & rs & E3 & E4 & Lrs & Frs & Rrs). rewrite E3, E4. cbn [bind]. exists (rf :: rfs), (r :: rs). cbn [length]. repeat split; try constructor; auto.
Qed.

Lemma ssk_to_fft_ok ssk : ssk_wf ssk -> exists sskf, ssk_to_fft X w N k count ssk = Ok sskf /\ ssk_fft_valid N k count sskf = true /\ ssk_valid N k count ssk = true /\ Forall2 (rowrep n w k fA sA) sskf ssk.
Proof using All.
  intros (L & F). destruct (rows_to_fft_rep X n u eta tau delta Hac Hn w Hw Hp2 Hlog {| hw_x86 := x86; hw_avx2 := x86; hw_fma := x86; hw_512f := false; hw_512dq := false |} m Hx86 k ssk) as (sskf & E & R).
  { eapply Forall_impl; [|exact F]. intros r H; apply H. }
  assert (Fl : Forall (fun r => length r = count) ssk) by (eapply Forall_impl; [|exact F]; intros r H; apply H).
  assert (V : ssk_valid N k count ssk = true).
  { unfold ssk_valid. rewrite L, Nat.eqb_refl. cbn [andb]. apply forallb_forall. intros r Hin. destruct (proj1 (Forall_forall _ _) F r Hin) as (A & B'). unfold glev_valid. rewrite A, Nat.eqb_refl. cbn [andb].
    apply forallb_forall. intros c Hc. apply glwe_valid_iff. apply (proj1 (Forall_forall _ _) B' c Hc). }
  exists sskf. unfold ssk_to_fft. rewrite V. split; [exact E|]. split; [|split; [reflexivity|exact R]].
  unfold ssk_fft_valid. rewrite (F2_len _ _ _ R), L, Nat.eqb_refl. exact (rowsrep_valid n w k _ _ _ _ count R Fl).
Qed.

(** Into a fresh result, scheme switching in the Fourier domain gives transforms of what the integer model computes without any error, up to [ss_e]. *)
Lemma scheme_switch_rep cg glev ssk sskf : ssk_wf ssk -> ssk_to_fft X w N k count ssk = Ok sskf -> length glev = cg -> Forall (glwe_wf w N k) glev ->
  exists gf g, scheme_switch_freq X x86 m pr w log count cg N k (ggsw_fft_zero N k cg) glev sskf = Ok gf /\
    scheme_switch_fft pr w log count cg N k (ggsw_new N k cg) glev ssk (fun _ _ => glwe_new N k) = Ok g /\ ggsw_wf w N k cg g /\ Forall2 (rowrep n w k ss_e ss_s) gf g.
Proof using All.
  intros Ws Es Lg Fg. destruct (ssk_to_fft_ok ssk Ws) as (sskf' & Es' & V1 & V2 & Rs). rewrite Es in Es'. injection Es' as <-.
  unfold scheme_switch_freq, scheme_switch_fft. rewrite V1, V2.
  assert (V3 : ggsw_fft_valid N k cg (ggsw_fft_zero N k cg) = true).
  { unfold ggsw_fft_valid, ggsw_fft_zero. rewrite repeat_length, Nat.eqb_refl. cbn [andb]. apply forallb_forall. intros r Hin. apply repeat_spec in Hin. subst r. rewrite repeat_length, Nat.eqb_refl. cbn [andb].
    apply forallb_forall. intros c Hc. apply repeat_spec in Hc. subst c. exact (crep_valid n w k _ _ _ _ zero_rep'). }
  assert (V4 : ggsw_valid N k cg (ggsw_new N k cg) = true).
  { apply ggsw_valid_iff. split; [unfold ggsw_new; rewrite repeat_length; lia|]. apply Forall_forall. intros r Hin. apply repeat_spec in Hin. subst r. split; [apply repeat_length|].
    apply Forall_forall. intros c Hc. apply repeat_spec in Hc. subst c. apply glwe_new_shape. }
  assert (V5 : glev_valid N k cg glev = true).
  { unfold glev_valid. rewrite Lg, Nat.eqb_refl. cbn [andb]. apply forallb_forall. intros c Hc. apply glwe_valid_iff. apply (proj1 (Forall_forall _ _) Fg c Hc). }
  rewrite V3, V4, V5. cbn [andb]. unfold ggsw_fft_zero, ggsw_new. rewrite <- Lg.
  destruct (ss_rows_rep ssk sskf glev (fun _ _ => glwe_new N k) Ws Rs (fun _ _ => eq_refl) Fg (k + 1)%nat 0%nat ltac:(lia)) as (gf & g & E1 & E2 & L & F & R).
  exists gf, g. split; [exact E1|]. split; [exact E2|]. split; [|exact R]. split; [lia|exact F].
Qed.
End Switch.
