(** Proofs: encrypted programs with more instructions. *)
From Coq Require Import Reals ZArith List Lia Lra Bool.
From Coquelicot Require Import Complex.
From Verif Require Import Base BitsLemmas Spec Alu AluProofs AluProofs2 SpecAlu Circuits Graph MuxGraph SpecMux MuxGraphProofs MuxGraphProofs2 FheGraph SpecFhe FheProofs FheProofs2 FheProofs5 SpecFluent FluentLib
  PolyRing Tfhe TfheGlwe Eval EvalFft SpecTfhe SpecGlwe SpecBoot SpecCbs SpecEval SpecFftCbs SpecEvalFft TfheProofs EvalProofs EvalFftProofs EvalFftProofs2 EvalFftProofs3 EvalFftProofs4
  SpecPipe PipeProofs PipeProofs2 Pipe SpecPipe2 PipeProofs3 PipeProofs4 Pipe2 SpecPipe3 PipeProofs5.
Import ListNotations.
Ltac Zify.zify_post_hook ::= idtac.
Open Scope Z_scope.

(** ** Lists *)
Lemma bits_of_app bits out hs : Forall (fun h => (h < length bits)%nat) hs -> bits_of (bits ++ out) hs = bits_of bits hs.
Proof. intros F. unfold bits_of. apply map_ext_in. intros x Hx. apply app_nth1. exact (proj1 (Forall_forall _ _) F x Hx). Qed.
Lemma bits_of_new bits out : bits_of (bits ++ out) (seq (length bits) (length out)) = out.
Proof. apply nth_seq_app. Qed.
Lemma bits_of_length bits hs : length (bits_of bits hs) = length hs.
Proof. apply map_length. Qed.
Lemma zip_bits bits ha : forall hb k, length ha = length hb ->
  map (fun p : nat * nat * nat => xorb (nth (fst (fst p)) bits false) (nth (snd (fst p)) bits false)) (combine (combine ha hb) (seq k (length ha))) = zipwith xorb (bits_of bits ha) (bits_of bits hb).
Proof.
  induction ha as [|a ha IH]; intros [|b hb] k L; try discriminate; [reflexivity|]. cbn [length seq combine map bits_of zipwith fst snd]. f_equal. apply IH. now injection L.
Qed.
Lemma sel_bits bits sb ha : forall hb k, length ha = length hb ->
  map (fun p : nat * nat * nat => if sb : bool then nth (fst (fst p)) bits false else nth (snd (fst p)) bits false) (combine (combine ha hb) (seq k (length ha))) = bits_of bits (if sb then ha else hb).
Proof.
  induction ha as [|a ha IH]; intros [|b hb] k L; try discriminate; [now destruct sb|]. cbn [length seq combine map fst snd]. rewrite (IH hb (S k)) by now injection L. now destruct sb.
Qed.
Lemma neg_bits bits ha : forall k, map (fun p : nat * nat => negb (nth (fst p) bits false)) (combine ha (seq k (length ha))) = map negb (bits_of bits ha).
Proof. induction ha as [|a ha IH]; intros k; [reflexivity|]. cbn [length seq combine map bits_of fst snd]. f_equal. apply IH. Qed.
Lemma uval_negb l : uval (map negb l) = 2 ^ Z.of_nat (length l) - 1 - uval l.
Proof.
  induction l as [|b l IH]; [reflexivity|]. cbn [map uval length]. rewrite IH, Nat2Z.inj_succ, Z.pow_succ_r by lia. destruct b; cbn [negb b2z]; lia.
Qed.
Lemma combine_snd {A} (l : list A) : forall k j p, nth_error (combine l (seq k (length l))) j = Some p -> snd p = (k + j)%nat.
Proof.
  induction l as [|a l IH]; intros k [|j] p Hp; try discriminate; cbn [length seq combine nth_error] in Hp.
  - injection Hp as <-. cbn. lia.
  - rewrite (IH (S k) j p Hp). lia.
Qed.
(** The lists of handles are manipulated as the lists of bits are. *)
Lemma map_rotl {A C} (f : A -> C) s l : map f (rotate_left s l) = rotate_left s (map f l).
Proof. unfold rotate_left. now rewrite map_app, skipn_map, firstn_map. Qed.
Lemma map_rotr {A C} (f : A -> C) s l : map f (rotate_right s l) = rotate_right s (map f l).
Proof. rewrite !rotate_right_eq, map_length. apply map_rotl. Qed.
Lemma map_repeat {A C} (f : A -> C) x n : map f (repeat x n) = repeat (f x) n.
Proof. induction n; cbn; congruence. Qed.
Lemma map_last {A C} (f : A -> C) l d d' : l <> [] -> f (last l d) = last (map f l) d'.
Proof. induction l as [|x l IH]; intros H; [easy|]. destruct l as [|y l]; [reflexivity|]. change (f (last (y :: l) d) = last (map f (y :: l)) d'). apply IH. discriminate. Qed.
Lemma shift_bits f op z s hs : (1 <= length hs)%nat -> (s <= length hs)%nat -> f z = false -> encrypted_value_plain_shift (map f hs) s op = Ok (map f (shift_handles op z s hs)).
Proof.
  intros H1 H2 Hz. unfold encrypted_value_plain_shift. assert (Hn : hs <> []) by (intros ->; cbn in H1; lia).
  assert (Hne : forall X : res (list bool), match map f hs with [] => Panic | _ :: _ => X end = X) by (intros X; destruct hs; [easy|reflexivity]). rewrite Hne.
  rewrite map_length. destruct (Nat.ltb_spec (length hs) s); [lia|].
  destruct op; cbn [shift_dm shift_handles]; rewrite ?map_app, ?map_repeat, ?Hz, ?skipn_map, ?firstn_map, ?map_rotl, ?map_rotr, ?rotate_left_length, ?map_length, ?(map_last f hs 0%nat false Hn); try reflexivity.
  - rewrite <- skipn_map, map_rotr. reflexivity.
  - rewrite <- firstn_map, map_rotl. reflexivity.
  - rewrite <- firstn_map, map_rotl. reflexivity.
Qed.
Lemma ext_bits f signed z w hs : f z = false -> (signed = true -> hs <> []) -> map f (ext_handles signed z w hs) = map f hs ++ repeat (if signed then last (map f hs) false else false) (w - length hs).
Proof.
  intros Hz Hs. unfold ext_handles. rewrite map_app, map_repeat. destruct signed; [|now rewrite Hz]. now rewrite (map_last f hs 0%nat false) by auto.
Qed.
Lemma sext_value l k : (0 < length l)%nat -> uval (l ++ repeat (last l false) k) = sint (Z.of_nat (length l)) (uval l) mod 2 ^ Z.of_nat (length l + k).
Proof.
  intros Hl. rewrite <- sval_sint by exact Hl. unfold sval. pose proof (uval_range l) as R. rewrite uval_app.
  assert (E : 2 ^ Z.of_nat (length l + k) = 2 ^ Z.of_nat (length l) * 2 ^ Z.of_nat k) by (rewrite <- Z.pow_add_r by lia; f_equal; lia).
  pose proof (pow2_pos (Z.of_nat k) ltac:(lia)) as Pk. rewrite E.
  destruct (last l false).
  - rewrite uval_repeat_true. apply (Z.mod_unique _ _ (-1)); [left; nia|]. ring.
  - rewrite uval_repeat_false. rewrite Z.sub_0_r, Z.mul_0_r, Z.add_0_r. symmetry. apply Z.mod_small. nia.
Qed.
Lemma shift_handles_in op z s hs x : In x (shift_handles op z s hs) -> hs <> [] -> x = z \/ In x hs.
Proof.
  assert (F : forall n l, In x (firstn n l) -> In x l). { induction n as [|n IH]; intros [|y l]; cbn; auto; [intros []|]. intros [H|H]; auto. }
  assert (K : forall n l, In x (skipn n l) -> In x l). { induction n as [|n IH]; intros [|y l]; cbn; auto. }
  assert (Rl : forall k l, In x (rotate_left k l) -> In x l). { intros k l H. unfold rotate_left in H. apply in_app_or in H as [H|H]; [eapply K|eapply F]; eassumption. }
  assert (Rr : forall k l, In x (rotate_right k l) -> In x l). { intros k l H. rewrite rotate_right_eq in H. eapply Rl; eassumption. }
  intros H Hn. destruct op; cbn [shift_handles] in H.
  - apply in_app_or in H as [H|H]; [left; now apply repeat_spec in H|right; eapply Rr, K; eassumption].
  - apply in_app_or in H as [H|H]; [right; eapply Rl, F; eassumption|left; now apply repeat_spec in H].
  - apply in_app_or in H as [H|H]; [right; eapply Rl, F; eassumption|right]. apply repeat_spec in H. subst x.
    destruct (exists_last Hn) as (l' & a & ->). rewrite last_last. apply in_or_app. right. now left.
  - right. eapply Rr; eassumption.
  - right. eapply Rl; eassumption.
Qed.
Lemma ext_handles_in signed z w hs x : In x (ext_handles signed z w hs) -> (signed = true -> hs <> []) -> x = z \/ In x hs.
Proof.
  intros H Hn. unfold ext_handles in H. apply in_app_or in H as [H|H]; [now right|]. apply repeat_spec in H. destruct signed; [|now left]. right. subst x.
  destruct (exists_last (Hn eq_refl)) as (l' & a & ->). rewrite last_last. apply in_or_app. right. now left.
Qed.
Lemma in_interleave {T} (a b : list T) x : In x (interleave a b) -> In x a \/ In x b.
Proof. revert b. induction a as [|y a IH]; intros [|z b] H; cbn in H; try tauto. destruct H as [->|[->|H]]; [left; now left|right; now left|]. apply IH in H as [H|H]; [left|right]; now right. Qed.
(** The shift circuits. *)
Lemma shift_facts op na ns c : bitshift na ns (fst (shift_dm op)) (snd (shift_dm op)) = Ok c -> c_arity c = (na + ns)%nat.
Proof.
  unfold bitshift. destruct (negb _); [discriminate|]. destruct (match snd (shift_dm op) with MLogical => _ | _ => _ end); [discriminate|]. destruct (match snd (shift_dm op) with MLogical => _ | _ => _ end); [discriminate|].
  destruct (na =? 0)%nat; [discriminate|]. intros H. injection H as <-. reflexivity.
Qed.
Lemma shift_total op na ns : (1 <= na)%nat -> (1 <= ns)%nat -> (na <= 2 ^ ns)%nat -> rot_width_ok op na -> exists c, bitshift na ns (fst (shift_dm op)) (snd (shift_dm op)) = Ok c /\
  (forall a k, length a = na -> length k = ns -> length (c_fn c (rev a ++ rev k)) = na /\ uval (rev (c_fn c (rev a ++ rev k))) = shift_value op (Z.of_nat na) (uval a) (uval k)) /\
  forall v, length v = (na + ns)%nat -> length (c_fn c v) = na.
Proof.
  intros H1 H2 H3 Hr.
  assert (T : exists c, bitshift na ns (fst (shift_dm op)) (snd (shift_dm op)) = Ok c).
  { destruct (shift_circuit_value op (repeat false na) (repeat false ns)) as (out & E & _); rewrite ?repeat_length; auto.
    rewrite !repeat_length in E. destruct (bitshift na ns _ _) as [c|e|]; [eauto|discriminate|discriminate]. }
  destruct T as (c & Ec). exists c. split; [exact Ec|]. pose proof (shift_facts _ _ _ _ Ec) as Ar.
  assert (K : forall a k, length a = na -> length k = ns -> length (c_fn c (rev a ++ rev k)) = na /\ uval (rev (c_fn c (rev a ++ rev k))) = shift_value op (Z.of_nat na) (uval a) (uval k)).
  { intros a k La Lk. destruct (shift_circuit_value op a k) as (out & E & Lo & U); rewrite ?La, ?Lk; auto. rewrite La, Lk in *. unfold run_res in E. rewrite Ec in E. cbn [bind] in E. unfold run_circuit in E.
    rewrite app_length, !rev_length, La, Lk, Ar, Nat.eqb_refl in E. injection E as E. rewrite E. rewrite rev_length, rev_involutive. auto. }
  split; [exact K|]. intros v Hv. rewrite <- (firstn_skipn na v). destruct (K (rev (firstn na v)) (rev (skipn na v))) as (Q & _).
  - rewrite rev_length, firstn_length. lia.
  - rewrite rev_length, skipn_length. lia.
  - now rewrite !rev_involutive in Q.
Qed.

Section P.
Context (X : ext) (m : mad_kernel) (h : hw) (pr : profile) (P : params) (B : bounds) (A : accuracy).
Context (HP : params_ok P) (HB : bounds_ok B) (Hok : fft_ok X h P B A) (sk : secret_key) (Hs : secret_ok P sk).
Context (pc : rproc) (Hpc : rproc_ok X A P B sk h pr pc).
Local Notation N := (p_N P).
Local Notation enc E c b := (encrypts P sk E (CGlwe1 (FheGraph.pconst N b)) (KGlwe1 c)).
Local Notation sel := (sel_noise P B (boot_noise P B)).
Let HN : (1 <= N)%nat := Npos P B HP 0 0.

Definition cellN (noise : list Z) (t : cty) (r : nat) : Z := match t with TGgsw1 => boot_noise P B | TGlwe1 => nth r noise 0 | _ => 0 end.
Definition storeN (store : list glwe) (bits : list bool) (noise : list Z) : Prop :=
  length noise = length bits /\ Forall2 (fun c be => 0 <= snd be /\ enc (snd be) c (fst be)) store (combine bits noise).
Lemma storeN_length store bits noise : storeN store bits noise -> length store = length bits.
Proof. intros (L & F). assert (Q : length store = length (combine bits noise)) by (clear - F; induction F; cbn; congruence). rewrite combine_length in Q. lia. Qed.
Lemma cellsN_ok store bits noise : storeN store bits noise -> forall t r, rencrypts A P sk (cellN noise t r) (msgs P bits t r) (store_cells pc store t r).
Proof.
  intros (L & F) t r. assert (PE : rp_params pc = P) by (apply (rk_params _ _ _ _ _ _ _ _ Hpc)).
  destruct t; cbn [msgs cellN store_cells]; rewrite ?PE.
  - exact (rk_zero_lwe0 _ _ _ _ _ _ _ _ Hpc).
  - exists (KLwe1 (lwe_new (p_k P * N))). split; [reflexivity|]. split.
    + split; [apply repeat_length|]. split; [|unfold torus; cbn; lia]. apply Forall_forall. intros x Hx. apply repeat_spec in Hx. subst. unfold torus. lia.
    + unfold lwe_phase, lwe_new. cbn [lwe_a lwe_b]. rewrite dotz_zeros. cbn [Z.b2z]. exists 0. split; [cbn; lia|]. reflexivity.
  - revert r bits noise L F. induction store as [|c store IH]; intros r bits noise L F; destruct bits as [|b bits], noise as [|e noise]; try discriminate L; cbn [combine] in F; inversion F; subst.
    + destruct r; exact (rk_zero_glwe1 _ _ _ _ _ _ _ _ Hpc).
    + destruct r as [|r]; cbn [nth]; [|apply IH; [now injection L|assumption]]. exists (KGlwe1 c). split; [reflexivity|]. match goal with H : _ /\ _ |- _ => exact (proj2 H) end.
  - exact (rk_zero_ggsw1 _ _ _ _ _ _ _ _ Hpc).
  - exact (rk_zero_glev1 _ _ _ _ _ _ _ _ Hpc).
Qed.

(** What a circuit promises: its outputs are the bits [out], with noise at most [M]. *)
Definition promises (bits : list bool) (noise : list Z) (base : nat) (g : fgraph) (outs : list nat) (out : list bool) (M : Z) : Prop :=
  exists En, noise_ok P B (cellN noise) g En /\ length outs = length out /\ forall j o, nth_error outs j = Some o ->
    En o <= M /\ fvalue N (msgs P bits) g o (None, Some (TGlwe1, (base + j)%nat, CGlwe1 (FheGraph.pconst N (nth j out false)))).

Lemma promised st bits noise g outs out M sp : storeN (p_store st) bits noise -> promises bits noise (length (p_store st)) g outs out M -> (forall n, scratch_ok P (sp n)) ->
  forall j o, nth_error outs j = Some o -> exists r, rvalue X m pc sp (store_cells pc (p_store st)) g o (None, Some (TGlwe1, (length (p_store st) + j)%nat, RGlwe1 r)) /\ enc M r (nth j out false).
Proof.
  intros S0 (En & Nk & Lo & V) Hsp j o Ho. destruct (V j o Ho) as (Q & Fv).
  destruct (proj1 (rcircuit_refines X m h pr P B A HP HB Hok sk Hs pc sp (msgs P bits) (store_cells pc (p_store st)) (cellN noise) g En Hpc Hsp (cellsN_ok _ _ _ S0) Nk) o _ Fv) as ([c0 w0] & Rv & Q1 & Q2).
  cbn [fst snd] in Q1, Q2. destruct c0 as [c0|]; [contradiction|]. destruct w0 as [[[t' x'] r0]|]; [|contradiction]. destruct Q2 as (<- & <- & kc & Rp & Enc).
  destruct r0 as [x|x|r|x|x], kc as [y|y|y|y|y]; cbn [represents] in Rp; try contradiction; try (cbn [encrypts] in Enc; contradiction). subst y.
  exists r. split; [exact Rv|]. eapply encrypts_weaken; [exact Q|exact Enc].
Qed.
Lemma runs_total st bits noise g outs out M s0 : storeN (p_store st) bits noise -> promises bits noise (length (p_store st)) g outs out M -> scratch_ok P s0 -> exists cs, runs X m pc st g outs cs.
Proof.
  intros S0 Pr H0. pose proof (promised st bits noise g outs out M (fun _ => s0) S0 Pr (fun _ => H0)) as V.
  assert (Ex : exists cs : list glwe, length cs = length outs /\ forall j o r, nth_error outs j = Some o -> nth_error cs j = Some r ->
    rvalue X m pc (fun _ => s0) (store_cells pc (p_store st)) g o (None, Some (TGlwe1, (length (p_store st) + j)%nat, RGlwe1 r))).
  { clear - V. assert (V' : forall j o, nth_error outs j = Some o -> exists r, rvalue X m pc (fun _ => s0) (store_cells pc (p_store st)) g o (None, Some (TGlwe1, (length (p_store st) + j)%nat, RGlwe1 r))).
    { intros j o Ho. destruct (V j o Ho) as (r & Hr & _). eauto. }
    clear V. revert V'. generalize (store_cells pc (p_store st)) as sc. generalize (length (p_store st)) as b. intros b sc. revert b. induction outs as [|o outs IH]; intros b V; [exists []; split; [reflexivity|intros [|j]; discriminate]|].
    destruct (V 0%nat o eq_refl) as (r & Hr). destruct (IH (S b)) as (cs & Lc & Hc).
    - intros j o' Hj. destruct (V (S j) o' Hj) as (r' & Hr'). exists r'. replace (S b + j)%nat with (b + S j)%nat by lia. exact Hr'.
    - exists (r :: cs). split; [cbn; congruence|]. intros [|j] o' r' H1 H2; [injection H1 as <-; injection H2 as <-; exact Hr|]. replace (b + S j)%nat with (S b + j)%nat by lia. eapply Hc; eassumption. }
  destruct Ex as (cs & Lc & Hc). exists cs, (fun _ => s0). split; [intros n; now rewrite (rk_params _ _ _ _ _ _ _ _ Hpc)|auto].
Qed.
Lemma runs_sound st bits noise g outs out M cs : storeN (p_store st) bits noise -> promises bits noise (length (p_store st)) g outs out M -> runs X m pc st g outs cs -> Forall2 (fun c b => enc M c b) cs out.
Proof.
  intros S0 Pr (sp & Hsp & Lc & Hc). rewrite (rk_params _ _ _ _ _ _ _ _ Hpc) in Hsp. pose proof (promised st bits noise g outs out M sp S0 Pr Hsp) as V. destruct Pr as (_ & _ & Lo & _).
  assert (Henc : forall j r, nth_error cs j = Some r -> enc M r (nth j out false)).
  { intros j r Hj. assert (Hj' : (j < length outs)%nat) by (rewrite <- Lc; apply nth_error_Some; congruence). destruct (nth_error outs j) as [o|] eqn:Ho; [|apply nth_error_None in Ho; lia].
    destruct (V j o Ho) as (r' & Rv & Enc). pose proof (Hc j o r Ho Hj) as Rv'. pose proof (proj1 (rvalue_fun X m pc sp (store_cells pc (p_store st)) g) _ _ Rv _ Rv') as Q. injection Q as ->. exact Enc. }
  assert (Lx : length cs = length out) by congruence. clear - Henc Lx. revert out Henc Lx. induction cs as [|x cs IH]; intros [|b out] Henc Lx; try discriminate; constructor.
  - apply (Henc 0%nat x eq_refl).
  - apply IH; [|now injection Lx]. intros j r Hj. apply (Henc (S j) r Hj).
Qed.

(** ** The circuits keep their promises *)
Lemma circuit_promises bits noise base c ds mc inputs refs E : compiled c mc inputs -> depth_at_most mc (c_arity c) -> diagrams_of c ds -> length refs = c_arity c ->
  (forall r, In r refs -> nth r noise 0 <= E) -> boot_margin P (E + switch_noise P B) ->
  exists g outs, insert_and_connect gempty mc inputs refs base = Ok (g, outs) /\ promises bits noise base g outs (c_fn c (bits_of bits refs)) (Z.of_nat (c_arity c) * sel).
Proof.
  intros Cp Dm Ds LR Hc Hm. destruct (cp_outs _ _ _ Cp) as (k & DS & Hv).
  assert (LR' : length refs = length inputs) by (rewrite (cp_arity _ _ _ Cp); exact LR).
  assert (EN : edges_ok (@gempty fop fedge)) by (intros s t l []).
  destruct (insert_and_connect_ok gempty mc inputs refs base k EN (cp_wf _ _ _ Cp) DS LR') as (g & outs & Ei & _ & Lo & V).
  assert (N0 : noise_ok P B (cellN noise) (@gempty fop fedge) (fun _ => 0)). { intros n o Hn. unfold node, gempty in Hn. cbn in Hn. destruct n; discriminate. }
  destruct (circuit_noise P B (cellN noise) E HB HN Hm gempty mc inputs refs base k (c_arity c) (fun _ => 0) Hc EN N0 (cp_wf _ _ _ Cp) DS LR' Dm) as (g' & outs' & En & Ei' & _ & Nk & Fo).
  rewrite Ei in Ei'. injection Ei' as <- <-. exists g, outs. split; [exact Ei|]. exists En. split; [exact Nk|].
  assert (Lv : length (bits_of bits refs) = c_arity c) by (rewrite bits_of_length; exact LR). destruct (Hv _ Lv) as (Lk & Hvo). split; [lia|].
  intros j o Ho. split; [apply (proj1 (Forall_forall _ _) Fo); eapply nth_error_In; eauto|].
  assert (Hj : (j < k)%nat) by (rewrite <- Lo; apply nth_error_Some; congruence). apply (ds_outs _ _ _ DS) in Hj. destruct Hj as (n & Hn). destruct (V n j Hn) as (o' & Ho' & Fv). rewrite Ho in Ho'. injection Ho' as <-.
  assert (Mt : cells_typed (msgs P bits)) by (intros t r; destruct t; reflexivity).
  specialize (Fv N (msgs P bits) (nth j (c_fn c (bits_of bits refs)) false) HN Mt).
  assert (Ev : map (fun r => bit_of (msgs P bits TGlwe1 r)) refs = bits_of bits refs).
  { apply map_ext. intros r. cbn [msgs bit_of]. pose proof HN as Np. clear - Np. unfold FheGraph.pconst. destruct N as [|N']; [lia|]. reflexivity. }
  rewrite Ev in Fv. exact (Fv (Hvo n j Hn)).
Qed.

Lemma empty_noise noise : edges_ok (@gempty fop fedge) /\ noise_ok P B (cellN noise) gempty (fun _ => 0).
Proof. split; [intros s t l []|]. intros n o Hn. unfold node, gempty in Hn. cbn in Hn. destruct n; discriminate. Qed.
Lemma bits_promises {T} bits noise base g (ps : list T) (val : T -> bool) (dst : T -> nat) os En M : noise_ok P B (cellN noise) g En -> length os = length ps ->
  (forall j p, nth_error ps j = Some p -> dst p = (base + j)%nat) ->
  (forall j o p, nth_error os j = Some o -> nth_error ps j = Some p -> En o <= M /\ fvalue N (msgs P bits) g o (None, Some (TGlwe1, dst p, CGlwe1 (FheGraph.pconst N (val p))))) ->
  promises bits noise base g os (map val ps) M.
Proof.
  intros Nk L Hd V. exists En. split; [exact Nk|]. split; [now rewrite map_length|]. intros j o Ho.
  assert (Hj : (j < length ps)%nat) by (rewrite <- L; apply nth_error_Some; congruence). destruct (nth_error ps j) as [p|] eqn:Hp; [|apply nth_error_None in Hp; lia].
  destruct (V j o p Ho Hp) as (Q & F). rewrite (Hd j p Hp) in F. split; [exact Q|].
  rewrite (nth_error_nth (map val ps) j false (map_nth_error val j ps Hp)). exact F.
Qed.

Lemma xor_promises bits noise base ha hb M1 M2 : length ha = length hb -> Forall (fun x => nth x noise 0 <= M1) ha -> Forall (fun x => nth x noise 0 <= M2) hb ->
  exists g outs, xor_graph ha hb base = Ok (g, outs) /\ promises bits noise base g outs (zipwith xorb (bits_of bits ha) (bits_of bits hb)) (M1 + M2).
Proof.
  intros L F1 F2. destruct (empty_noise noise) as (EN & N0).
  destruct (fold_bits P B (cellN noise) (msgs P bits) HN xor_bit (fun p => xorb (nth (fst (fst p)) bits false) (nth (snd (fst p)) bits false)) snd (M1 + M2) (fun _ _ => True) (fun _ _ _ _ _ _ _ => I)
    (combine (combine ha hb) (seq base (length ha)))) with (g := @gempty fop fedge) (acc := @nil nat) (E := fun _ : nat => 0) as (g & os & E' & Eq & _ & Nk & Lo & _ & V); auto.
  - intros [[a b] r] g E acc Hp ENg Hg _. apply in_combine_l in Hp. pose proof (in_combine_l _ _ _ _ Hp) as Ha. pose proof (in_combine_r _ _ _ _ Hp) as Hb.
    apply (xor_bit_ok P B (cellN noise) (msgs P bits) HN bits noise (fun _ => eq_refl) (fun _ => eq_refl)); auto. cbn [fst snd].
    pose proof (proj1 (Forall_forall _ _) F1 a Ha). pose proof (proj1 (Forall_forall _ _) F2 b Hb). cbn beta in *. lia.
  - exists g, os. split; [exact Eq|]. rewrite <- (zip_bits bits ha hb base L). eapply bits_promises; [exact Nk|exact Lo| |exact V].
    intros j p Hp. assert (Lc : length ha = length (combine ha hb)) by (rewrite combine_length; lia). rewrite Lc in Hp. exact (combine_snd _ _ _ _ Hp).
Qed.
Lemma not_promises bits noise base ha M : Forall (fun x => nth x noise 0 <= M) ha ->
  exists g outs, not_graph ha base = Ok (g, outs) /\ promises bits noise base g outs (map negb (bits_of bits ha)) M.
Proof.
  intros F1. destruct (empty_noise noise) as (EN & N0).
  destruct (fold_bits P B (cellN noise) (msgs P bits) HN not_bit (fun p => negb (nth (fst p) bits false)) snd M (fun _ _ => True) (fun _ _ _ _ _ _ _ => I)
    (combine ha (seq base (length ha)))) with (g := @gempty fop fedge) (acc := @nil nat) (E := fun _ : nat => 0) as (g & os & E' & Eq & _ & Nk & Lo & _ & V); auto.
  - intros [a r] g E acc Hp ENg Hg _. apply in_combine_l in Hp.
    apply (not_bit_ok P B (cellN noise) (msgs P bits) HN bits noise (fun _ => eq_refl) (fun _ => eq_refl)); auto. cbn [fst snd]. exact (proj1 (Forall_forall _ _) F1 a Hp).
  - exists g, os. split; [exact Eq|]. rewrite <- (neg_bits bits ha base). eapply bits_promises; [exact Nk|exact Lo| |exact V]. intros j p Hp. exact (combine_snd _ _ _ _ Hp).
Qed.
Lemma cmux_promises bits noise base hs ha hb Es Ma Mb : length ha = length hb -> nth hs noise 0 <= Es -> boot_margin P (Es + switch_noise P B) ->
  Forall (fun x => nth x noise 0 <= Ma) ha -> Forall (fun x => nth x noise 0 <= Mb) hb ->
  exists g outs, cmux_graph hs ha hb base = Ok (g, outs) /\ promises bits noise base g outs (bits_of bits (if nth hs bits false then ha else hb)) (Z.max Ma Mb + sel).
Proof.
  intros L Hes Hm F1 F2. destruct (empty_noise noise) as (EN & N0). unfold cmux_graph.
  destruct (input_step P B (cellN noise) (msgs P bits) HN bits noise (fun _ => eq_refl) (fun _ => eq_refl) gempty (fun _ => 0) hs EN N0) as (g1 & -> & G1 & C1 & H1 & O1 & V1). cbn [bind].
  set (n1 := size (@gempty fop fedge)) in *. set (E1 := upd _ n1 _) in *. assert (S1 : E1 n1 = nth hs noise 0) by apply upd_same.
  destruct (op_step P B (cellN noise) (msgs P bits) HN g1 E1 (FSampleExtract 0) [(n1, EUnary)] Es (proj1 G1) H1) as (g2 & -> & G2 & C2 & H2 & O2 & V2).
  { intros s l [Hi|[]]. injection Hi as <- <-. exact C1. }
  { split; [exact I|]. cbn [map rev app fst snd op_noise]. unfold noise0. cbn. lia. }
  cbn [bind]. set (E2 := upd E1 (size g1) Es) in *. assert (S2 : E2 (size g1) = Es) by apply upd_same.
  assert (W2 : carries N (msgs P bits) g2 (size g1) (CLwe1 (nth hs bits false))).
  { apply (V2 [CGlwe1 (FheGraph.pconst N (nth hs bits false))]); [repeat constructor; exact V1|]. unfold exec_op. cbn. pose proof HN as Np. clear - Np. unfold FheGraph.pconst. destruct N as [|N']; [lia|]. reflexivity. }
  destruct (op_step P B (cellN noise) (msgs P bits) HN g2 E2 FKeyswitch [(size g1, EUnary)] (Es + switch_noise P B) (proj1 G2) H2) as (g3 & -> & G3 & C3 & H3 & O3 & V3).
  { intros s l [Hi|[]]. injection Hi as <- <-. exact C2. }
  { split; [exact I|]. cbn [map rev app fst snd op_noise]. unfold noise0. cbn. lia. }
  cbn [bind]. set (E3 := upd E2 (size g2) (Es + switch_noise P B)) in *. assert (S3 : E3 (size g2) = Es + switch_noise P B) by apply upd_same.
  assert (W3 : carries N (msgs P bits) g3 (size g2) (CLwe0 (nth hs bits false))) by (apply (V3 [CLwe1 (nth hs bits false)]); [repeat constructor; exact W2|reflexivity]).
  destruct (op_step P B (cellN noise) (msgs P bits) HN g3 E3 FCbs [(size g2, EUnary)] (boot_noise P B) (proj1 G3) H3) as (g4 & -> & G4 & C4 & H4 & O4 & V4).
  { intros s l [Hi|[]]. injection Hi as <- <-. exact C3. }
  { cbn [map rev app fst snd op_noise op_cond]. unfold noise0. cbn [nth fst snd]. rewrite S3. split; [exact Hm|lia]. }
  cbn [bind]. set (E4 := upd E3 (size g3) (boot_noise P B)) in *. assert (S4 : E4 (size g3) = boot_noise P B) by apply upd_same.
  assert (W4 : carries N (msgs P bits) g4 (size g3) (CGgsw1 (nth hs bits false))) by (apply (V4 [CLwe0 (nth hs bits false)]); [repeat constructor; exact W3|reflexivity]).
  set (s := size g3) in *.
  destruct (fold_bits P B (cellN noise) (msgs P bits) HN (cmux_bit s) (fun p => if nth hs bits false then nth (fst (fst p)) bits false else nth (snd (fst p)) bits false) snd (Z.max Ma Mb + sel)
    (fun g E => contains g s = true /\ E s = boot_noise P B /\ carries N (msgs P bits) g s (CGgsw1 (nth hs bits false)))) with
    (ps := combine (combine ha hb) (seq base (length ha))) (g := g4) (acc := @nil nat) (E := E4) as (g & os & E' & Eq & _ & Nk & Lo & _ & V); auto.
  - intros g g' E E' (K1 & K2 & K3) G O. split; [now apply (proj2 G)|]. split; [now rewrite O|]. eapply grows_carries; eassumption.
  - intros [[a b] r] g E acc Hp ENg Hg (K1 & K2 & K3). apply in_combine_l in Hp. pose proof (in_combine_l _ _ _ _ Hp) as Ha. pose proof (in_combine_r _ _ _ _ Hp) as Hb.
    apply (cmux_bit_ok P B (cellN noise) (msgs P bits) HN bits noise (fun _ => eq_refl) (fun _ => eq_refl)); auto. cbn [fst snd].
    pose proof (proj1 (Forall_forall _ _) F1 a Ha). pose proof (proj1 (Forall_forall _ _) F2 b Hb). cbn beta in *. lia.
  - exact (proj1 G4).
  - exists g, os. split; [exact Eq|]. rewrite <- (sel_bits bits (nth hs bits false) ha hb base L). eapply bits_promises; [exact Nk|exact Lo| |exact V].
    intros j p Hp. assert (Lc : length ha = length (combine ha hb)) by (rewrite combine_length; lia). rewrite Lc in Hp. exact (combine_snd _ _ _ _ Hp).
Qed.

(** ** Writing a register *)
Definition regs_ok (bits : list bool) (noise : list Z) (st : pstate) (v : xvals) : Prop :=
  forall r, Forall (fun h => (h < length bits)%nat /\ nth h noise 0 <= v_noise (v r)) (p_regs st r) /\ 0 <= v_noise (v r) /\
      Z.of_nat (length (p_regs st r)) = v_width (v r) /\ uval (bits_of bits (p_regs st r)) = v_value (v r).
Lemma combine_app' {T U} (l1 l2 : list T) (m1 m2 : list U) : length l1 = length m1 -> combine (l1 ++ l2) (m1 ++ m2) = combine l1 m1 ++ combine l2 m2.
Proof. revert m1. induction l1 as [|x l1 IH]; intros [|y m1] L; try discriminate; [reflexivity|]. cbn [app combine]. f_equal. apply IH. now injection L. Qed.
Lemma put_holds st v bits noise out M cs dst hs x : storeN (p_store st) bits noise -> regs_ok bits noise st v -> 0 <= M -> Forall2 (fun c b => enc M c b) cs out ->
  Forall (fun n => (n < length bits + length out)%nat /\ nth n (noise ++ repeat M (length out)) 0 <= v_noise x) hs -> 0 <= v_noise x -> Z.of_nat (length hs) = v_width x ->
  uval (bits_of (bits ++ out) hs) = v_value x -> xholds P sk (put st dst hs cs) (setv v dst x).
Proof.
  intros (Ln & F) R HM Fc Fh Hn Hw Hv. exists (bits ++ out), (noise ++ repeat M (length out)). split; [rewrite !app_length, repeat_length; lia|]. split.
  - cbn [put p_store]. rewrite combine_app' by congruence. apply Forall2_app; [exact F|]. clear - Fc HM. induction Fc as [|c b cs out Hc _ IH]; cbn [length repeat combine]; constructor; auto.
  - intros r. unfold setv. cbn [put p_regs]. destruct (r =? dst)%nat.
    + rewrite app_length. auto.
    + destruct (R r) as (R1 & R2 & R3 & R4). assert (Fr : Forall (fun n => (n < length bits)%nat) (p_regs st r)) by (eapply Forall_impl; [|exact R1]; cbn; tauto).
      split; [|split; [exact R2|split; [exact R3|now rewrite bits_of_app]]]. eapply Forall_impl; [|exact R1]. cbn. intros n (Q1 & Q2). rewrite app_length, app_nth1 by lia. split; [lia|exact Q2].
Qed.
Lemma put_new st v bits noise out M cs dst hs x : storeN (p_store st) bits noise -> regs_ok bits noise st v -> 0 <= M -> Forall2 (fun c b => enc M c b) cs out ->
  (forall n, In n hs -> In n (seq (length bits) (length out))) -> M <= v_noise x -> Z.of_nat (length hs) = v_width x ->
  uval (bits_of (bits ++ out) hs) = v_value x -> xholds P sk (put st dst hs cs) (setv v dst x).
Proof.
  intros S0 R HM Fc Fh Hn Hw Hv. apply (put_holds st v bits noise out M); auto; [|lia]. apply Forall_forall. intros n Hi. apply Fh, in_seq in Hi. split; [lia|].
  destruct S0 as (Ln & _). rewrite app_nth2 by lia. rewrite Ln. assert (Q : forall k i, (i < k)%nat -> nth i (repeat M k) 0 = M). { induction k as [|k IH]; intros [|i] Hi'; try (exfalso; lia); [reflexivity|]. cbn [repeat nth]. apply IH. lia. }
  rewrite Q by lia. exact Hn.
Qed.
Lemma zero_enc : Forall2 (fun c b => enc 0 c b) [rp_zero_glwe1 pc] [false].
Proof.
  constructor; [|constructor]. destruct (rk_zero_glwe1 _ _ _ _ _ _ _ _ Hpc) as (kc & Rp & Enc). destruct kc as [y|y|y|y|y]; cbn [represents] in Rp; try contradiction; try (cbn [encrypts] in Enc; contradiction). subst y. exact Enc.
Qed.
Lemma put_moved st v bits noise dst a hs x : storeN (p_store st) bits noise -> regs_ok bits noise st v -> (forall n, In n hs -> n = length bits \/ In n (p_regs st a)) ->
  v_noise x = v_noise (v a) -> Z.of_nat (length hs) = v_width x -> uval (bits_of (bits ++ [false]) hs) = v_value x -> xholds P sk (put st dst hs [rp_zero_glwe1 pc]) (setv v dst x).
Proof.
  intros S0 R Fh Hn Hw Hv. destruct (R a) as (R1 & R2 & _). apply (put_holds st v bits noise [false] 0); auto; [lia|apply zero_enc| |lia]. destruct S0 as (Ln & _).
  apply Forall_forall. intros n Hi. cbn [length repeat]. destruct (Fh n Hi) as [->|Ho].
  - split; [lia|]. rewrite <- Ln, app_nth2, Nat.sub_diag by lia. cbn [nth]. lia.
  - destruct (proj1 (Forall_forall _ _) R1 n Ho) as (Q1 & Q2). split; [lia|]. rewrite app_nth1 by lia. lia.
Qed.
Lemma put_copied st v bits noise dst a hs x : storeN (p_store st) bits noise -> regs_ok bits noise st v -> (forall n, In n hs -> In n (p_regs st a)) ->
  v_noise x = v_noise (v a) -> Z.of_nat (length hs) = v_width x -> uval (bits_of bits hs) = v_value x -> xholds P sk (put st dst hs []) (setv v dst x).
Proof.
  intros S0 R Fh Hn Hw Hv. destruct (R a) as (R1 & R2 & _). apply (put_holds st v bits noise [] 0); auto; [lia| |lia|now rewrite app_nil_r].
  apply Forall_forall. intros n Hi. cbn [length repeat]. destruct (proj1 (Forall_forall _ _) R1 n (Fh n Hi)) as (Q1 & Q2). rewrite app_nil_r. split; [lia|]. lia.
Qed.

(** ** One instruction *)
Let boots (E : Z) : Prop := boot_margin P (E + switch_noise P B).
Lemma noise_le bits noise st v r x : regs_ok bits noise st v -> In x (p_regs st r) -> nth x noise 0 <= v_noise (v r).
Proof. intros R Hi. destruct (R r) as (R1 & _). exact (proj2 (proj1 (Forall_forall _ _) R1 x Hi)). Qed.
Lemma noise_all bits noise st v r : regs_ok bits noise st v -> Forall (fun x => nth x noise 0 <= v_noise (v r)) (p_regs st r).
Proof. intros R. apply Forall_forall. intros x Hi. eapply noise_le; eauto. Qed.

Lemma bin_step s0 st v i : scratch_ok P s0 -> xholds P sk st v -> xinstr_ok boots v (XBin i) ->
  (exists st', xstep X m pc st (XBin i) st') /\ forall st', xstep X m pc st (XBin i) st' -> xholds P sk st' (xvals_step sel v (XBin i)).
Proof.
  intros H0 (bits & noise & Ln & F & R) (Ew & Hw & Ho & Hb). pose proof (conj Ln F : storeN (p_store st) bits noise) as S0. pose proof (storeN_length _ _ _ S0) as Ls. change (regs_ok bits noise st v) in R.
  destruct (R (pi_a i)) as (_ & _ & La & Ua). destruct (R (pi_b i)) as (_ & _ & Lb & Ub). unfold width_ok in Hw.
  assert (Li : length (interleave (p_regs st (pi_a i)) (p_regs st (pi_b i))) = (2 * length (p_regs st (pi_a i)))%nat) by (rewrite CircuitsProofs.interleave_length_min; lia).
  assert (Core : forall c ds, bin_circuit (pi_op i) (length (p_regs st (pi_a i))) = Ok c -> diagrams_of c ds -> exists mc inputs g outs, bin_compile (pi_op i) ds = Ok (mc, inputs) /\
    insert_and_connect gempty mc inputs (interleave (p_regs st (pi_a i)) (p_regs st (pi_b i))) (length (p_store st)) = Ok (g, outs) /\
    promises bits noise (length (p_store st)) g outs (c_fn c (bits_of bits (interleave (p_regs st (pi_a i)) (p_regs st (pi_b i))))) (2 * v_width (v (pi_a i)) * sel)).
  { intros c ds Ec Ds. destruct (bin_facts _ _ _ Ec) as (Ar & _). destruct (bin_compiled (pi_op i) c ds Ds) as (mc & inputs & Em & Cp & Dm). exists mc, inputs.
    destruct (circuit_promises bits noise (length (p_store st)) c ds mc inputs (interleave (p_regs st (pi_a i)) (p_regs st (pi_b i))) (Z.max (v_noise (v (pi_a i))) (v_noise (v (pi_b i)))) Cp Dm Ds ltac:(lia)) as (g & outs & Ei & Pr).
    - intros r Hr. apply in_interleave in Hr as [Hr|Hr]; pose proof (noise_le _ _ _ _ _ _ R Hr); lia.
    - exact Hb.
    - exists g, outs. split; [exact Em|]. split; [exact Ei|]. replace (2 * v_width (v (pi_a i))) with (Z.of_nat (c_arity c)) by lia. exact Pr. }
  pose proof (sel_nonneg P B HB HN) as Sn. split.
  - destruct (bin_total (pi_op i) (length (p_regs st (pi_a i))) ltac:(lia) Ho) as (c & Ec). destruct (bin_facts _ _ _ Ec) as (Ar & Lo).
    assert (Kp : (0 < pout_len (pi_op i) (length (p_regs st (pi_a i))))%nat) by (destruct (pi_op i); cbn [pout_len]; lia).
    destruct (diagrams_exist c _ Kp) as (ds & _ & Ds); [intros u Hu; apply Lo; lia|]. destruct (Core c ds Ec Ds) as (mc & inputs & g & outs & Em & Ei & Pr).
    destruct (runs_total st bits noise g outs _ _ s0 S0 Pr H0) as (cs & sp & Hsp & Lc & Hc). eexists. apply xs_bin. exact (pstep_intro X m pc st i c ds mc inputs g outs sp cs Ec Ds Em Ei Hsp Lc Hc).
  - intros st' St. inversion St as [i' st0 Sp| | | | | | | |]; subst. destruct Sp as [c ds mc inputs g outs sp cs Ec Ds Em Ei Hsp Lc Hc].
    destruct (Core c ds Ec Ds) as (mc' & inputs' & g' & outs' & Em' & Ei' & Pr). rewrite Em in Em'. injection Em' as <- <-. rewrite Ei in Ei'. injection Ei' as <- <-.
    pose proof (runs_sound st bits noise g outs _ _ cs S0 Pr (ex_intro _ sp (conj Hsp (conj Lc Hc)))) as Fc. destruct Pr as (_ & _ & Lo & _).
    cbn [xvals_step]. set (out := c_fn c _) in *.
    destruct (bin_value (pi_op i) (length (p_regs st (pi_a i))) c (bits_of bits (p_regs st (pi_a i))) (bits_of bits (p_regs st (pi_b i))) Ec ltac:(lia) ltac:(apply bits_of_length) ltac:(rewrite bits_of_length; lia)) as (Q1 & Q2).
    assert (Eo : c_fn c (interleave (bits_of bits (p_regs st (pi_a i))) (bits_of bits (p_regs st (pi_b i)))) = out) by (unfold out, bits_of; now rewrite interleave_map).
    rewrite Eo in Q1, Q2. change {| p_regs := fun r => if (r =? pi_dst i)%nat then bin_result (pi_op i) (seq (length (p_store st)) (length outs)) else p_regs st r; p_store := p_store st ++ cs |} with
      (put st (pi_dst i) (bin_result (pi_op i) (seq (length (p_store st)) (length outs))) cs). rewrite Ls, Lo.
    apply (put_new st v bits noise out (2 * v_width (v (pi_a i)) * sel)); auto; cbn [v_noise v_width v_value].
    + apply Z.mul_nonneg_nonneg; lia.
    + intros n Hn. now apply bin_result_incl in Hn.
    + lia.
    + rewrite <- (map_length (fun x => nth x (bits ++ out) false)), <- bin_result_map, nth_seq_app, Q1, La. reflexivity.
    + unfold bits_of. rewrite <- bin_result_map, nth_seq_app, Q2, Ua, Ub, La. reflexivity.
Qed.
Lemma rev_bits_of bits l : rev (bits_of bits l) = bits_of bits (rev l).
Proof. unfold bits_of. now rewrite map_rev. Qed.
Lemma shift_step s0 st v op dst a s : scratch_ok P s0 -> xholds P sk st v -> xinstr_ok boots v (XShift op dst a s) ->
  (exists st', xstep X m pc st (XShift op dst a s) st') /\ forall st', xstep X m pc st (XShift op dst a s) st' -> xholds P sk st' (xvals_step sel v (XShift op dst a s)).
Proof.
  intros H0 (bits & noise & Ln & F & R) (Hw & Hws & Hle & Hr & Hb). pose proof (conj Ln F : storeN (p_store st) bits noise) as S0. pose proof (storeN_length _ _ _ S0) as Ls. change (regs_ok bits noise st v) in R.
  destruct (R a) as (_ & _ & La & Ua). destruct (R s) as (_ & _ & Lb & Ub). unfold width_ok in Hw. set (ha := p_regs st a) in *. set (hs := p_regs st s) in *.
  destruct (shift_total op (length ha) (length hs)) as (c0 & Ec0 & Vc & Lc0); [lia|lia| | |].
  { apply Nat2Z.inj_le. rewrite Nat2Z.inj_pow, La, Lb. exact Hle. }
  { replace (length ha) with (Z.to_nat (v_width (v a))) by lia. exact Hr. }
  pose proof (shift_facts _ _ _ _ Ec0) as Ar.
  assert (Core : forall ds, diagrams_of c0 ds -> exists mc inputs g outs, (' (g, _) <- from_bdds ds ;; optimize g) = Ok (mc, inputs) /\
    insert_and_connect gempty mc inputs (rev ha ++ rev hs) (length (p_store st)) = Ok (g, outs) /\
    promises bits noise (length (p_store st)) g outs (c_fn c0 (bits_of bits (rev ha ++ rev hs))) ((v_width (v a) + v_width (v s)) * sel)).
  { intros ds Ds. destruct (diagrams_compiled c0 ds Ds) as (g1 & i1 & mc & inputs & E1 & E2 & _ & Cp & Dm). exists mc, inputs.
    destruct (circuit_promises bits noise (length (p_store st)) c0 ds mc inputs (rev ha ++ rev hs) (Z.max (v_noise (v a)) (v_noise (v s))) Cp Dm Ds) as (g & outs & Ei & Pr).
    - rewrite app_length, !rev_length. lia.
    - intros r Hi. apply in_app_or in Hi as [Hi|Hi]; apply in_rev in Hi; pose proof (noise_le _ _ _ _ _ _ R Hi); lia.
    - exact Hb.
    - exists g, outs. rewrite E1. cbn [bind]. split; [exact E2|]. split; [exact Ei|]. replace (v_width (v a) + v_width (v s)) with (Z.of_nat (c_arity c0)) by lia. exact Pr. }
  pose proof (sel_nonneg P B HB HN) as Sn. split.
  - destruct (diagrams_exist c0 (length ha) ltac:(lia)) as (ds & _ & Ds); [intros u Hu; apply Lc0; lia|]. destruct (Core ds Ds) as (mc & inputs & g & outs & Em & Ei & Pr).
    destruct (runs_total st bits noise g outs _ _ s0 S0 Pr H0) as (cs & Hc). eexists. exact (xs_shift X m pc st op dst a s c0 ds mc inputs g outs cs Ec0 Ds Em Ei Hc).
  - intros st' St. inversion St as [|? ? ? ? c ds mc inputs g outs cs Ec Ds Em Ei Hc| | | | | | |]; subst. fold ha hs in Ec, Ei. rewrite Ec0 in Ec. injection Ec as <-.
    destruct (Core ds Ds) as (mc' & inputs' & g' & outs' & Em' & Ei' & Pr). rewrite Em in Em'. injection Em' as <- <-. rewrite Ei in Ei'. injection Ei' as <- <-.
    pose proof (runs_sound st bits noise g outs _ _ cs S0 Pr Hc) as Fc. destruct Pr as (_ & _ & Lo & _).
    cbn [xvals_step]. set (out := c_fn c0 _) in *.
    destruct (Vc (bits_of bits ha) (bits_of bits hs) ltac:(apply bits_of_length) ltac:(apply bits_of_length)) as (Q1 & Q2).
    assert (Eo : c_fn c0 (rev (bits_of bits ha) ++ rev (bits_of bits hs)) = out) by (unfold out, bits_of; now rewrite map_app, !map_rev).
    rewrite Eo in Q1, Q2. rewrite Ls, Lo.
    apply (put_new st v bits noise out ((v_width (v a) + v_width (v s)) * sel)); auto; cbn [v_noise v_width v_value].
    + apply Z.mul_nonneg_nonneg; lia.
    + intros n Hn. now apply in_rev in Hn.
    + lia.
    + rewrite rev_length, seq_length. lia.
    + rewrite <- rev_bits_of, bits_of_new, Q2, Ua, Ub, La. reflexivity.
Qed.
Lemma xstep_ok s0 st v i : scratch_ok P s0 -> xholds P sk st v -> xinstr_ok boots v i ->
  (exists st', xstep X m pc st i st') /\ forall st', xstep X m pc st i st' -> xholds P sk st' (xvals_step sel v i).
Proof.
  intros H0 Hx Hi. pose proof (sel_nonneg P B HB HN) as Sn. destruct i as [i|op dst a s|op dst a s|dst a b|dst a|dst s a b|dst a|signed dst a w|dst a w].
  - now apply (bin_step s0).
  - now apply (shift_step s0).
  - destruct Hx as (bits & noise & Ln & F & R). pose proof (conj Ln F : storeN (p_store st) bits noise) as S0. pose proof (storeN_length _ _ _ S0) as Ls. change (regs_ok bits noise st v) in R.
    destruct Hi as (Hw & Hsw). unfold width_ok in Hw. destruct (R a) as (Ra & _ & La & Ua).
    assert (Hn : p_regs st a <> []) by (intros Q; rewrite Q in La; cbn in La; lia).
    split; [eexists; apply xs_shift_by; lia|]. intros st' St. inversion St as [| |? ? ? ? G1 G2| | | | | |]; subst. cbn [xvals_step].
    assert (Fo : Forall (fun n => (n < length bits)%nat) (p_regs st a)) by (eapply Forall_impl; [|exact Ra]; cbn; tauto).
    pose proof (shift_bits (fun n => nth n (bits ++ [false]) false) op (length bits) s (p_regs st a) G1 G2 ltac:(cbn beta; now rewrite app_nth2, Nat.sub_diag by lia)) as Eb.
    fold (bits_of (bits ++ [false]) (p_regs st a)) in Eb. rewrite bits_of_app in Eb by exact Fo.
    destruct (evps_ok op (bits_of bits (p_regs st a)) s) as (out & Eo & Lo & Uo); rewrite ?bits_of_length; try lia. rewrite Eo in Eb. injection Eb as Eb. rewrite bits_of_length in *.
    rewrite Ls. apply (put_moved st v bits noise dst a); auto; cbn [v_noise v_width v_value].
    + intros n Hin. now apply (shift_handles_in op _ s) in Hin.
    + rewrite <- (map_length (fun n => nth n (bits ++ [false]) false)), <- Eb. lia.
    + unfold bits_of. rewrite <- Eb, Uo, La, Ua. reflexivity.
  - destruct Hx as (bits & noise & Ln & F & R). pose proof (conj Ln F : storeN (p_store st) bits noise) as S0. pose proof (storeN_length _ _ _ S0) as Ls. change (regs_ok bits noise st v) in R.
    destruct Hi as (Ew & _). destruct (R a) as (_ & Na & La & Ua). destruct (R b) as (_ & Nb & Lb & Ub).
    destruct (xor_promises bits noise (length (p_store st)) (p_regs st a) (p_regs st b) (v_noise (v a)) (v_noise (v b)) ltac:(lia) (noise_all _ _ _ _ _ R) (noise_all _ _ _ _ _ R)) as (g & outs & Eg & Pr). split.
    + destruct (runs_total st bits noise g outs _ _ s0 S0 Pr H0) as (cs & Hc). eexists. exact (xs_xor X m pc st dst a b g outs cs ltac:(lia) Eg Hc).
    + intros st' St. inversion St as [| | |? ? ? g' outs' cs Hl Eg' Hc| | | | |]; subst. rewrite Eg in Eg'. injection Eg' as <- <-.
      pose proof (runs_sound st bits noise g outs _ _ cs S0 Pr Hc) as Fc. destruct Pr as (_ & _ & Lo & _). rewrite Ls, Lo. cbn [xvals_step].
      apply (put_new st v bits noise (zipwith xorb (bits_of bits (p_regs st a)) (bits_of bits (p_regs st b))) (v_noise (v a) + v_noise (v b)) cs); auto; cbn [v_noise v_width v_value]; try lia.
      * rewrite seq_length, CircuitsProofs.zipwith_length, !bits_of_length. lia.
      * rewrite bits_of_new, CircuitsProofs.uval_zipwith_xor, Ua, Ub by (rewrite !bits_of_length; lia). reflexivity.
  - destruct Hx as (bits & noise & Ln & F & R). pose proof (conj Ln F : storeN (p_store st) bits noise) as S0. pose proof (storeN_length _ _ _ S0) as Ls. change (regs_ok bits noise st v) in R.
    destruct (R a) as (_ & Na & La & Ua).
    destruct (not_promises bits noise (length (p_store st)) (p_regs st a) (v_noise (v a)) (noise_all _ _ _ _ _ R)) as (g & outs & Eg & Pr). split.
    + destruct (runs_total st bits noise g outs _ _ s0 S0 Pr H0) as (cs & Hc). eexists. exact (xs_not X m pc st dst a g outs cs Eg Hc).
    + intros st' St. inversion St as [| | | |? ? g' outs' cs Eg' Hc| | | |]; subst. rewrite Eg in Eg'. injection Eg' as <- <-.
      pose proof (runs_sound st bits noise g outs _ _ cs S0 Pr Hc) as Fc. destruct Pr as (_ & _ & Lo & _). rewrite Ls, Lo. cbn [xvals_step].
      apply (put_new st v bits noise (map negb (bits_of bits (p_regs st a))) (v_noise (v a)) cs); auto; cbn [v_noise v_width v_value]; try lia.
      * rewrite seq_length, map_length, bits_of_length. lia.
      * rewrite bits_of_new, uval_negb, bits_of_length, Ua, La. reflexivity.
  - destruct Hx as (bits & noise & Ln & F & R). pose proof (conj Ln F : storeN (p_store st) bits noise) as S0. pose proof (storeN_length _ _ _ S0) as Ls. change (regs_ok bits noise st v) in R.
    destruct Hi as (Es & Ew & Hb). destruct (R a) as (_ & Na & La & Ua). destruct (R b) as (_ & Nb & Lb & Ub). destruct (R s) as (_ & Ns & Lss & Us).
    destruct (p_regs st s) as [|hs [|? ?]] eqn:Ers; cbn [length] in Lss; try lia.
    assert (Hhs : nth hs noise 0 <= v_noise (v s)) by (apply (noise_le bits noise st v s); auto; rewrite Ers; now left).
    destruct (cmux_promises bits noise (length (p_store st)) hs (p_regs st a) (p_regs st b) (v_noise (v s)) (v_noise (v a)) (v_noise (v b)) ltac:(lia) Hhs Hb (noise_all _ _ _ _ _ R) (noise_all _ _ _ _ _ R)) as (g & outs & Eg & Pr). split.
    + destruct (runs_total st bits noise g outs _ _ s0 S0 Pr H0) as (cs & Hc). eexists. apply (xs_cmux X m pc st dst s a b g outs cs); [now rewrite Ers|lia|rewrite Ers; exact Eg|exact Hc].
    + intros st' St. inversion St as [| | | | |? ? ? ? g' outs' cs Hl Hl' Eg' Hc| | |]; subst. rewrite Ers in Eg'. cbn [nth] in Eg'. rewrite Eg in Eg'. injection Eg' as <- <-.
      pose proof (runs_sound st bits noise g outs _ _ cs S0 Pr Hc) as Fc. destruct Pr as (_ & _ & Lo & _). rewrite Ls, Lo. cbn [xvals_step].
      apply (put_new st v bits noise (bits_of bits (if nth hs bits false then p_regs st a else p_regs st b)) (Z.max (v_noise (v a)) (v_noise (v b)) + sel) cs); auto; cbn [v_noise v_width v_value]; try lia.
      * rewrite seq_length, bits_of_length. destruct (nth hs bits false); lia.
      * rewrite bits_of_new. cbn [bits_of map uval] in Us. rewrite <- Us. destruct (nth hs bits false); cbn [b2z Z.add Z.mul Z.eqb]; assumption.
  - destruct Hx as (bits & noise & Ln & F & R). pose proof (conj Ln F : storeN (p_store st) bits noise) as S0. change (regs_ok bits noise st v) in R. destruct (R a) as (_ & Na & La & Ua).
    split; [eexists; apply xs_mov|]. intros st' St. inversion St; subst. cbn [xvals_step]. apply (put_copied st v bits noise dst a); auto.
  - destruct Hx as (bits & noise & Ln & F & R). pose proof (conj Ln F : storeN (p_store st) bits noise) as S0. pose proof (storeN_length _ _ _ S0) as Ls. change (regs_ok bits noise st v) in R. destruct (R a) as (Ra & Na & La & Ua).
    destruct Hi as (Hw & Hw2). unfold width_ok in Hw. assert (Hn : p_regs st a <> []) by (intros Q; rewrite Q in La; cbn in La; lia).
    split; [eexists; apply xs_ext; lia|]. intros st' St. inversion St as [| | | | | | |? ? ? ? G1 G2|]; subst. cbn [xvals_step]. rewrite Ls.
    assert (Fo : Forall (fun n => (n < length bits)%nat) (p_regs st a)) by (eapply Forall_impl; [|exact Ra]; cbn; tauto).
    pose proof (ext_bits (fun n => nth n (bits ++ [false]) false) signed (length bits) w (p_regs st a) ltac:(cbn beta; now rewrite app_nth2, Nat.sub_diag by lia) (fun _ => Hn)) as Eb.
    fold (bits_of (bits ++ [false]) (p_regs st a)) in Eb. rewrite bits_of_app in Eb by exact Fo.
    apply (put_moved st v bits noise dst a); auto; cbn [v_noise v_width v_value].
    + intros n Hin. apply ext_handles_in in Hin; auto.
    + unfold ext_handles. rewrite app_length, repeat_length. lia.
    + unfold bits_of at 1. rewrite Eb. destruct signed.
      * rewrite sext_value, bits_of_length, Ua, La by (rewrite bits_of_length; lia). f_equal. f_equal. lia.
      * rewrite uval_app, uval_repeat_false. lia.
  - destruct Hx as (bits & noise & Ln & F & R). pose proof (conj Ln F : storeN (p_store st) bits noise) as S0. change (regs_ok bits noise st v) in R. destruct (R a) as (_ & Na & La & Ua).
    destruct Hi as (Hw & Hw2). split; [eexists; apply xs_trunc; lia|]. intros st' St. inversion St; subst. cbn [xvals_step]. apply (put_copied st v bits noise dst a); auto; cbn [v_noise v_width v_value].
    + intros n Hin. rewrite <- (firstn_skipn w (p_regs st a)). apply in_or_app. now left.
    + rewrite firstn_length. lia.
    + unfold bits_of. rewrite <- firstn_map, uval_firstn by (rewrite map_length; lia). fold (bits_of bits (p_regs st a)). now rewrite Ua.
Qed.
Lemma xrun_ok s0 : scratch_ok P s0 -> forall is st v, xholds P sk st v -> xprog_ok boots sel v is ->
  (exists st', xrun X m pc st is st') /\ forall st', xrun X m pc st is st' -> xholds P sk st' (xvals_run sel v is).
Proof.
  intros H0. induction is as [|i is IH]; intros st v Hx Pk; cbn [xprog_ok] in Pk.
  - split; [exists st; constructor|]. intros st' R. inversion R; subst. exact Hx.
  - destruct Pk as (Hi & Pk). destruct (xstep_ok s0 st v i H0 Hx Hi) as ((st1 & S1) & Sd). split.
    + destruct (IH st1 _ (Sd st1 S1) Pk) as ((st' & R) & _). exists st'. econstructor; eassumption.
    + intros st' R. inversion R as [|? ? st2 ? ? S2 R2]; subst. apply (IH st2); auto.
Qed.
Lemma xholds_decrypts st v r : xholds P sk st v -> v_noise (v r) < 2 ^ 62 -> reg_decrypts pr P sk st r (v_width (v r), v_value (v r)).
Proof.
  intros (bits & noise & Ln & F & R) Hd. destruct (R r) as (R1 & _ & Rl & Ru). exists (bits_of bits (p_regs st r)). cbn [fst snd]. split; [now rewrite bits_of_length|]. split; [exact Ru|].
  clear Rl Ru R. induction R1 as [|x xs (Hx & Hn) _ IH]; constructor; auto. clear IH xs.
  assert (G : exists c, nth_error (p_store st) x = Some c /\ enc (nth x noise 0) c (nth x bits false)).
  { revert F Ln Hx. generalize (p_store st). clear. revert bits noise. induction x as [|x IH]; intros [|b bits] [|e noise] [|c store] F L Hx; cbn [combine length] in *; try discriminate; try lia; inversion F as [|? ? ? ? K1 K2]; subst.
    - exists c. split; [reflexivity|exact (proj2 K1)].
    - apply (IH bits noise store K2); [now injection L|lia]. }
  destruct G as (c & Hc & He). exists c. split; [exact Hc|]. apply (rdecrypts_ok X m h pr P B A HP HB Hok sk Hs (nth x noise 0) (CGlwe1 (FheGraph.pconst N (nth x bits false))) (RGlwe1 c)); [|exact (Z.le_lt_trans _ _ _ Hn Hd)]. exists (KGlwe1 c). split; [reflexivity|exact He].
Qed.
End P.
