(** Lemmas about the evaluation layer: one operation on ciphertexts does what FheGraph.v says about messages. *)
From Verif Require Import Base Alu AluProofs Graph MuxGraph MuxGraphProofs FheGraph SpecFhe PolyRing Eval SpecTfhe SpecGlwe SpecBoot SpecTrace SpecSwitch SpecCbs SpecEval FluentIntProofs TfheProofs TfheProofs2 TfheProofs3 TfheGlweProofs TfheGlweProofs2 TfheGlweProofs3 TfheGlweProofs4 TfheBootProofs TfheBootProofs2 TfheBootProofs3 TfheBootProofs4 TfheTraceProofs TfheTraceProofs2 TfheSwitchProofs Props_Boot Props_Trace Props_Switch TfheCbsProofs Props_Cbs Props_Glwe Props_Tfhe.
Ltac Zify.zify_post_hook ::= idtac.
Open Scope Z_scope.

Lemma word64 : word 64. Proof. right. reflexivity. Qed.
Local Hint Resolve word64 : core.

(** ** Bits times 2^63 *)
Lemma half_congr a b : Z.even (a - b) = true -> congr 64 (a * 2 ^ 63) (b * 2 ^ 63).
Proof.
  intros H. apply Z.even_spec in H as (k & Hk). unfold zeq. change (2 ^ 64) with (2 * 2 ^ 63). replace a with (b + 2 * k) by lia.
  replace ((b + 2 * k) * 2 ^ 63) with (b * 2 ^ 63 + k * (2 * 2 ^ 63)) by ring. apply Z.mod_add. vm_compute. discriminate.
Qed.
Lemma half_poly N (f g : poly) : (forall i, (i < N)%nat -> Z.even (f i - g i) = true) -> peq N (2 ^ 64) (pscale (2 ^ 63) f) (pscale (2 ^ 63) g).
Proof. intros H i Hi. unfold pscale. rewrite (Z.mul_comm _ (f i)), (Z.mul_comm _ (g i)). now apply half_congr, H. Qed.

Lemma bpoly_nth p i : bpoly p i = Z.b2z (nth i p false).
Proof. unfold bpoly, coef. change 0 with (Z.b2z false). apply map_nth. Qed.
Lemma pxor_nth p q i : length p = length q -> nth i (pxor p q) false = xorb (nth i p false) (nth i q false).
Proof.
  revert q i. induction p as [|x p IH]; intros [|y q] i Hl; try discriminate; [destruct i; reflexivity|].
  destruct i; cbn [pxor nth]; [reflexivity|]. apply IH. now injection Hl.
Qed.
Lemma pxor_len p q : length p = length q -> length (pxor p q) = length p.
Proof. revert q. induction p as [|x p IH]; intros [|y q] Hl; try discriminate; cbn; [reflexivity|]. f_equal. apply IH. now injection Hl. Qed.
Lemma pconst_nth N b i : (i < N)%nat -> nth i (FheGraph.pconst N b) false = ((i =? 0)%nat && b)%bool.
Proof.
  destruct N as [|N]; [lia|]. intros Hi. cbn [FheGraph.pconst]. destruct i as [|i]; cbn [nth Nat.eqb andb]; [reflexivity|].
  apply nth_repeat.
Qed.
Lemma pconst_len N b : length (FheGraph.pconst N b) = N.
Proof. destruct N; cbn [FheGraph.pconst length]; [reflexivity|]. now rewrite repeat_length. Qed.
Lemma bpoly_pconst N b i : (i < N)%nat -> bpoly (FheGraph.pconst N b) i = pconst (Z.b2z b) i.
Proof. intros Hi. rewrite bpoly_nth, pconst_nth by assumption. unfold pconst. destruct (i =? 0)%nat, b; reflexivity. Qed.
Lemma bpoly_pzero N i : bpoly (pzero N) i = 0.
Proof. rewrite bpoly_nth. unfold pzero. now rewrite nth_repeat. Qed.
Lemma b2z_xor a b : Z.even (Z.b2z a + Z.b2z b - Z.b2z (xorb a b)) = true.
Proof. destruct a, b; reflexivity. Qed.
Lemma rotr_nth N n p i : length p = N -> (i < N)%nat -> nth i (rotr n p) false = nth (Z.to_nat ((Z.of_nat i - Z.of_nat n) mod Z.of_nat N)) p false.
Proof.
  intros Hl Hi. unfold rotr. rewrite Hl. set (k := (n mod N)%nat). assert (Hk : (k < N)%nat) by (apply Nat.mod_upper_bound; lia).
  assert (En : Z.of_nat n mod Z.of_nat N = Z.of_nat k) by (unfold k; now rewrite Nat2Z.inj_mod).
  assert (E : (Z.of_nat i - Z.of_nat n) mod Z.of_nat N = (Z.of_nat i - Z.of_nat k) mod Z.of_nat N).
  { rewrite <- Zminus_mod_idemp_r, En. reflexivity. }
  rewrite E. assert (Ls : length (skipn (N - k) p) = k) by (rewrite skipn_length; lia).
  destruct (Nat.lt_ge_cases i k) as [H|H].
  - rewrite app_nth1 by lia. rewrite <- (firstn_skipn (N - k) p) at 2. rewrite app_nth2; rewrite firstn_length_le by lia.
    + f_equal. replace (Z.of_nat i - Z.of_nat k) with (Z.of_nat (N - k + i) + (-1) * Z.of_nat N) by lia. rewrite Z.mod_add by lia. rewrite Z.mod_small by lia. lia.
    + replace (Z.of_nat i - Z.of_nat k) with (Z.of_nat (N - k + i) + (-1) * Z.of_nat N) by lia. rewrite Z.mod_add by lia. rewrite Z.mod_small by lia. lia.
  - rewrite app_nth2 by lia. rewrite Ls. rewrite <- (firstn_skipn (N - k) p) at 2. rewrite Z.mod_small by lia.
    rewrite app_nth1 by (rewrite firstn_length_le; lia). f_equal. lia.
Qed.
Lemma rotr_len n p : length (rotr n p) = length p.
Proof.
  unfold rotr. rewrite app_length, skipn_length, firstn_length. pose proof (Nat.mod_le n (length p)).
  destruct p as [|b p]; [reflexivity|]. cbn [length] in *. pose proof (Nat.mod_upper_bound n (S (length p)) ltac:(lia)). lia.
Qed.
(** Multiplying by X^n and by X^(n - 2^64) is the same modulo 2: the sign does not matter. *)
Lemma half_mono N n z p : length p = N -> is_pow2 N = true -> (0 < N)%nat -> Z.of_nat N < 2 ^ 64 -> (z = Z.of_nat n \/ z = Z.of_nat n - 2 ^ 64) ->
  peq N (2 ^ 64) (pmono N z (pscale (2 ^ 63) (bpoly p))) (pscale (2 ^ 63) (bpoly (rotr n p))).
Proof.
  intros Hl HP HN HN64 Hz i Hi. destruct (pow2_log2 N HP) as (EN & _).
  assert (Em : (Z.of_nat i - z) mod Z.of_nat N = (Z.of_nat i - Z.of_nat n) mod Z.of_nat N).
  { destruct Hz as [-> | ->]; [reflexivity|]. assert (Hd : exists q, 2 ^ 64 = q * Z.of_nat N).
    { set (L := Nat.log2 N) in *. assert (ENz : Z.of_nat N = 2 ^ Z.of_nat L) by (rewrite EN, Nat2Z.inj_pow; reflexivity).
      exists (2 ^ (64 - Z.of_nat L)). rewrite ENz, <- Z.pow_add_r; [f_equal; lia| |lia].
      rewrite ENz in HN64. apply Z.pow_lt_mono_r_iff in HN64; lia. }
    destruct Hd as (q & ->). replace (Z.of_nat i - (Z.of_nat n - q * Z.of_nat N)) with (Z.of_nat i - Z.of_nat n + q * Z.of_nat N) by ring.
    apply Z.mod_add. lia. }
  unfold pmono. rewrite Em. unfold pscale. rewrite !bpoly_nth. rewrite (rotr_nth N) by assumption.
  set (b := nth _ p false). replace (2 ^ 63 * Z.b2z b) with (Z.b2z b * 2 ^ 63) by ring.
  rewrite Z.mul_assoc. apply half_congr. destruct (Z.even (_ / _)), b; reflexivity.
Qed.

(** ** Weakening and nonnegativity *)
Section S.
Context (P : params) (sk : secret_key).
Context (HP : params_ok P) (Hsk : secret_ok P sk).
Local Notation N := (p_N P). Local Notation k := (p_k P).

Lemma N_facts : is_pow2 N = true /\ (0 < N)%nat /\ (0 < k)%nat /\ Z.of_nat N < 2 ^ 64.
Proof.
  destruct (dim_valid _ _ (po_dim P HP)) as (A & B & C). repeat split; try (assumption || lia).
  destruct (pow2_log2 _ A) as (EN & _). rewrite EN, Nat2Z.inj_pow. apply Z.pow_lt_mono_r; [lia|lia|]. pose proof (po_N P HP). lia.
Qed.

Lemma pnear_nonneg E f g : pnear N 64 E f g -> 0 <= E.
Proof. intros (e & He & _). pose proof (proj1 (proj2 N_facts)). specialize (He O ltac:(lia)). lia. Qed.
Lemma near_nonneg E x y : near 64 E x y -> 0 <= E.
Proof. intros (e & He & _). lia. Qed.
Lemma glev_enc_weaken E E' log m c : E <= E' -> glev_enc N k 64 log E (s_glwe1 sk) m c -> glev_enc N k 64 log E' (s_glwe1 sk) m c.
Proof. intros H G j x Hx. destruct (G j x Hx) as (A & B). split; [assumption|]. now apply (pnear_weaken N 64 E). Qed.
Lemma ggsw_enc_weaken E E' cnt log m c : E <= E' -> ggsw_enc N k cnt 64 log E (s_glwe1 sk) m c -> ggsw_enc N k cnt 64 log E' (s_glwe1 sk) m c.
Proof.
  intros H (A & B & C & D). split; [assumption|]. split; [assumption|]. split.
  - intros i s r Hs Hr. apply (glev_enc_weaken E); [assumption|]. eapply C; eassumption.
  - intros r Hr. apply (glev_enc_weaken E); [assumption|]. now apply D.
Qed.
Lemma glev_enc_peq E log m m' c : peq N (2 ^ 64) m m' -> glev_enc N k 64 log E (s_glwe1 sk) m c -> glev_enc N k 64 log E (s_glwe1 sk) m' c.
Proof.
  intros H G j x Hx. destruct (G j x Hx) as (A & B). split; [assumption|]. eapply pnear_peq; [reflexivity| |exact B].
  intros i Hi. unfold pscale. apply zeq_mul; [reflexivity|]. now apply H.
Qed.
Lemma encrypts_weaken E E' m c : E <= E' -> encrypts P sk E m c -> encrypts P sk E' m c.
Proof.
  intros H. destruct m, c; cbn [encrypts]; try tauto.
  - intros (A & B). split; [assumption|]. now apply (near_weaken 64 E).
  - intros (A & B). split; [assumption|]. now apply (near_weaken 64 E).
  - intros (A & A' & B). repeat split; try assumption; try apply A. now apply (pnear_weaken N 64 E).
  - intros (A & A' & B). split; [assumption|]. split; [assumption|]. now apply (ggsw_enc_weaken E).
  - intros (A & A' & B). split; [assumption|]. split; [assumption|]. now apply (glev_enc_weaken E).
Qed.
Lemma glev_nonneg E log m c : (1 <= length c)%nat -> glev_enc N k 64 log E (s_glwe1 sk) m c -> 0 <= E.
Proof. intros H G. destruct c as [|x c]; [cbn in H; lia|]. destruct (G O x eq_refl) as (_ & B). now apply pnear_nonneg in B. Qed.
Lemma ggsw_nonneg E cnt log m c : (1 <= cnt)%nat -> ggsw_enc N k cnt 64 log E (s_glwe1 sk) m c -> 0 <= E.
Proof.
  intros H (A & B & _ & D). destruct (nth_error c k) as [r|] eqn:Er; [|apply nth_error_None in Er; lia].
  pose proof (proj1 (Forall_forall _ _) B r (nth_error_In _ _ Er)) as Lr. cbv beta in Lr. apply (glev_nonneg E log m r); [lia|]. now apply D.
Qed.
Lemma encrypts_nonneg E m c : encrypts P sk E m c -> 0 <= E.
Proof.
  destruct (po_cbs P HP) as (_ & Hc & _). destruct m, c; cbn [encrypts]; try tauto.
  - intros (_ & B). now apply near_nonneg in B.
  - intros (_ & B). now apply near_nonneg in B.
  - intros (_ & _ & B). now apply pnear_nonneg in B.
  - intros (_ & _ & B). now apply ggsw_nonneg in B.
  - intros (A & _ & B). refine (glev_nonneg _ _ _ _ _ B). lia.
Qed.
Lemma encrypts_opt_weaken E E' m c : E <= E' -> encrypts_opt P sk E m c -> encrypts_opt P sk E' m c.
Proof. intros H. destruct m, c; cbn [encrypts_opt]; try tauto. now apply encrypts_weaken. Qed.
Lemma encrypts_out_weaken E E' m c : E <= E' -> encrypts_out P sk E m c -> encrypts_out P sk E' m c.
Proof.
  intros H (A & B). split; [now apply (encrypts_opt_weaken E)|]. destruct (snd m) as [[[t r] m']|], (snd c) as [[[t' r'] c']|]; try tauto.
  destruct B as (-> & -> & B). repeat split. now apply (encrypts_weaken E).
Qed.

(** ** Validation looks at the kinds only *)
Definition same_ty (a b : fedge * option ct) : Prop := fst a = fst b /\ option_map ty_of (snd a) = option_map ty_of (snd b).
Lemma same_op_input op e a b : option_map ty_of a = option_map ty_of b -> validate_op_input op e a = validate_op_input op e b.
Proof. destruct a as [a|], b as [b|]; cbn [option_map]; intros H; try discriminate; [|reflexivity]. injection H as H. unfold validate_op_input. now rewrite H. Qed.
Lemma same_find l a b : Forall2 same_ty a b ->
  match find_in l a, find_in l b with Some x, Some y => option_map ty_of x = option_map ty_of y | None, None => True | _, _ => False end.
Proof.
  induction 1 as [|x y a b (Hf & Ht) H IH]; [exact I|]. unfold find_in in *. cbn [find]. rewrite Hf.
  destruct (fedge_eqb (fst y) l); [exact Ht|exact IH].
Qed.
Lemma same_len a b : Forall2 same_ty a b -> length a = length b. Proof. induction 1; cbn; congruence. Qed.
Lemma validate_same deg op a b : Forall2 same_ty a b -> validate deg op a = validate deg op b.
Proof.
  intros H. assert (Hi : validate_inputs op a = validate_inputs op b).
  { assert (U : match a with [(EUnary, c)] => validate_op_input op EUnary c | _ => Err EIllegalOperands end =
                match b with [(EUnary, c)] => validate_op_input op EUnary c | _ => Err EIllegalOperands end).
    { destruct H as [|x y a b (Hf & Ht) H]; [reflexivity|]. destruct x as [l x], y as [l' y]. cbn [fst snd] in *. subst l'.
      destruct H as [|]; [|destruct l; reflexivity]. destruct l; try reflexivity. now apply same_op_input. }
    pose proof (same_len _ _ H) as Hl.
    destruct op; cbn [validate_inputs]; try exact U; try (destruct H; reflexivity); rewrite Hl.
    - pose proof (same_find ELeft _ _ H) as F1. pose proof (same_find ERight _ _ H) as F2. destruct (length b =? 2)%nat; [|reflexivity].
      destruct (find_in ELeft a), (find_in ELeft b); try contradiction; [|reflexivity].
      destruct (find_in ERight a), (find_in ERight b); try contradiction; [|reflexivity].
      rewrite (same_op_input _ _ _ _ F1), (same_op_input _ _ _ _ F2). reflexivity.
    - pose proof (same_find ESel _ _ H) as F1. pose proof (same_find ELow _ _ H) as F2. pose proof (same_find EHigh _ _ H) as F3. destruct (length b =? 3)%nat; [|reflexivity].
      destruct (find_in ESel a), (find_in ESel b); try contradiction; [|reflexivity].
      destruct (find_in ELow a), (find_in ELow b); try contradiction; [|reflexivity].
      destruct (find_in EHigh a), (find_in EHigh b); try contradiction; [|reflexivity].
      rewrite (same_op_input _ _ _ _ F1), (same_op_input _ _ _ _ F2), (same_op_input _ _ _ _ F3). reflexivity.
    - pose proof (same_find ESel _ _ H) as F1. pose proof (same_find ELow _ _ H) as F2. pose proof (same_find EHigh _ _ H) as F3. destruct (length b =? 3)%nat; [|reflexivity].
      destruct (find_in ESel a), (find_in ESel b); try contradiction; [|reflexivity].
      destruct (find_in ELow a), (find_in ELow b); try contradiction; [|reflexivity].
      destruct (find_in EHigh a), (find_in EHigh b); try contradiction; [|reflexivity].
      rewrite (same_op_input _ _ _ _ F1), (same_op_input _ _ _ _ F2), (same_op_input _ _ _ _ F3). reflexivity.
    - pose proof (same_find EGlwe _ _ H) as F1. pose proof (same_find EGgsw _ _ H) as F2. destruct (length b =? 2)%nat; [|reflexivity].
      destruct (find_in EGlwe a), (find_in EGlwe b); try contradiction; [|reflexivity].
      destruct (find_in EGgsw a), (find_in EGgsw b); try contradiction; [|reflexivity].
      rewrite (same_op_input _ _ _ _ F1), (same_op_input _ _ _ _ F2). reflexivity. }
  unfold validate. now rewrite Hi.
Qed.
Lemma encrypts_ty E m c : encrypts P sk E m c -> ty_of (shape_of c) = ty_of m /\ cty_of c = ty_of m.
Proof. destruct m, c; cbn [encrypts]; try tauto; split; reflexivity. Qed.
Lemma matched_same ms cs Es : matched P sk ms cs Es -> Forall2 same_ty (shapes cs) ms.
Proof.
  induction 1 as [|l m c E ms cs Es He H IH]; [constructor|]. constructor; [|assumption]. split; [reflexivity|].
  cbn [fst snd]. destruct m, c; cbn [encrypts_opt option_map] in *; try contradiction; [|reflexivity]. f_equal. eapply encrypts_ty; eassumption.
Qed.

(** ** Access to the inputs *)
Lemma matched_0 ms cs Es m : matched P sk ms cs Es -> inp0 ms = Ok m -> exists c, kin0 cs = Ok c /\ encrypts_opt P sk (noise0 Es) m c.
Proof. intros H. destruct H as [|l m' c E ms cs Es He H]; [discriminate|]. cbn [inp0 kin0 snd noise0]. intros [= <-]. eauto. Qed.
Lemma matched_1 ms cs Es m : matched P sk ms cs Es -> inp1 ms = Ok m -> exists c, kin1 cs = Ok c /\ encrypts_opt P sk (noise1 Es) m c.
Proof.
  intros H. destruct H as [|l m' c E ms cs Es He H]; [discriminate|]. destruct H as [|l2 m2 c2 E2 ms cs Es He2 H]; [discriminate|].
  cbn [inp1 kin1 snd noise1]. intros [= <-]. eauto.
Qed.
Lemma matched_l l ms cs Es m : matched P sk ms cs Es -> inpl l ms = Ok m -> exists c, kinl l cs = Ok c /\ encrypts_opt P sk (noise_at l Es) m c.
Proof.
  intros H. induction H as [|l' m' c E ms cs Es He H IH]; [discriminate|]. unfold inpl, kinl, noise_at, find_in in *. cbn [find fst].
  destruct (fedge_eqb l' l); [|exact IH]. cbn [option_map snd]. intros [= <-]. eauto.
Qed.
Lemma enc_lwe0_inv E m b c : encrypts_opt P sk E m c -> lwe0 m = Ok b -> exists x, as_lwe0 c = Ok x /\ encrypts P sk E (CLwe0 b) (KLwe0 x).
Proof. destruct m as [[]|]; try discriminate. cbn [lwe0]. intros H [= <-]. destruct c as [[]|]; cbn [encrypts_opt encrypts] in H; try contradiction. cbn [as_lwe0]. eexists. split; [reflexivity|exact H]. Qed.
Lemma enc_lwe1_inv E m b c : encrypts_opt P sk E m c -> lwe1 m = Ok b -> exists x, as_lwe1 c = Ok x /\ encrypts P sk E (CLwe1 b) (KLwe1 x).
Proof. destruct m as [[]|]; try discriminate. cbn [lwe1]. intros H [= <-]. destruct c as [[]|]; cbn [encrypts_opt encrypts] in H; try contradiction. cbn [as_lwe1]. eexists. split; [reflexivity|exact H]. Qed.
Lemma enc_glwe_inv E m b c : encrypts_opt P sk E m c -> FheGraph.glwe m = Ok b -> exists x, as_glwe c = Ok x /\ encrypts P sk E (CGlwe1 b) (KGlwe1 x).
Proof. destruct m as [[]|]; try discriminate. cbn [FheGraph.glwe]. intros H [= <-]. destruct c as [[]|]; cbn [encrypts_opt encrypts] in H; try contradiction. cbn [as_glwe]. eexists. split; [reflexivity|exact H]. Qed.
Lemma enc_ggsw_inv E m b c : encrypts_opt P sk E m c -> FheGraph.ggsw m = Ok b -> exists x, as_ggsw c = Ok x /\ encrypts P sk E (CGgsw1 b) (KGgsw1 x).
Proof. destruct m as [[]|]; try discriminate. cbn [FheGraph.ggsw]. intros H [= <-]. destruct c as [[]|]; cbn [encrypts_opt encrypts] in H; try contradiction. cbn [as_ggsw]. eexists. split; [reflexivity|exact H]. Qed.
Lemma enc_glev_inv E m b c : encrypts_opt P sk E m c -> FheGraph.glev m = Ok b -> exists x, as_glev c = Ok x /\ encrypts P sk E (CGlev1 b) (KGlev1 x).
Proof. destruct m as [[]|]; try discriminate. cbn [FheGraph.glev]. intros H [= <-]. destruct c as [[]|]; cbn [encrypts_opt encrypts] in H; try contradiction. cbn [as_glev]. eexists. split; [reflexivity|exact H]. Qed.
End S.
