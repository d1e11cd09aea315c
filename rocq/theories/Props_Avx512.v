(** Theorems about the AVX-512 kernels and about [polynomial_small_scalar_mad] on every machine and build. *)
From Coq Require Import Reals.
From Coquelicot Require Import Complex.
From Verif Require Import Base Alu PolyRing Tfhe TfheGlwe TfhePfks SpecTfhe SpecGlwe TfheProofs TfheProofs3 TfheGlweProofs TfheGlweProofs2 TfheGlweProofs3 TfhePfksProofs TfhePfksProofs2 Fft Avx512 Avx512Proofs Props_Pfks.
Ltac Zify.zify_post_hook ::= idtac.
Open Scope Z_scope.

(** * C111 *)

(** The complex multiply-add of the x86 back end is, for any register contents and on any machine, the element-wise multiply-add that the FFT theorems (C103 on)
    are about: with AVX-512 the fused one, without it the other. Lengths that differ or are not a multiple of 8 are refused. *)
Theorem complex_mad_x86_correct X v r0 c a b :
  complex_mad_x86 (ef_fl X) v r0 c a b = multiply_add X true (if has_512f v then MadAvx512 else MadScalar) c a b.
Proof.
  unfold complex_mad_x86, multiply_add. cbn [andb]. destruct ((length c =? length a)%nat && (length b =? length a)%nat && (length a mod 8 =? 0)%nat) eqn:E; cbn [negb]; [|reflexivity].
  apply andb_true_iff in E as [E Hm]. apply andb_true_iff in E as [Ec Eb]. apply Nat.eqb_eq in Ec, Eb, Hm.
  destruct (has_512f v); [|reflexivity]. unfold complex_mad_avx512, mad_elem. apply Nat.mod_divide in Hm as (q & Hq); [|lia].
  destruct (mad_kernel_ok (ef_fl X) (has_512dq v) q (S (length c)) r0 (fun p => match p with SA => floats a | SB => floats b | SC => floats c | SS => [] end) [] [] [] c a b 0) as (s & Es & Ms); try reflexivity; try lia.
  replace (2 * length c)%nat with (0 + 16 * q)%nat by lia. rewrite Es. cbn [bind]. rewrite Ms. cbn [app]. now rewrite complexes_floats.
Qed.
Print Assumptions complex_mad_x86_correct.

(** The scalar multiply-add kernel. On a CPU with AVX512DQ, when the length is a multiple of 16 and the second slice is at least as long as the first, it computes
    c_i + a_i * x mod 2^64 for every i, whatever the registers held... *)
Theorem vector_scalar_mad_avx512_correct r0 c a x : (length c mod 16 = 0)%nat -> (length c <= length a)%nat ->
  vector_scalar_mad_avx512 true r0 c a x = Ok (poly_scalar_mad 64 c a x).
Proof.
  intros Hm Hl. unfold vector_scalar_mad_avx512. apply Nat.mod_divide in Hm as (q & Hq); [|lia].
  destruct (scalar_loop_ok x q (S (length c)) r0 (fun p => match p with SA => a | SB => [] | SC => c | SS => repeat x 8 end) [] [] c a 0) as (s & Es & Ms); try reflexivity; try lia.
  replace (length c) with (0 + 16 * q)%nat at 2 by lia. rewrite Es. cbn [bind]. rewrite Ms. reflexivity.
Qed.
Print Assumptions vector_scalar_mad_avx512_correct.
(** ... and otherwise, unless the slice is empty, it executes an instruction the CPU does not have or touches memory outside the slices. The safe function that
    calls it checks none of this. *)
Theorem vector_scalar_mad_avx512_refuted dq r0 c a x : c <> [] -> (dq = false \/ (length c mod 16 <> 0)%nat \/ (length a < length c)%nat) ->
  vector_scalar_mad_avx512 dq r0 c a x = Panic.
Proof.
  intros Hc Hb. unfold vector_scalar_mad_avx512.
  assert (H := scalar_loop_bad dq x (S (length c)) r0 (fun p => match p with SA => a | SB => [] | SC => c | SS => repeat x 8 end) [] [] c a 0 ltac:(lia) eq_refl eq_refl Hc Hb eq_refl eq_refl eq_refl).
  cbn [Nat.add] in H. rewrite H. reflexivity.
Qed.
Print Assumptions vector_scalar_mad_avx512_refuted.

(** [poly_small_scalar_mad], which the theorems about key switching use, takes the kernel's behaviour on machines with AVX-512. *)
Theorem small_scalar_mad_dispatch h pr r0 c a s : hw_x86 h = true -> hw_512f h = true ->
  poly_small_scalar_mad h pr 64 c a s = vector_scalar_mad_avx512 (hw_512dq h) r0 c a s.
Proof.
  intros H1 H2. unfold poly_small_scalar_mad. rewrite H1, H2. cbn [andb Z.eqb Pos.eqb].
  destruct (Nat.eqb_spec (length c) 0) as [E|E].
  - destruct c; [|discriminate]. reflexivity.
  - assert (Hne : c <> []) by (intros ->; now apply E). cbn [orb].
    destruct (hw_512dq h); [|symmetry; apply vector_scalar_mad_avx512_refuted; auto].
    destruct (Nat.eqb_spec (length c mod 16) 0); [|symmetry; apply vector_scalar_mad_avx512_refuted; auto].
    destruct (Nat.leb_spec (length c) (length a)); [|symmetry; apply vector_scalar_mad_avx512_refuted; auto].
    symmetry. now apply vector_scalar_mad_avx512_correct.
Qed.
Print Assumptions small_scalar_mad_dispatch.

(** On which machines and builds is the polynomial multiply-add by a scalar an exact ring operation for all polynomials of degree N and all scalars?
    Exactly those of [smad_exact]. *)
Theorem small_scalar_mad_exact_iff h pr w N : word w -> (1 <= N)%nat ->
  (smad_exact h pr w N <->
   forall c a s, length c = N -> length a = N -> toruses w c -> toruses w a -> torus w s ->
     exists r, poly_small_scalar_mad h pr w c a s = Ok r /\ length r = N /\ peq N (2 ^ w) (coef r) (padd (coef c) (pscale s (coef a)))).
Proof.
  intros Hw HN. pose proof (word_pos w Hw) as W. split.
  - intros H c a s Lc La _ _ _. exists (poly_scalar_mad w c a s). split; [now apply small_scalar_mad_ok with (N := N)|].
    split; [unfold poly_scalar_mad; now rewrite zip_assign_len|]. now apply coef_scalar_mad.
  - intros H. assert (Hx : hw_x86 h && (w =? 64) && hw_512f h = true \/ hw_x86 h && (w =? 64) && hw_512f h = false) by (destruct (_ && _); auto). destruct Hx as [Hx|Hx].
    + destruct (H (repeat 0 N) (repeat 0 N) 0) as (r & E & _); try apply repeat_length.
      1-2: apply Forall_forall; intros x Hi; apply repeat_spec in Hi; subst; split; [lia|apply Z.pow_pos_nonneg; lia].
      { split; [lia|apply Z.pow_pos_nonneg; lia]. }
      unfold poly_small_scalar_mad in E. rewrite Hx in E. rewrite !repeat_length in E.
      destruct (Nat.eqb_spec N 0); [lia|]. cbn [orb] in E. apply andb_true_iff in Hx as [Hx H3]. apply andb_true_iff in Hx as [H1 H2]. apply Z.eqb_eq in H2.
      destruct (hw_512dq h) eqn:H4; [|discriminate]. destruct (Nat.eqb_spec (N mod 16) 0) as [H5|]; [|discriminate]. left. auto.
    + right. split.
      { destruct (hw_x86 h); [|auto]. destruct (Z.eqb_spec w 64); [|destruct Hw; auto; lia]. cbn [andb] in Hx. auto. }
      destruct pr; [|reflexivity]. exfalso.
      assert (Tm : torus w (2 ^ w - 1)) by (split; [pose proof (Z.pow_pos_nonneg 2 w ltac:(lia) ltac:(lia)); lia|lia]).
      destruct (H (repeat (2 ^ w - 1) N) (repeat (2 ^ w - 1) N) (2 ^ w - 1)) as (r & E & _); try apply repeat_length; try assumption.
      1-2: apply Forall_forall; intros x Hi; apply repeat_spec in Hi; now subst.
      unfold poly_small_scalar_mad in E. rewrite Hx in E. destruct N as [|N']; [lia|]. cbn [repeat words_mul_add word_mul_add] in E.
      assert (P : 4 <= 2 ^ w) by (change 4 with (2 ^ 2); apply Z.pow_le_mono_r; destruct Hw; lia).
      unfold umul in E. destruct (Z.ltb_spec ((2 ^ w - 1) * (2 ^ w - 1)) (2 ^ w)); [nia|]. discriminate.
Qed.
Print Assumptions small_scalar_mad_exact_iff.

(** In particular: a debug build without AVX-512 aborts as soon as one product or sum wraps around; on any machine with AVX-512 a GLWE ciphertext whose
    degree is not a multiple of 16 (the library accepts every power of two) is accessed out of bounds. *)
Theorem small_scalar_mad_debug_refuted h w c1 c2 a1 a2 y x s : word w -> hw_x86 h && (w =? 64) && hw_512f h = false -> length a1 = length c1 ->
  torus w y -> torus w x -> torus w s -> 2 ^ w <= x * s + y -> poly_small_scalar_mad h Debug w (c1 ++ y :: c2) (a1 ++ x :: a2) s = Panic.
Proof.
  intros Hw Hx L Hy Hxx Hs Ho. unfold poly_small_scalar_mad. rewrite Hx. revert a1 L. induction c1 as [|u c1 IH]; intros [|v a1] L; cbn [length] in L; try lia; cbn [app words_mul_add].
  - unfold word_mul_add, umul. destruct (Z.ltb_spec (x * s) (2 ^ w)); [|reflexivity]. cbn [bind]. unfold uadd. destruct (Z.ltb_spec (x * s + y) (2 ^ w)); [lia|]. reflexivity.
  - unfold word_mul_add, umul. destruct (v * s <? 2 ^ w); [|reflexivity]. cbn [bind]. unfold uadd. destruct (v * s + u <? 2 ^ w); [|reflexivity]. cbn [bind]. rewrite IH by lia. reflexivity.
Qed.
Print Assumptions small_scalar_mad_debug_refuted.
Theorem glwe_scalar_mad_avx512_refuted h pr N k c a s : hw_x86 h = true -> hw_512f h = true -> (1 <= N)%nat -> (N mod 16 <> 0)%nat -> (1 <= k)%nat ->
  glwe_shape N k c -> glwe_shape N k a -> glwe_scalar_mad h pr 64 c a s = Panic.
Proof.
  intros H1 H2 HN Hm Hk [[Lc Fc] _] [[La Fa] _]. unfold glwe_scalar_mad. destruct (ga c) as [|x c'] eqn:Ec; [cbn in Lc; lia|]. destruct (ga a) as [|y a'] eqn:Ea; [cbn in La; lia|].
  cbn [zip2M]. apply Forall_cons_iff in Fc as [Hx _]. unfold poly_small_scalar_mad at 1. rewrite H1, H2. cbn [andb Z.eqb Pos.eqb].
  rewrite Hx. destruct (Nat.eqb_spec N 0); [lia|]. destruct (Nat.eqb_spec (N mod 16) 0); [lia|]. rewrite andb_false_r. reflexivity.
Qed.
Print Assumptions glwe_scalar_mad_avx512_refuted.
(** So is every private functional key switch into such a ciphertext. *)
Theorem private_keyswitch_avx512_refuted h w log count n N k p out inputs key pr : hw_x86 h = true -> hw_512f h = true -> w = 64 -> (N mod 16 <> 0)%nat ->
  1 <= log -> (1 <= count)%nat -> log * Z.of_nat count < w -> (1 <= n)%nat -> (1 <= p)%nat -> Forall (lwe_wf w n) inputs ->
  pfks h pr w log count n N k p out inputs key = Panic.
Proof.
  intros H1 H2 -> Hm Hl Hc Hlc Hn Hp Wi. unfold pfks. destruct (_ && _) eqn:E; [|reflexivity].
  do 6 apply andb_true_iff in E as [E ?]. apply Nat.eqb_eq in H. apply (proj1 (glwe_valid_iff N k out)) in E.
  assert (HK : (1 <= N)%nat /\ (1 <= k)%nat).
  { destruct N; [cbn in Hm; lia|]. destruct k; [|lia]. match goal with Hd : glwe_dim_valid _ 0 = true |- _ => unfold glwe_dim_valid in Hd; rewrite ?andb_true_iff in Hd; cbn in Hd end. intuition discriminate. }
  destruct inputs as [|c inputs]; [cbn in H; lia|]. apply Forall_cons_iff in Wi as [[Lc Tc] _]. cbn [pfks_inputs_loop].
  rewrite app_length. cbn [length]. rewrite Lc, Nat.ltb_irrefl. rewrite firstn_all2 by (rewrite app_length; cbn [length]; lia).
  match goal with Hv : pfksk_valid _ _ _ _ _ _ = true |- _ => apply pfksk_valid_iff in Hv as [Lk Fk] end.
  destruct key as [|g key]; [cbn in Lk; nia|]. apply Forall_cons_iff in Fk as [[Lg Fg] _].
  destruct (lwe_a c ++ [lwe_b c]) as [|x ab] eqn:Eab; [destruct (lwe_a c); discriminate|].
  assert (Tx : torus 64 x). { destruct (lwe_a c) as [|y l]; cbn [app] in Eab; injection Eab as <- _; [exact (proj2 Tc)|exact (proj1 (proj1 (Forall_cons_iff _ _ _) (proj1 Tc)))]. }
  cbn [pfks_input_loop]. unfold scalar_glev_mad, scalar_digits.
  assert (Hw : word 64) by now right. rewrite radix_round_ok by assumption. cbn [bind]. assert (Hrt : torus 64 (rnd 64 log count x)) by (now apply rnd_torus).
  rewrite scalar_digits_from_ok by (assumption || nia). cbn [bind].
  pose proof (sdigs_len log count (rnd 64 log count x)) as Ld. destruct (sdigs log count (rnd 64 log count x)) as [|d ds]; [cbn in Ld; lia|].
  destruct (rev g) as [|b bs] eqn:Eg; [apply (f_equal (@length _)) in Eg; rewrite rev_length in Eg; cbn in Eg; lia|]. cbn [map scalar_mads].
  rewrite (glwe_scalar_mad_avx512_refuted h pr N k out b) by (try assumption; try apply HK; apply (proj1 (Forall_forall _ _) Fg); apply in_rev; rewrite Eg; now left). reflexivity.
Qed.
Print Assumptions private_keyswitch_avx512_refuted.

(** ** Concrete cases *)
Example small_scalar_mad_machines : smad_exact hw_avx512_machine Debug 64 2048 /\ smad_exact hw_avx2_machine Release 64 8 /\ smad_exact hw_arm Release 32 8.
Proof. split; [left; repeat split; reflexivity|]. split; right; split; auto; right; right; reflexivity. Qed.
(** 32 words through the instructions, and one word more. *)
Example vector_scalar_mad_run : let c := map Z.of_nat (seq 1 32) in let a := map (fun i => 2 ^ 63 + Z.of_nat i) (seq 0 40) in
  vector_scalar_mad_avx512 true (fun _ => repeat 77 8) c a 3 = Ok (map (fun i => (Z.of_nat (i + 1) + 3 * (2 ^ 63 + Z.of_nat i)) mod 2 ^ 64) (seq 0 32)) /\
  vector_scalar_mad_avx512 true (fun _ => repeat 77 8) (c ++ [5]) a 3 = Panic /\ vector_scalar_mad_avx512 false (fun _ => repeat 77 8) c a 3 = Panic.
Proof. vm_compute. auto. Qed.
(** A debug build on a machine without AVX-512: 2^63 * 2 wraps around. *)
Example small_scalar_mad_debug_run : poly_small_scalar_mad hw_avx2_machine Debug 64 [0; 1] [5; 2 ^ 63] 2 = Panic /\
  poly_small_scalar_mad hw_avx2_machine Release 64 [0; 1] [5; 2 ^ 63] 2 = Ok [10; 1].
Proof. vm_compute. auto. Qed.
