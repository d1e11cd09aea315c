(** Model of circuit bootstrapping (LWE -> GGSW) in sunscreen_tfhe, through the trace and scheme switching.
    The floating-point convention is that of TfheBoot.v. *)
From Verif Require Export TfheSwitch.
From Verif Require Import Alu MuxGraph.
Open Scope Z_scope.

(** sunscreen_tfhe/src/ops/bootstrapping/circuit_bootstrapping.rs:407-411 and 461-465: log2 of the number of
    table slots for [count] levels ([ilog2] panics on 0). *)
Definition cbs_log_v (count : nat) : res nat :=
  if (count =? 0)%nat then Panic else Ok (if is_pow2 count then Nat.log2 count else Nat.log2 count + 1)%nat.
(** The number of plaintext bits of level [i] (from 0): lines 270, 234, 450. *)
Definition cbs_bits (log : Z) (i : nat) : Z := log * (Z.of_nat i + 1) + 1.
(** circuit_bootstrapping.rs:447-458: level [i] (from 0) of the table, -1 at [cbs_bits] bits, or 0 when that
    does not fit the word. *)
Definition cbs_level (pr : profile) (w log : Z) (i : nat) : res Z :=
  let b := cbs_bits log i in
  if b <? w then
    one <- ushl pr w 1 b ;; m1 <- usub pr w one 1 ;; t_encode w m1 b
  else Ok 0.
(** circuit_bootstrapping.rs:430-483 [fill_multifunctional_cbs_decomposition_lut]; the old table is cleared. *)
Definition cbs_lut (pr : profile) (w log : Z) (count N k : nat) : res glwe :=
  if (count <? 16)%nat then
    levels <- mapM (fun i => cbs_level pr w log i) (seq 0 16) ;;
    lv <- cbs_log_v count ;;
    let v := (2 ^ lv)%nat in
    Ok {| ga := repeat (zpoly N) k;
          gb := map (fun i => let f := (i mod v)%nat in if (f <? count)%nat then nth f levels 0 else 0) (seq 0 N) |}
  else Panic.

(** circuit_bootstrapping.rs:387-428 [hi_noise_lwe_to_lo_noise_glwe]. [lp], [cp] are the radix of the bootstrap
    key, [log], [count] that of the result; [rot] and [out] are scratch buffers. *)
Definition cbs_hi_noise (h : hw) (pr : profile) (w lp log : Z) (cp count n N k : nat) (rot : lwe) (out : glwe) (input : lwe)
    (bsk : list (list (list glwe))) (ds : nat -> glwe) : res glwe :=
  if (count <? 8)%nat then
    q4 <- t_encode w 1 2 ;;
    rotated <- lwe_rotate w n rot input q4 ;;
    lv <- cbs_log_v count ;;
    lut <- cbs_lut pr w log count N k ;;
    generalized_pbs h pr w lp cp n N k out rotated lut bsk 0 (Z.of_nat lv) ds
  else Panic.

(** [coeffs_mut()[i] += x]; an index past the end panics. *)
Definition add_at (w : Z) (p : list Z) (i : nat) (x : Z) : res (list Z) :=
  if (i <? length p)%nat then Ok (upd p i (fun y => tadd w y x)) else Panic.
(** The loop of circuit_bootstrapping.rs:278-297 from level [i] on. [rot] is the scratch ciphertext
    [glwe_rotated]; [perm], [ks], [gk] are the scratch ciphertexts [glwe_permuted] and those of the trace. *)
Fixpoint cbs_trace_loop (h : hw) (pr : profile) (w lt log : Z) (ct N k : nat) (glev : list glwe) (rot perm ks gk : glwe)
    (ak : list (list (list glwe))) (i : nat) (ds : nat -> nat -> glwe) : res (list glwe) :=
  match glev with
  | [] => Ok []
  | g :: glev =>
      e <- t_encode w 1 (cbs_bits log i) ;;
      b <- add_at w (gb rot) i e ;;
      let rot' := {| ga := ga rot; gb := b |} in
      let perm' := glwe_rot w perm rot' (- Z.of_nat i) in
      sh <- glwe_shr_round pr w perm' (Z.of_nat (Nat.log2 N)) ;;
      g' <- trace h pr w lt ct N k g sh ks gk ak (ds i) ;;
      gs <- cbs_trace_loop h pr w lt log ct N k glev rot' perm' ks gk ak (S i) ds ;;
      Ok (g' :: gs)
  end.

(** circuit_bootstrapping.rs:342-384 [circuit_bootstrap_via_trace_and_scheme_switch]. [lp], [cp]: bootstrap
    radix; [lt], [ct]: trace radix; [ls], [cs]: scheme-switch radix; [log], [count]: radix of the result.
    [scr], [scg], [scl] stand for the contents of the scratch buffers (LWE, GLWE and GLEV). *)
Definition circuit_bootstrap (h : hw) (pr : profile) (w lp lt ls log : Z) (cp ct cs count n N k : nat)
    (out : list (list glwe)) (input : lwe) (bsk ak : list (list (list glwe))) (ssk : list (list glwe))
    (scr : lwe) (scg : glwe) (scl : list glwe) (d1 : nat -> glwe) (d2 d3 : nat -> nat -> glwe) : res (list (list glwe)) :=
  lo <- cbs_hi_noise h pr w lp log cp count n N k scr scg input bsk d1 ;;
  glev <- cbs_trace_loop h pr w lt log ct N k scl lo scg scg scg ak 0 d2 ;;
  scheme_switch_fft pr w ls cs count N k out glev ssk d3.
