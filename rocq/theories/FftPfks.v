(** Model of public functional key switching, and of circuit bootstrapping through private functional key switching, in
    the Fourier domain, on top of FftGlwe.v and FftCbs.v. Ciphertexts in Fourier form hold complex numbers of the
    floating-point model; see Fft.v. *)
From Coq Require Import Reals ZArith List Lia Bool.
From Coquelicot Require Import Complex.
From Verif Require Export FftCbs TfhePfks.
From Verif Require Import Alu MuxGraph.
Import ListNotations.
Open Scope Z_scope.

(** sunscreen_tfhe/src/ops/keyswitch/public_functional_keyswitch.rs:118-131: the loop over the rows of the key, from column
    [i] on. Each row is transformed into the scratch GLEV ciphertext, which that overwrites; [poly] is the scratch
    polynomial handed to the map, [acc] the accumulator in Fourier form. *)
Fixpoint pufks_loop_freq (X : ext) (x86 : bool) (m : mad_kernel) (pr : profile) (w log : Z) (count N k : nat) (f : user_map) (inputs : list lwe)
    (poly : list Z) (acc : glwe_fft) (i : nat) (key : list (list glwe)) : res (glwe_fft * list Z) :=
  match key with
  | [] => Ok (acc, poly)
  | row :: key =>
      rowf <- glev_to_fft X w N k row ;;
      let poly' := f poly (map (fun c => nth i (lwe_a c) 0) inputs) in
      acc' <- glev_mad_fft X x86 m pr w log count N k acc poly' rowf ;;
      pufks_loop_freq X x86 m pr w log count N k f inputs poly' acc' (S i) key
  end.
(** sunscreen_tfhe/src/ops/keyswitch/public_functional_keyswitch.rs:75-146 [public_functional_keyswitch]. [scp] is the contents of
    the scratch polynomial. *)
Definition pufks_freq (X : ext) (x86 : bool) (m : mad_kernel) (pr : profile) (w log : Z) (count n N k : nat) (f : user_map) (out : glwe)
    (inputs : list lwe) (key : list (list glwe)) (scp : list Z) : res glwe :=
  if pufksk_valid n N k count key && glwe_valid N k out && forallb (lwe_valid n) inputs && (length inputs <=? N)%nat then
    ' (acc, poly) <- pufks_loop_freq X x86 m pr w log count N k f inputs scp (glwe_fft_zero N k) 0 key ;;
    let poly' := f poly (map lwe_b inputs) in
    r <- glwe_from_fft X w N acc ;;
    let o := glwe_negate w r in
    Ok {| ga := ga o; gb := poly_add_assign w (gb o) poly' |}
  else Panic.

(** sunscreen_tfhe/src/ops/bootstrapping/circuit_bootstrapping.rs:162-219 [circuit_bootstrap_via_pfks], with the bootstrap key in
    Fourier form; the key switch and everything else is integer arithmetic. Parameters as in TfhePfks.circuit_bootstrap_pfks. *)
Definition circuit_bootstrap_pfks_freq (X : ext) (m : mad_kernel) (h : hw) (pr : profile) (w lp lf log : Z) (cp cf count n N2 k2 N1 k1 : nat)
    (out : list (list glwe)) (input : lwe) (bsk : list (list (list glwe_fft))) (keys : list (list (list glwe)))
    (scr : lwe) (scg : glwe) (ex : lwe) (scl : list lwe) : res (list (list glwe)) :=
  if glwe_dim_valid N1 k1 && glwe_dim_valid N2 k2 && lwe_dim_valid n && radix_valid w lp cp && radix_valid w log count
     && radix_valid w lf cf && cbsksk_valid (k2 * N2) N1 k1 cf keys && bsk_fft_valid n N2 k2 cp bsk
     && ggsw_valid N1 k1 count out && lwe_valid n input then
    lo <- cbs_hi_noise_freq X m h pr w lp log cp count n N2 k2 scr scg input bsk ;;
    lwes <- extract_rotate w log N2 k2 ex scl lo 0 ;;
    apply_pfks h pr w lf cf (k2 * N2) N1 k1 lwes out keys
  else Panic.
