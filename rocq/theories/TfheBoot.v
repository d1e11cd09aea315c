(** Model of programmable bootstrapping in sunscreen_tfhe: modulus switching, monomial rotation of GLWE
    ciphertexts, CMUX, blind rotation, lookup tables, univariate, multi-function and bivariate bootstrapping.

    Floating point. The code computes external products through an f64 FFT
    (sunscreen_tfhe/src/ops/fft_ops.rs). The product it stores is a vector of machine words; the model writes
    that vector as the exact product (TfheGlwe.v [glwe_ggsw_mad]) plus an error ciphertext [d], an explicit
    argument of every function that goes through the FFT. For every f64 outcome there is such a [d] (the
    difference), so no behaviour is lost; the theorems hold for every [d] and state what they need of its size.
    Converting keys to FFT form (entities/ggsw_ciphertext.rs [fft]) is part of the same error. *)
From Verif Require Export Base Tfhe TfheGlwe.
From Verif Require Import Alu MuxGraph.
Open Scope Z_scope.

(** ** Modulus switching *)

(** sunscreen_tfhe/src/ops/ciphertext/lwe_ciphertext_ops.rs:127-140 [modulus_switch]. *)
Definition mod_switch (pr : profile) (w x chi v L : Z) : res Z :=
  one <- ushl pr w 1 L ;;
  mask <- usub pr w one 1 ;;
  x1 <- ushl pr w x chi ;;
  d <- usub pr 64 L v ;;
  shift <- usub pr 64 w d ;;
  s1 <- usub pr 64 shift 1 ;;
  r <- ushr pr w x1 s1 ;;
  h <- ushr pr w x1 shift ;;
  ushl pr w (Z.land (tadd w h (Z.land r 1)) mask) v.
(** sunscreen_tfhe/src/ops/ciphertext/lwe_ciphertext_ops.rs:98-125 [lwe_ciphertext_modulus_switch]. *)
Definition lwe_mod_switch (pr : profile) (w : Z) (c : lwe) (chi v L : Z) : res lwe :=
  a <- mapM (fun x => mod_switch pr w x chi v L) (lwe_a c) ;;
  b <- mod_switch pr w (lwe_b c) chi v L ;;
  Ok {| lwe_a := a; lwe_b := b |}.

(** ** Rotation and CMUX *)

(** sunscreen_tfhe/src/ops/bootstrapping/blind_rotation.rs:79-97 [rotate_glwe_monomial_negacyclic] (and the
    positive and negative versions, 106-133). *)
Definition glwe_rot (w : Z) (out ct : glwe) (r : Z) : glwe :=
  let f := fun o a => poly_rot w (zip_assign (fun _ x => x) o a) r in
  {| ga := zip_assign f (ga out) (ga ct); gb := f (gb out) (gb ct) |}.

(** Adding the floating-point error [d] to an exact product (not a function of the code; see above). *)
Definition glwe_perturb (w : Z) (c d : glwe) : glwe :=
  {| ga := zip_assign (poly_add_assign w) (ga c) (ga d); gb := poly_add_assign w (gb c) (gb d) |}.

(** sunscreen_tfhe/src/ops/fft_ops.rs:149-181 [cmux]; fft_ops.rs:30-52 [glwe_ggsw_mad] into a cleared
    accumulator followed by [ifft] is the exact product plus [d]. *)
Definition cmux (h : hw) (pr : profile) (w log : Z) (count N k : nat) (c d0 d1 : glwe) (g : list (list glwe))
    (d : glwe) : res glwe :=
  if glwe_dim_valid N k && radix_valid w log count && glwe_valid N k c && glwe_valid N k d0 && glwe_valid N k d1
     && ggsw_valid N k count g then
    diff <- glwe_sub h pr w (glwe_new N k) d1 d0 ;;
    prod <- glwe_ggsw_mad pr w log count N k (glwe_new N k) diff g ;;
    glwe_add h pr w c (glwe_perturb w prod d) d0
  else Panic.

(** sunscreen_tfhe/src/ops/fft_ops.rs:203-220 [glev_cmux]; [ds i] is the error of the i-th product. *)
Fixpoint glev_cmux (h : hw) (pr : profile) (w log : Z) (count N k : nat) (c d0 d1 : list glwe)
    (g : list (list glwe)) (ds : nat -> glwe) : res (list glwe) :=
  match c, d0, d1 with
  | x :: c, y :: d0, z :: d1 =>
      x' <- cmux h pr w log count N k x y z g (ds O) ;;
      c' <- glev_cmux h pr w log count N k c d0 d1 g (fun i => ds (S i)) ;;
      Ok (x' :: c')
  | c, _, _ => Ok c
  end.

(** The loop of sunscreen_tfhe/src/ops/bootstrapping/blind_rotation.rs:213-222 from row [i] on. *)
Fixpoint blind_rotation_loop (h : hw) (pr : profile) (w log : Z) (count N k : nat) (out : glwe)
    (rows : list (list (list glwe))) (i : nat) (ds : nat -> glwe) : res glwe :=
  match rows with
  | [] => Ok out
  | g :: rows =>
      let rotated := glwe_rot w (glwe_new N k) out (- 2 ^ Z.of_nat i) in
      out' <- cmux h pr w log count N k out out rotated g (ds i) ;;
      blind_rotation_loop h pr w log count N k out' rows (S i) ds
  end.
(** sunscreen_tfhe/src/ops/bootstrapping/blind_rotation.rs:202-223 [blind_rotation]. [clone_from_ref] copies
    the whole slice when the sizes agree. *)
Definition blind_rotation (h : hw) (pr : profile) (w log : Z) (count N k : nat) (rows : list (list (list glwe)))
    (ct : glwe) (ds : nat -> glwe) : res glwe :=
  blind_rotation_loop h pr w log count N k ct rows 0 ds.

(** A new GGSW ciphertext: [GgswCiphertext::new]. *)
Definition ggsw_new (N k count : nat) : list (list glwe) := repeat (repeat (glwe_new N k) count) (k + 1).
(** sunscreen_tfhe/src/ops/bootstrapping/blind_rotation.rs:230-258 [generate_blind_rotation_shift]:
    [rows] GGSW ciphertexts (entities/blind_rotation_shift.rs: log2 N of them), row i encrypts bit i. *)
Fixpoint rotation_shift_loop (pr : profile) (w log : Z) (count N k rows : nat) (sk : list (list Z)) (p rotation : Z)
    (i : nat) (rnd : nat -> list (list (list (list Z) * option (list Z)))) : res (list (list (list glwe))) :=
  match rows with
  | O => Ok []
  | S rows =>
      g <- ggsw_encrypt_scalar pr w log count N k (ggsw_new N k count) (Z.land (Z.shiftr rotation (Z.of_nat i)) 1)
             sk p (rnd i) ;;
      gs <- rotation_shift_loop pr w log count N k rows sk p rotation (S i) rnd ;;
      Ok (g :: gs)
  end.
Definition generate_rotation_shift (pr : profile) (w log : Z) (count N k : nat) (sk : list (list Z)) (p rotation : Z)
    (rnd : nat -> list (list (list (list Z) * option (list Z)))) : res (list (list (list glwe))) :=
  if rotation <? Z.of_nat N then rotation_shift_loop pr w log count N k (Nat.log2 N) sk p rotation 0 rnd else Panic.

(** ** Bootstrap keys *)

(** sunscreen_tfhe/src/ops/bootstrapping/programmable_bootstrapping.rs:34-58 [generate_bootstrap_key]: GGSW i
    encrypts bit i of the LWE key with [PlaintextBits(1)]. [bsk] is the (new, hence zero) key buffer. *)
Fixpoint bsk_loop (pr : profile) (w log : Z) (count N k : nat) (bsk : list (list (list glwe))) (s : list Z)
    (sk : list (list Z)) (rnd : nat -> list (list (list (list Z) * option (list Z)))) : res (list (list (list glwe))) :=
  match s, bsk with
  | x :: s, g :: bsk =>
      g' <- ggsw_encrypt_scalar pr w log count N k g x sk 1 (rnd O) ;;
      gs <- bsk_loop pr w log count N k bsk s sk (fun i => rnd (S i)) ;;
      Ok (g' :: gs)
  | _, bsk => Ok bsk
  end.
Definition bsk_valid (n N k count : nat) (bsk : list (list (list glwe))) : bool :=
  (length bsk =? n)%nat && forallb (ggsw_valid N k count) bsk.
Definition generate_bsk (pr : profile) (w log : Z) (count n N k : nat) (bsk : list (list (list glwe))) (s : list Z)
    (sk : list (list Z)) (rnd : nat -> list (list (list (list Z) * option (list Z)))) : res (list (list (list glwe))) :=
  if lwe_dim_valid n && glwe_dim_valid N k && radix_valid w log count && bsk_valid n N k count bsk
     && polys_valid N k sk && (length s =? n)%nat
  then bsk_loop pr w log count N k bsk s sk rnd else Panic.

(** ** Lookup tables *)

(** [(1 << bits) as usize]: the literal is an i32, so bit 31 gives a huge usize (never below a degree). *)
Definition shl_i32 (pr : profile) (p : Z) : res Z :=
  one <- ushl pr 32 1 p ;; Ok (if one <? 2 ^ 31 then one else one + (2 ^ 64 - 2 ^ 32)).

(** The number of interleaved slots: lines 142-150 ([ilog2] panics on 0). *)
Definition lut_slots (v : nat) : res nat :=
  if (v =? 0)%nat then Panic else Ok (2 ^ (if is_pow2 v then Nat.log2 v else Nat.log2 v + 1))%nat.
(** One entry of the table before the final rotation: lines 160-175. A map that panics panics. *)
Definition lut_entry (pr : profile) (w p P : Z) (maps : list (Z -> res Z)) (slots stride i : nat) : res Z :=
  v <- (match nth_error maps ((i mod stride) mod slots) with Some f => f (Z.of_nat (i / stride)) | None => Ok 0 end) ;;
  if v <? P then delta <- usub pr 32 w p ;; s <- ushl pr 64 v delta ;; Ok (uwrap w s) else Panic.
(** sunscreen_tfhe/src/ops/bootstrapping/programmable_bootstrapping.rs:129-184 [generate_lut]. [out] is the
    scratch polynomial; when the degree is not a multiple of 2^p its tail keeps its old contents. *)
Definition generate_lut (pr : profile) (w : Z) (N : nat) (out : list Z) (maps : list (Z -> res Z)) (p : Z) : res (list Z) :=
  P <- shl_i32 pr p ;;
  slots <- lut_slots (length maps) ;;
  if P <=? Z.of_nat N then
    let stride := (N / Z.to_nat P)%nat in
    c <- mapM (fun i => if (i <? stride * Z.to_nat P)%nat then lut_entry pr w p P maps slots stride i
                        else Ok (nth i out 0)) (seq 0 N) ;;
    Ok (rot_left (stride / 2) (neg_range w c 0 (stride / 2)))
  else Panic.
(** sunscreen_tfhe/src/entities/univariate_lookup_table.rs:90-102 [fill_trivial_from_fns]. *)
Definition fill_lut (pr : profile) (w : Z) (N k : nat) (out : list Z) (lut : glwe) (maps : list (Z -> res Z)) (p : Z)
  : res glwe :=
  c <- generate_lut pr w N out maps p ;; Ok (glwe_trivial lut c).
(** sunscreen_tfhe/src/entities/univariate_lookup_table.rs:40-51 [trivial_from_fn]. *)
Definition lut_from_fn (pr : profile) (w : Z) (N k : nat) (out : list Z) (f : Z -> res Z) (p : Z) : res glwe :=
  fill_lut pr w N k out (glwe_new N k) [f] p.
(** sunscreen_tfhe/src/entities/univariate_lookup_table.rs:59-76 [trivivial_multifunctional]. *)
Definition lut_from_fns (pr : profile) (w : Z) (N k : nat) (out : list Z) (maps : list (Z -> res Z)) (p : Z) : res glwe :=
  if (1 <? length maps)%nat then fill_lut pr w N k out (glwe_new N k) maps p else Panic.
(** sunscreen_tfhe/src/entities/univariate_lookup_table.rs:105-111 [fill_with_constant]. *)
Definition lut_constant (w : Z) (N k : nat) (v p : Z) : res glwe :=
  x <- t_encode w v p ;; Ok {| ga := repeat (zpoly N) k; gb := repeat x N |}.

(** sunscreen_tfhe/src/ops/bootstrapping/programmable_bootstrapping.rs:413-430 [bivariate_function]. *)
Definition bivariate_fn (pr : profile) (p : Z) (map : Z -> Z -> res Z) (x : Z) : res Z :=
  m <- ushl pr 64 1 p ;;
  r <- map ((x / m) mod m) (x mod m) ;;
  if r <? m then Ok r else Panic.
(** lines 433-455 [generate_bivariate_lut]; entities/bivariate_lookup_table.rs:83-97. *)
Definition bivariate_lut (pr : profile) (w : Z) (N k : nat) (out : list Z) (map : Z -> Z -> res Z) (p carry : Z) : res glwe :=
  if p <=? carry then
    s <- uadd pr 32 p carry ;;
    fill_lut pr w N k out (glwe_new N k) [bivariate_fn pr p map] s
  else Panic.

(** ** Bootstrapping *)

(** The loop of sunscreen_tfhe/src/ops/bootstrapping/programmable_bootstrapping.rs:395-409. *)
Fixpoint pbs_loop (h : hw) (pr : profile) (w log : Z) (count N k : nat) (out : glwe) (a : list Z)
    (bsk : list (list (list glwe))) (ds : nat -> glwe) : res glwe :=
  match a, bsk with
  | x :: a, g :: bsk =>
      out' <- cmux h pr w log count N k out out (glwe_rot w (glwe_new N k) out x) g (ds O) ;;
      pbs_loop h pr w log count N k out' a bsk (fun i => ds (S i))
  | _, _ => Ok out
  end.
(** lines 342-410 [generalized_programmable_bootstrap]. *)
Definition generalized_pbs (h : hw) (pr : profile) (w log : Z) (count n N k : nat) (out : glwe) (input : lwe) (lut : glwe)
    (bsk : list (list (list glwe))) (chi v : Z) (ds : nat -> glwe) : res glwe :=
  if lwe_dim_valid n && glwe_dim_valid N k && radix_valid w log count && bsk_valid n N k count bsk
     && glwe_valid N k lut && lwe_valid n input && glwe_valid N k out then
    ct <- lwe_mod_switch pr w input chi v (Z.of_nat (Nat.log2 N) + 1) ;;
    pbs_loop h pr w log count N k (glwe_rot w out lut (- lwe_b ct)) (lwe_a ct) bsk ds
  else Panic.
(** lines 291-318 [programmable_bootstrap_univariate]. *)
Definition pbs_univariate (h : hw) (pr : profile) (w log : Z) (count n N k : nat) (out input : lwe) (lut : glwe)
    (bsk : list (list (list glwe))) (ds : nat -> glwe) : res lwe :=
  g <- generalized_pbs h pr w log count n N k (glwe_new N k) input lut bsk 0 0 ds ;;
  sample_extract w N k out g 0.
(** lines 575-621 [programmable_bootstrap_bivariate]. *)
Definition pbs_bivariate (h : hw) (pr : profile) (w log : Z) (count n N k : nat) (out left right : lwe) (lut : glwe)
    (bsk : list (list (list glwe))) (p : Z) (ds : nat -> glwe) : res lwe :=
  shift <- shl_i32 pr p ;;
  x <- lwe_scalar_mad w (lwe_new n) (uwrap w shift) left ;;
  y <- lwe_add_inplace w x right ;;
  pbs_univariate h pr w log count n N k out y lut bsk ds.

(** sunscreen_tfhe/src/high_level.rs:586-612 [decrypt_lwe_with_carry] (u64 only). *)
Definition lwe_decrypt_with_carry (pr : profile) (n : nat) (sk : list Z) (ct : lwe) (p carry : Z) : res Z :=
  if p <? 64 then
    s <- uadd pr 32 p carry ;;
    if s <? 64 then
      x <- lwe_decrypt_raw 64 n sk ct ;;
      let round := Z.land (wshr 64 x (64 - s - 1)) 1 in
      one <- ushl pr 64 1 p ;;
      mask <- usub pr 64 one 1 ;;
      sum <- uadd pr 64 (wshr 64 x (64 - s)) round ;;
      Ok (Z.land sum mask)
    else Panic
  else Panic.
