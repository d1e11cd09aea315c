(** Vocabulary of the theorems about running FHE circuits on TFHE ciphertexts. *)
From Verif Require Import Base Graph MuxGraph FheGraph PolyRing Eval SpecFhe SpecTfhe SpecGlwe SpecBoot SpecTrace SpecSwitch SpecCbs.
Open Scope Z_scope.

(** A polynomial with 0/1 coefficients, and the constant bit [b], as elements of the ring. *)
Definition bpoly (p : list bool) : poly := coef (map Z.b2z p).

(** [encrypts P sk E m c]: the ciphertext [c] has the kind of [m] and decrypts (under the secret key) to the message [m]
    encoded in one plaintext bit, up to noise of magnitude [E]. *)
Definition encrypts (P : params) (sk : secret_key) (E : Z) (m : ct) (c : cct) : Prop :=
  match m, c with
  | CLwe0 b, KLwe0 c => lwe_wf 64 (p_n P) c /\ near 64 E (lwe_phase (s_lwe0 sk) c) (Z.b2z b * 2 ^ 63)
  | CLwe1 b, KLwe1 c => lwe_wf 64 (p_k P * p_N P) c /\ near 64 E (lwe_phase (concat (s_glwe1 sk)) c) (Z.b2z b * 2 ^ 63)
  | CGlwe1 p, KGlwe1 c => glwe_wf 64 (p_N P) (p_k P) c /\ length p = p_N P /\
      pnear (p_N P) 64 E (glwe_phase (p_N P) (s_glwe1 sk) c) (pscale (2 ^ 63) (bpoly p))
  | CGgsw1 b, KGgsw1 c => ggsw_valid (p_N P) (p_k P) (r_count (p_cbs P)) c = true /\ Forall (Forall (glwe_wf 64 (p_N P) (p_k P))) c /\
      ggsw_enc (p_N P) (p_k P) (r_count (p_cbs P)) 64 (r_log (p_cbs P)) E (s_glwe1 sk) (pconst (Z.b2z b)) c
  | CGlev1 b, KGlev1 c => length c = r_count (p_cbs P) /\ Forall (glwe_wf 64 (p_N P) (p_k P)) c /\
      glev_enc (p_N P) (p_k P) 64 (r_log (p_cbs P)) E (s_glwe1 sk) (pconst (Z.b2z b)) c
  | _, _ => False
  end.

(** The same for what an operation leaves behind. *)
Definition encrypts_opt P sk E (m : option ct) (c : option cct) : Prop :=
  match m, c with Some m, Some c => encrypts P sk E m c | None, None => True | _, _ => False end.
Definition encrypts_out P sk E (m : outcome) (c : coutcome) : Prop :=
  encrypts_opt P sk E (fst m) (fst c) /\
  match snd m, snd c with
  | Some (t, r, m), Some (t', r', c) => t = t' /\ r = r' /\ encrypts P sk E m c
  | None, None => True
  | _, _ => False
  end.

(** The inputs of an operation, as messages, as ciphertexts, and the noise of each. *)
Inductive matched (P : params) (sk : secret_key) : tinputs -> cinputs -> list (fedge * Z) -> Prop :=
| mt_nil : matched P sk [] [] []
| mt_cons : forall l m c E ms cs Es, encrypts_opt P sk E m c -> matched P sk ms cs Es ->
    matched P sk ((l, m) :: ms) ((l, c) :: cs) ((l, E) :: Es).

(** Parameters: a power-of-two degree, gadgets that fit the word, and a gadget small enough for the circuit bootstrap. *)
Definition radix_ok (r : radix) : Prop := 1 <= r_log r /\ (1 <= r_count r)%nat /\ r_log r * Z.of_nat (r_count r) < 64.
Record params_ok (P : params) : Prop := {
  po_n : (1 <= p_n P)%nat;
  po_dim : glwe_dim_valid (p_N P) (p_k P) = true;
  po_N : Z.of_nat (Nat.log2 (p_N P)) + 1 < 64;
  po_cbs : radix_ok (p_cbs P); po_pbs : radix_ok (p_pbs P); po_ks : radix_ok (p_ks P); po_ss : radix_ok (p_ss P); po_tr : radix_ok (p_tr P);
  po_cnt : (r_count (p_cbs P) < 8)%nat;
  po_fit : r_log (p_cbs P) * Z.of_nat (r_count (p_cbs P)) + 1 < 64
}.

(** Binary secret keys of the right shape, as SecretKey::generate makes them. *)
Record secret_ok (P : params) (sk : secret_key) : Prop := {
  so_lwe : length (s_lwe0 sk) = p_n P; so_lweb : binary (s_lwe0 sk);
  so_glwe : polys_shape (p_N P) (p_k P) (s_glwe1 sk); so_glweb : binary_polys (s_glwe1 sk)
}.

(** Bounds on the noise of the keys (bootstrap, automorphism, scheme-switch, key-switch) and on the floating-point errors, inside a
    circuit bootstrap and in products with a selector. *)
Record bounds := { b_bs : Z; b_auto : Z; b_ss : Z; b_ks : Z; b_fp : Z; b_sel : Z }.
Definition bounds_ok (B : bounds) : Prop := 0 <= b_bs B /\ 0 <= b_auto B /\ 0 <= b_ss B /\ 0 <= b_ks B /\ 0 <= b_fp B /\ 0 <= b_sel B.

(** The compute key holds the encryptions it should. *)
Record key_ok (P : params) (B : bounds) (sk : secret_key) (ck : compute_key) : Prop := {
  ko_bs : bsk_enc (p_N P) (p_k P) (r_count (p_pbs P)) 64 (r_log (p_pbs P)) (b_bs B) (s_glwe1 sk) (s_lwe0 sk) (k_bs ck);
  ko_auto : ak_enc (p_N P) (p_k P) (r_count (p_tr P)) 64 (r_log (p_tr P)) (b_auto B) (s_glwe1 sk) (k_auto ck);
  ko_ss : ssk_enc (p_N P) (p_k P) (r_count (p_ss P)) 64 (r_log (p_ss P)) (b_ss B) (s_glwe1 sk) (k_ss ck);
  ko_ksv : ksk_valid (p_k P * p_N P) (p_n P) (r_count (p_ks P)) (k_ks ck) = true;
  ko_ks : ksk_enc 64 (r_log (p_ks P)) (b_ks B) (r_count (p_ks P)) (concat (s_glwe1 sk)) (s_lwe0 sk) (k_ks ck)
}.

(** The randomness of key generation has the right shapes and errors within the bounds; FFT products of key polynomials
    are exact. *)
Record key_rnd_ok (P : params) (B : bounds) (sk : secret_key) (r : key_rnd) : Prop := {
  kro_bs : forall i, ggsw_rnd_ok (p_N P) (p_k P) (r_count (p_pbs P)) 64 (b_bs B) (kr_bs r i);
  kro_ksl : length (kr_ks r) = (p_k P * p_N P)%nat;
  kro_ks : ksk_rnd_ok 64 (b_ks B) (p_n P) (r_count (p_ks P)) (kr_ks r);
  kro_ss : forall i, length (kr_ss r i) = r_count (p_ss P) /\ Forall (glwe_rnd_ok (p_N P) (p_k P) 64 (b_ss B)) (kr_ss r i);
  kro_auto : forall j, length (kr_auto r j) = p_k P /\
    Forall (fun row => length row = r_count (p_tr P) /\ Forall (glwe_rnd_ok (p_N P) (p_k P) 64 (b_auto B)) row) (kr_auto r j);
  kro_mul : forall a b, In a (s_glwe1 sk) -> In b (s_glwe1 sk) ->
    length (kr_mul r a b) = p_N P /\ peq (p_N P) (2 ^ 64) (coef (kr_mul r a b)) (pmul (p_N P) (coef a) (coef b));
  kro_scratch : polys_shape (p_N P) (p_k P) (kr_scratch r)
}.

(** Scratch buffers have their shapes (any contents) and the floating-point errors are bounded. *)
Record fenv_ok (P : params) (B : bounds) (f : fenv) : Prop := {
  fo_lwe : length (lwe_a (fe_lwe f)) = p_n P;
  fo_glwe : glwe_shape (p_N P) (p_k P) (fe_glwe f);
  fo_glevl : length (fe_glev f) = r_count (p_cbs P);
  fo_glev : Forall (glwe_shape (p_N P) (p_k P)) (fe_glev f);
  fo_sel : forall i, fft_err (p_N P) (p_k P) (b_sel B) (fe_sel f i);
  fo_d1 : forall i, fft_err (p_N P) (p_k P) (b_fp B) (fe_d1 f i);
  fo_d2 : forall i j, fft_err (p_N P) (p_k P) (b_fp B) (fe_d2 f i j);
  fo_d3 : forall i j, fft_err (p_N P) (p_k P) (b_fp B) (fe_d3 f i j)
}.

(** The randomness of one public-key encryption: a binary polynomial and two error polynomials bounded by [E]. *)
Definition pub_rnd_ok (N : nat) (E : Z) (r : list Z * list Z * list Z) : Prop :=
  let '(u, e0, e1) := r in length u = N /\ binary u /\ length e0 = N /\ length e1 = N /\ pnear N 64 E (coef e0) p0 /\ pnear N 64 E (coef e1) p0.
(** [pk] is a public key: an encryption of zero with noise at most [E]. *)
Definition pk_ok (P : params) (sk : secret_key) (E : Z) (pk : glwe) : Prop :=
  glwe_wf 64 (p_N P) (p_k P) pk /\ pnear (p_N P) 64 E (glwe_phase (p_N P) (s_glwe1 sk) pk) p0.

(** ** Noise *)
(** A circuit bootstrap (its input's noise does not matter), a CMUX or product with selector noise [E], a key switch. *)
Definition boot_noise (P : params) (B : bounds) : Z :=
  cbs_noise (p_N P) (p_k P) (p_n P) (r_count (p_pbs P)) (r_count (p_tr P)) (r_count (p_ss P)) 64 (r_log (p_pbs P)) (r_log (p_tr P)) (r_log (p_ss P))
    (b_bs B) (b_auto B) (b_ss B) (b_fp B).
Definition sel_noise (P : params) (B : bounds) (E : Z) : Z :=
  cmux_noise (p_N P) (p_k P) (r_count (p_cbs P)) 64 (r_log (p_cbs P)) E (b_sel B).
Definition switch_noise (P : params) (B : bounds) : Z :=
  Z.of_nat (p_k P * p_N P) * (2 ^ (64 - r_log (p_ks P) * Z.of_nat (r_count (p_ks P)) - 1)
    + Z.of_nat (r_count (p_ks P)) * (2 ^ (r_log (p_ks P) - 1) * b_ks B)).
Definition schsw_noise (P : params) (B : bounds) (E : Z) : Z :=
  ss_noise (p_N P) (p_k P) (r_count (p_ss P)) 64 (r_log (p_ss P)) E (b_ss B) + b_fp B * (1 + Z.of_nat (p_k P) * Z.of_nat (p_N P)).

(** What a circuit bootstrap tolerates: the input's noise and the rounding of the modulus switch stay below a quarter. *)
Definition boot_margin (P : params) (E : Z) : Prop :=
  E + (Z.of_nat (p_n P) + 1) * 2 ^ (64 - (Z.of_nat (Nat.log2 (p_N P)) + 1) + Z.of_nat (log_slots (r_count (p_cbs P))) - 1) < 2 ^ 62.

(** A processor for these parameters, on a machine and build where the vectorised polynomial additions are exact, whose
    compute key is correct and whose constants encrypt what they should: the GGSW constants carry the noise of a circuit
    bootstrap, the others none. *)
Record proc_ok (P : params) (B : bounds) (sk : secret_key) (pc : proc) : Prop := {
  pk_params : pc_params pc = P;
  pk_add : add_exact (pc_hw pc) (pc_pr pc) 64; pk_sub : sub_exact (pc_hw pc) (pc_pr pc) 64;
  pk_key : key_ok P B sk (pc_key pc);
  pk_zero_lwe0 : encrypts P sk 0 (CLwe0 false) (KLwe0 (pc_zero_lwe0 pc)); pk_one_lwe0 : encrypts P sk 0 (CLwe0 true) (KLwe0 (pc_one_lwe0 pc));
  pk_zero_glwe1 : encrypts P sk 0 (CGlwe1 (FheGraph.pconst (p_N P) false)) (KGlwe1 (pc_zero_glwe1 pc));
  pk_one_glwe1 : encrypts P sk 0 (CGlwe1 (FheGraph.pconst (p_N P) true)) (KGlwe1 (pc_one_glwe1 pc));
  pk_zero_ggsw1 : encrypts P sk (boot_noise P B) (CGgsw1 false) (KGgsw1 (pc_zero_ggsw1 pc));
  pk_one_ggsw1 : encrypts P sk (boot_noise P B) (CGgsw1 true) (KGgsw1 (pc_one_ggsw1 pc));
  pk_zero_glev1 : encrypts P sk 0 (CGlev1 false) (KGlev1 (pc_zero_glev1 pc)); pk_one_glev1 : encrypts P sk 0 (CGlev1 true) (KGlev1 (pc_one_glev1 pc))
}.

(** The noise on the input of an operation with a given label, the first and the second input. *)
Definition noise_at (l : fedge) (ins : list (fedge * Z)) : Z :=
  match find (fun p => fedge_eqb (fst p) l) ins with Some p => snd p | None => 0 end.
Definition noise0 (ins : list (fedge * Z)) : Z := match ins with p :: _ => snd p | [] => 0 end.
Definition noise1 (ins : list (fedge * Z)) : Z := match ins with _ :: p :: _ => snd p | _ => 0 end.

(** The noise of the result of an operation whose inputs have the noise [ins]; shared input ciphertexts have noise at most
    [cell t r]. *)
Definition op_noise (P : params) (B : bounds) (cell : cty -> nat -> Z) (op : fop) (ins : list (fedge * Z)) : Z :=
  match op with
  | FInput t r => cell t r
  | FOutput _ _ | FNot | FSampleExtract _ => noise0 ins
  | FMulXN _ => noise_at EUnary ins
  | FGlweAdd => noise0 ins + noise1 ins
  | FCbs | FZero TGgsw1 | FOne TGgsw1 => boot_noise P B
  | FMultiply => noise_at EGlwe ins + sel_noise P B (noise_at EGgsw ins)
  | FCMux | FGlevCMux => Z.max (noise_at ELow ins) (noise_at EHigh ins) + sel_noise P B (noise_at ESel ins)
  | FKeyswitch => noise0 ins + switch_noise P B
  | FSchemeSwitch => schsw_noise P B (noise_at EUnary ins)
  | FZero _ | FOne _ | FRetire | FNop => 0
  end.
(** The side conditions of an operation: the bootstrap's margin, and an exponent that is a usize. *)
Definition op_cond (P : params) (op : fop) (ins : list (fedge * Z)) : Prop :=
  match op with FCbs => boot_margin P (noise0 ins) | FMulXN n => Z.of_nat n < 2 ^ 64 | _ => True end.

(** A static noise analysis of a circuit: [E n] bounds the noise of node [n], given the bounds of its predecessors. *)
Definition noise_ok (P : params) (B : bounds) (cell : cty -> nat -> Z) (g : fgraph) (E : nat -> Z) : Prop :=
  forall n op, node g n = Some op ->
    let ins := map (fun e => (snd e, E (fst (fst e)))) (in_edges g n) in
    op_cond P op ins /\ op_noise P B cell op ins <= E n.

(** Executing circuit [g] on ciphertexts, in any order that respects the edges; node n runs in the environment [fp n]. *)
Inductive kvalue (pc : proc) (fp : nat -> fenv) (cells : cty -> nat -> cct) (g : fgraph) : nat -> coutcome -> Prop :=
| kv_node : forall n op ins o, node g n = Some op -> kinputs pc fp cells g (in_edges g n) ins ->
    kexec_op pc (fp n) cells op ins = Ok o -> kvalue pc fp cells g n o
with kinputs (pc : proc) (fp : nat -> fenv) (cells : cty -> nat -> cct) (g : fgraph) : list (nat * nat * fedge) -> cinputs -> Prop :=
| ki_nil : kinputs pc fp cells g [] []
| ki_cons : forall s t l es c w ins, kvalue pc fp cells g s (c, w) -> kinputs pc fp cells g es ins ->
    kinputs pc fp cells g ((s, t, l) :: es) ((l, c) :: ins).

(** Decrypting a ciphertext, whatever its kind, gives the message. *)
Definition decrypts_to (pr : profile) (P : params) (sk : secret_key) (m : ct) (c : cct) : Prop :=
  match m, c with
  | CLwe0 b, KLwe0 c => dec_lwe0 pr P sk c = Ok b
  | CLwe1 b, KLwe1 c => dec_lwe1 pr P sk c = Ok b
  | CGlwe1 p, KGlwe1 c => dec_glwe1 pr P sk c = Ok (map Z.b2z p)
  | CGgsw1 b, KGgsw1 c => dec_ggsw1 pr P sk c = Ok b
  | CGlev1 b, KGlev1 c => dec_glev1 pr P sk c = Ok (map Z.b2z (FheGraph.pconst (p_N P) b))
  | _, _ => False
  end.
(** The noise below which decryption succeeds: a quarter of the word, or half a step of the first gadget level. *)
Definition decrypt_bound (P : params) (t : cty) : Z :=
  match t with TGgsw1 | TGlev1 => 2 ^ (63 - r_log (p_cbs P)) | _ => 2 ^ 62 end.
