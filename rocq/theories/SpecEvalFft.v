(** Vocabulary of the theorems about running FHE circuits on TFHE ciphertexts through the floating-point FFT (EvalFft.v). *)
From Coq Require Import Reals ZArith List.
From Coquelicot Require Import Complex.
From Verif Require Import Base Graph MuxGraph FheGraph PolyRing Eval Fft FftGlwe FftCbs EvalFft SpecFhe SpecTfhe SpecGlwe SpecBoot SpecTrace SpecSwitch SpecCbs SpecEval SpecFft SpecFftGlwe SpecFftCbs.
Import ListNotations.
Open Scope Z_scope.

(** The accuracy of a machine: unit roundoff, underflow, twist factors and transforms (see SpecFft.accurate). *)
Record accuracy := { acc_u : R; acc_eta : R; acc_tau : R; acc_delta : R }.

(** The error and the size, at each frequency, of a GGSW ciphertext that a scheme switch leaves in Fourier form; fresh ones are no worse. *)
Definition sel_err (A : accuracy) (P : params) : R :=
  switched_err (p_N P / 2) (acc_u A) (acc_eta A) (acc_tau A) (acc_delta A) (IZR (2 ^ 63)) (IZR (2 ^ (r_log (p_ss P) - 1))) (p_k P * r_count (p_ss P)).
Definition sel_size (P : params) : R :=
  switched_size (p_N P / 2) (IZR (2 ^ 63)) (IZR (2 ^ (r_log (p_ss P) - 1))) (p_k P * r_count (p_ss P)).

(** The machine [X], [h] is accurate enough for the parameters [P]: products of binary polynomials are exact, errors inside a circuit bootstrap are at
    most [b_fp B] per coefficient, those of a product with a selector and of a selector's inverse transform at most [b_sel B]. *)
Record fft_ok (X : ext) (h : hw) (P : params) (B : bounds) (A : accuracy) : Prop := {
  fk_N : (2 <= p_N P <= 4096)%nat;
  fk_x86 : hw_x86 h = true -> (16 <= p_N P)%nat;
  fk_round : f64_rounding (ef_fl X);
  fk_acc : accurate X (p_N P / 2) (acc_u A) (acc_eta A) (acc_tau A) (acc_delta A);
  fk_bin : (SpecFft.fft_err (p_N P / 2) (acc_u A) (acc_eta A) (acc_tau A) (acc_delta A) 1 1 1 < / 2)%R;
  fk_pbs : (SpecFft.fft_err (p_N P / 2) (acc_u A) (acc_eta A) (acc_tau A) (acc_delta A) (IZR (2 ^ 63)) (IZR (2 ^ (r_log (p_pbs P) - 1))) ((p_k P + 1) * r_count (p_pbs P)) + 3 / 2 <= IZR (b_fp B))%R;
  fk_tr : (SpecFft.fft_err (p_N P / 2) (acc_u A) (acc_eta A) (acc_tau A) (acc_delta A) (IZR (2 ^ 63)) (IZR (2 ^ (r_log (p_tr P) - 1))) (p_k P * r_count (p_tr P)) + 3 / 2 <= IZR (b_fp B))%R;
  fk_sel : (approx_err (p_N P / 2) (acc_u A) (acc_eta A) (acc_tau A) (acc_delta A) (sel_err A P) (sel_size P) (IZR (2 ^ (r_log (p_cbs P) - 1))) ((p_k P + 1) * r_count (p_cbs P)) + 3 / 2 <= IZR (b_sel B))%R;
  fk_inv : (untwist_err (p_N P / 2) (acc_u A) (acc_eta A) (acc_tau A) (acc_delta A) (sel_err A P) (sel_size P) + 3 / 2 <= IZR (b_sel B))%R
}.

(** [near_transform n e s F v]: the points [F] are the values of the integer polynomial [v] at the n evaluation points up to [e]; those values are at most [s]. *)
Definition value_at (n t : nat) (v : nat -> Z) : C :=
  csum (2 * n) (fun j => Cmult (RtoC (IZR (v j))) (cexp (INR j * (2 * PI / (4 * INR n) - 2 * PI * INR t / INR n)))).
Definition near_transform (n : nat) (e s : R) (F : list C) (v : nat -> Z) : Prop :=
  length F = n /\ forall t, (t < n)%nat -> (Cmod (nth t F (RtoC 0) - value_at n t v)%C <= e)%R /\ (Cmod (value_at n t v) <= s)%R.
(** The Fourier form [f] of the GLWE ciphertext [c]: each polynomial is near the transform of one congruent to that of [c]. *)
Definition fourier_form (n : nat) (w : Z) (k : nat) (e s : R) (f : glwe_fft) (c : glwe) : Prop :=
  (length (fa f) = k /\ Forall (fun p => length p = n) (fa f) /\ length (fb f) = n) /\
  forall j, (j <= k)%nat -> exists v, near_transform n e s (nth j (fa f ++ [fb f]) []) v /\
    forall i, (i < 2 * n)%nat -> zeq (2 ^ w) (v i) (nth i (nth j (ga c ++ [gb c]) []) 0).
(** A ciphertext as the code holds it and the same ciphertext over the integers. *)
Definition represents (A : accuracy) (P : params) (rc : rct) (c : cct) : Prop :=
  match rc, c with
  | RLwe0 x, KLwe0 y | RLwe1 x, KLwe1 y => x = y
  | RGlwe1 x, KGlwe1 y => x = y
  | RGlev1 x, KGlev1 y => x = y
  | RGgsw1 x, KGgsw1 y => Forall2 (Forall2 (fourier_form (p_N P / 2) 64 (p_k P) (sel_err A P) (sel_size P))) x y
  | _, _ => False
  end.

(** [rencrypts A P sk E m rc]: the ciphertext [rc] encrypts [m] with noise at most [E] (SpecEval.encrypts). *)
Definition rencrypts (A : accuracy) (P : params) (sk : secret_key) (E : Z) (m : ct) (rc : rct) : Prop :=
  exists c, represents A P rc c /\ encrypts P sk E m c.
Definition rencrypts_opt A P sk E (m : option ct) (c : option rct) : Prop :=
  match m, c with Some m, Some c => rencrypts A P sk E m c | None, None => True | _, _ => False end.
Definition rencrypts_out A P sk E (m : outcome) (c : routcome) : Prop :=
  rencrypts_opt A P sk E (fst m) (fst c) /\
  match snd m, snd c with
  | Some (t, r, m), Some (t', r', c) => t = t' /\ r = r' /\ rencrypts A P sk E m c
  | None, None => True
  | _, _ => False
  end.
Inductive rmatched (A : accuracy) (P : params) (sk : secret_key) : tinputs -> rinputs -> list (fedge * Z) -> Prop :=
| rmt_nil : rmatched A P sk [] [] []
| rmt_cons : forall l m c E ms cs Es, rencrypts_opt A P sk E m c -> rmatched A P sk ms cs Es ->
    rmatched A P sk ((l, m) :: ms) ((l, c) :: cs) ((l, E) :: Es).

(** The scratch buffers have their shapes; the GLWE one holds arbitrary words. *)
Record scratch_ok (P : params) (s : scratch) : Prop := {
  sco_lwe : length (lwe_a (sc_lwe s)) = p_n P;
  sco_glwe : glwe_wf 64 (p_N P) (p_k P) (sc_glwe s);
  sco_glevl : length (sc_glev s) = r_count (p_cbs P);
  sco_glev : Forall (glwe_shape (p_N P) (p_k P)) (sc_glev s)
}.

(** The randomness of key generation (SpecEval.key_rnd_ok without a claim about products, which are computed). *)
Record key_rnd_fft_ok (P : params) (B : bounds) (r : key_rnd) : Prop := {
  krf_bs : forall i, ggsw_rnd_ok (p_N P) (p_k P) (r_count (p_pbs P)) 64 (b_bs B) (kr_bs r i);
  krf_ksl : length (kr_ks r) = (p_k P * p_N P)%nat;
  krf_ks : ksk_rnd_ok 64 (b_ks B) (p_n P) (r_count (p_ks P)) (kr_ks r);
  krf_ss : forall i, length (kr_ss r i) = r_count (p_ss P) /\ Forall (glwe_rnd_ok (p_N P) (p_k P) 64 (b_ss B)) (kr_ss r i);
  krf_auto : forall j, length (kr_auto r j) = p_k P /\
    Forall (fun row => length row = r_count (p_tr P) /\ Forall (glwe_rnd_ok (p_N P) (p_k P) 64 (b_auto B)) row) (kr_auto r j);
  krf_scratch : polys_shape (p_N P) (p_k P) (kr_scratch r)
}.

(** A processor for these parameters on this machine: its key is the transform of a correct compute key of machine words, and its
    constants encrypt what they should. *)
Record rproc_ok (X : ext) (A : accuracy) (P : params) (B : bounds) (sk : secret_key) (h : hw) (pr : profile) (pc : rproc) : Prop := {
  rk_params : rp_params pc = P; rk_hw : rp_hw pc = h; rk_pr : rp_pr pc = pr;
  rk_add : add_exact h pr 64; rk_sub : sub_exact h pr 64;
  rk_key : exists ck, key_ok P B sk ck /\ key_fft X P ck = Ok (rp_key pc) /\ Forall (ggsw_wf 64 (p_N P) (p_k P) (r_count (p_pbs P))) (k_bs ck) /\
    ak_words 64 (p_N P) (p_k P) (r_count (p_tr P)) (k_auto ck) /\ ssk_words 64 (p_N P) (p_k P) (r_count (p_ss P)) (k_ss ck);
  rk_zero_lwe0 : rencrypts A P sk 0 (CLwe0 false) (RLwe0 (rp_zero_lwe0 pc)); rk_one_lwe0 : rencrypts A P sk 0 (CLwe0 true) (RLwe0 (rp_one_lwe0 pc));
  rk_zero_glwe1 : rencrypts A P sk 0 (CGlwe1 (FheGraph.pconst (p_N P) false)) (RGlwe1 (rp_zero_glwe1 pc));
  rk_one_glwe1 : rencrypts A P sk 0 (CGlwe1 (FheGraph.pconst (p_N P) true)) (RGlwe1 (rp_one_glwe1 pc));
  rk_zero_ggsw1 : rencrypts A P sk (boot_noise P B) (CGgsw1 false) (RGgsw1 (rp_zero_ggsw1 pc));
  rk_one_ggsw1 : rencrypts A P sk (boot_noise P B) (CGgsw1 true) (RGgsw1 (rp_one_ggsw1 pc));
  rk_zero_glev1 : rencrypts A P sk 0 (CGlev1 false) (RGlev1 (rp_zero_glev1 pc)); rk_one_glev1 : rencrypts A P sk 0 (CGlev1 true) (RGlev1 (rp_one_glev1 pc))
}.

(** Executing circuit [g], in any order that respects the edges; node n finds the scratch buffers [sp n]. *)
Inductive rvalue (X : ext) (m : mad_kernel) (pc : rproc) (sp : nat -> scratch) (cells : cty -> nat -> rct) (g : fgraph) : nat -> routcome -> Prop :=
| rv_node : forall n op ins o, node g n = Some op -> rvinputs X m pc sp cells g (in_edges g n) ins ->
    rexec_op X m pc (sp n) cells op ins = Ok o -> rvalue X m pc sp cells g n o
with rvinputs (X : ext) (m : mad_kernel) (pc : rproc) (sp : nat -> scratch) (cells : cty -> nat -> rct) (g : fgraph) : list (nat * nat * fedge) -> rinputs -> Prop :=
| ri_nil : rvinputs X m pc sp cells g [] []
| ri_cons : forall s t l es c w ins, rvalue X m pc sp cells g s (c, w) -> rvinputs X m pc sp cells g es ins ->
    rvinputs X m pc sp cells g ((s, t, l) :: es) ((l, c) :: ins).

(** Decrypting a ciphertext, whatever its kind, gives the message. *)
Definition rdecrypts_to (X : ext) (pr : profile) (P : params) (sk : secret_key) (m : ct) (c : rct) : Prop :=
  match m, c with
  | CLwe0 b, RLwe0 c => dec_lwe0 pr P sk c = Ok b
  | CLwe1 b, RLwe1 c => dec_lwe1 pr P sk c = Ok b
  | CGlwe1 p, RGlwe1 c => dec_glwe1 pr P sk c = Ok (map Z.b2z p)
  | CGgsw1 b, RGgsw1 c => rdec_ggsw1 X pr P sk c = Ok b
  | CGlev1 b, RGlev1 c => dec_glev1 pr P sk c = Ok (map Z.b2z (FheGraph.pconst (p_N P) b))
  | _, _ => False
  end.
(** The noise that decryption sees: the inverse transform of a GGSW ciphertext adds its own error. *)
Definition decrypt_noise (P : params) (B : bounds) (t : cty) (E : Z) : Z :=
  match t with TGgsw1 => E + b_sel B * (1 + Z.of_nat (p_k P) * Z.of_nat (p_N P)) | _ => E end.
