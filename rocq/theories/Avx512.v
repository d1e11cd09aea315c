(** The AVX-512 kernels of sunscreen_tfhe (math/simd/x86_64/avx512.rs), at the level of the instructions of their inline assembly, and
    the dispatch to them (math/simd/x86_64/mod.rs).

    A zmm register is a list of 8 lanes. The memory is the slices passed to the kernel; an access that is not inside the slice is undefined
    behaviour in Rust and is written [Panic]. (Alignment is asserted by the caller of the complex kernel, mod.rs:61-63, and not modelled.)
    Instruction semantics: Intel 64 and IA-32 Architectures Software Developer's Manual, volume 2. *)
From Coq Require Import Reals ZArith List Lia Bool.
From Coquelicot Require Import Complex.
From Verif Require Import Base Tfhe Fft.
Import ListNotations.
Open Scope nat_scope.

Inductive slice := SA | SB | SC | SS.
Inductive instr :=
  | Load (d : nat) (p : slice) (indexed : bool) (off : nat)  (* vmovapd / vmovdqa64 zmm_d, [p + 8*i + 8*off]; not [indexed]: [p] *)
  | Store (p : slice) (off : nat) (s : nat)                  (* vmovapd / vmovdqa64 [p + 8*i + 8*off], zmm_s *)
  | Shufpd (d s1 s2 : nat) (imm : Z)
  | Fmadd231 (d s2 s3 : nat) | Fnmadd231 (d s2 s3 : nat)
  | Mullq (d s2 s3 : nat) | Addq (d s2 s3 : nat).

Section Machine.
  Context {V : Type}.
  (** Lane operations: fused multiply-add (d + a*b), fused negated multiply-add (d - a*b), low product, sum. [dq]: has the CPU AVX512DQ? *)
  Context (fma fnma mul add : V -> V -> V -> V) (dq : bool).
  Record state := { regs : nat -> list V; mem : slice -> list V }.

  Definition slice_eqb (p q : slice) : bool :=
    match p, q with SA, SA | SB, SB | SC, SC | SS, SS => true | _, _ => false end.
  Definition load (l : list V) (j : nat) : res (list V) := if j + 8 <=? length l then Ok (firstn 8 (skipn j l)) else Panic.
  Definition store (l : list V) (j : nat) (v : list V) : res (list V) :=
    if j + 8 <=? length l then Ok (firstn j l ++ v ++ skipn (j + 8) l) else Panic.
  (** VSHUFPD: the even lanes of the result come from the first source, the odd lanes from the second; bit [n] of the immediate chooses which
      lane of the pair goes to lane [n]. *)
  Fixpoint shufpd (imm : Z) (n : Z) (a b : list V) : list V :=
    match a, b with
    | a0 :: a1 :: a, b0 :: b1 :: b =>
        (if Z.testbit imm n then a1 else a0) :: (if Z.testbit imm (n + 1) then b1 else b0) :: shufpd imm (n + 2) a b
    | _, _ => []
    end.
  Fixpoint lanes3 (f : V -> V -> V -> V) (d a b : list V) : list V :=
    match d, a, b with x :: d, y :: a, z :: b => f x y z :: lanes3 f d a b | _, _, _ => [] end.
  Definition setr (s : state) (d : nat) (v : list V) : state :=
    {| regs := fun r => if r =? d then v else regs s r; mem := mem s |}.
  Definition setm (s : state) (p : slice) (v : list V) : state :=
    {| regs := regs s; mem := fun q => if slice_eqb q p then v else mem s q |}.
  Definition exec (i : nat) (s : state) (x : instr) : res state :=
    match x with
    | Load d p indexed off => v <- load (mem s p) ((if indexed then i else 0) + off) ;; Ok (setr s d v)
    | Store p off r => l <- store (mem s p) (i + off) (regs s r) ;; Ok (setm s p l)
    | Shufpd d s1 s2 imm => Ok (setr s d (shufpd imm 0 (regs s s1) (regs s s2)))
    | Fmadd231 d s2 s3 => Ok (setr s d (lanes3 fma (regs s d) (regs s s2) (regs s s3)))
    | Fnmadd231 d s2 s3 => Ok (setr s d (lanes3 fnma (regs s d) (regs s s2) (regs s s3)))
    | Mullq d s2 s3 => if dq then Ok (setr s d (lanes3 mul (regs s s2) (regs s s2) (regs s s3))) else Panic
    | Addq d s2 s3 => Ok (setr s d (lanes3 add (regs s s2) (regs s s2) (regs s s3)))
    end.
  Fixpoint run (i : nat) (s : state) (prog : list instr) : res state :=
    match prog with [] => Ok s | x :: prog => s' <- exec i s x ;; run i s' prog end.
  (** [while i < len { asm; i += 16 }]; [fuel] bounds the number of iterations (running out of it is excluded by the theorems). *)
  Fixpoint kernel_loop (fuel : nat) (prog : list instr) (len i : nat) (s : state) : res state :=
    if i <? len then
      match fuel with
      | O => Panic
      | S fuel => s' <- run i s prog ;; kernel_loop fuel prog len (i + 16) s'
      end
    else Ok s.
End Machine.
Arguments state V : clear implicits.

(** avx512.rs:39-61. *)
Definition mad_prog : list instr :=
  [Load 0 SA true 0; Load 1 SA true 8; Shufpd 2 0 1 0; Shufpd 3 0 1 255;
   Load 0 SB true 0; Load 1 SB true 8; Shufpd 4 0 1 0; Shufpd 5 0 1 255;
   Load 0 SC true 0; Load 1 SC true 8; Shufpd 6 0 1 0; Shufpd 7 0 1 255;
   Fmadd231 6 2 4; Fmadd231 7 2 5; Fnmadd231 6 3 5; Fmadd231 7 3 4;
   Shufpd 0 6 7 0; Shufpd 1 6 7 255; Store SC 0 0; Store SC 8 1].
(** avx512.rs:100-118. *)
Definition scalar_prog : list instr :=
  [Load 7 SS false 0; Load 0 SA true 0; Load 1 SA true 8; Load 2 SC true 0; Load 3 SC true 8;
   Mullq 4 0 7; Mullq 5 1 7; Addq 2 2 4; Addq 3 3 5; Store SC 0 2; Store SC 8 3].

(** A slice of [Complex<f64>] read as f64 (avx512.rs:22-27: repr(C)). *)
Definition floats (l : list C) : list R := flat_map (fun z => [fst z; snd z]) l.
Fixpoint complexes (l : list R) : list C :=
  match l with x :: y :: l => (x, y) :: complexes l | _ => [] end.

(** f64 lanes: one rounding per fused operation. *)
Definition r_fma (fl : R -> R) (d a b : R) : R := fl (a * b + d)%R.
Definition r_fnma (fl : R -> R) (d a b : R) : R := fl (- a * b + d)%R.
(** u64 lanes. *)
Definition z_mul (_ a b : Z) : Z := tmul 64 a b.
Definition z_add (_ a b : Z) : Z := tadd 64 a b.

(** avx512.rs:14-79 [complex_mad_avx_512_unchecked]; [r0] is what the registers held. *)
Definition complex_mad_avx512 (fl : R -> R) (dq : bool) (r0 : nat -> list R) (c a b : list C) : res (list C) :=
  s <- kernel_loop (r_fma fl) (r_fnma fl) (fun d _ _ => d) (fun d _ _ => d) dq (S (length c)) mad_prog (2 * length c) 0
         {| regs := r0; mem := fun p => match p with SA => floats a | SB => floats b | SC => floats c | SS => [] end |} ;;
  Ok (complexes (mem s SC)).
(** avx512.rs:81-140 [vector_scalar_mad]. *)
Definition vector_scalar_mad_avx512 (dq : bool) (r0 : nat -> list Z) (c a : list Z) (x : Z) : res (list Z) :=
  s <- kernel_loop (fun d _ _ => d) (fun d _ _ => d) z_mul z_add dq (S (length c)) scalar_prog (length c) 0
         {| regs := r0; mem := fun p => match p with SA => a | SB => [] | SC => c | SS => repeat x 8 end |} ;;
  Ok (mem s SC).

(** What [CpuId] reports about AVX-512 (mod.rs:14-25 looks at AVX512F only). *)
Record avx512_hw := { has_512f : bool; has_512dq : bool }.
(** mod.rs:59-75 [complex_mad]: AVX-512, or one of the two loops of Fft.mad_elem_scalar. *)
Definition complex_mad_x86 (fl : R -> R) (v : avx512_hw) (r0 : nat -> list R) (c a b : list C) : res (list C) :=
  if (length c =? length a) && (length b =? length a) && (length a mod 8 =? 0) then
    if has_512f v then complex_mad_avx512 fl (has_512dq v) r0 c a b else Ok (mad_loop (mad_elem_scalar fl) c a b)
  else Panic.
