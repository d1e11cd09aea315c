(** The AVX-512 kernels: lemmas. *)
From Coq Require Import Reals ZArith List Lia Bool.
From Coquelicot Require Import Complex.
From Verif Require Import Base Tfhe Fft Avx512.
Import ListNotations.
Open Scope nat_scope.
Ltac Zify.zify_post_hook ::= idtac.

Section M.
  Context {V : Type}.
  Lemma load_at (p v s : list V) j : length p = j -> length v = 8 -> load (p ++ v ++ s) j = Ok v.
  Proof.
    intros Hp Hv. unfold load. rewrite !app_length. destruct (Nat.leb_spec (j + 8) (length p + (length v + length s))); [|lia].
    rewrite <- Hp, skipn_app, skipn_all, Nat.sub_diag. cbn [skipn app]. rewrite <- Hv, firstn_app, firstn_all, Nat.sub_diag. cbn [firstn]. now rewrite app_nil_r.
  Qed.
  Lemma load_at' (p u v s : list V) j : length p = j -> length u = 8 -> length v = 8 -> load (p ++ u ++ v ++ s) (j + 8) = Ok v.
  Proof. intros Hp Hu Hv. rewrite (app_assoc p u). apply load_at; [rewrite app_length; lia|assumption]. Qed.
  Lemma store_at (p v s x : list V) j : length p = j -> length v = 8 -> store (p ++ v ++ s) j x = Ok (p ++ x ++ s).
  Proof.
    intros Hp Hv. unfold store. rewrite !app_length. destruct (Nat.leb_spec (j + 8) (length p + (length v + length s))); [|lia].
    rewrite <- Hp at 1. rewrite firstn_app, firstn_all, Nat.sub_diag. cbn [firstn]. rewrite app_nil_r.
    replace (skipn (j + 8) (p ++ v ++ s)) with s; [reflexivity|]. rewrite app_assoc. replace (j + 8) with (length (p ++ v)) by (rewrite app_length; lia).
    rewrite skipn_app, skipn_all, Nat.sub_diag. reflexivity.
  Qed.
  Lemma store_at' (p u v s x : list V) j : length p = j -> length u = 8 -> length v = 8 -> store (p ++ u ++ v ++ s) (j + 8) x = Ok (p ++ u ++ x ++ s).
  Proof. intros Hp Hu Hv. rewrite (app_assoc p u), (app_assoc p u). apply store_at; [rewrite app_length; lia|assumption]. Qed.
  Lemma load_short (l : list V) j : length l < j + 8 -> load l j = Panic.
  Proof. intros H. unfold load. destruct (Nat.leb_spec (j + 8) (length l)); [lia|reflexivity]. Qed.
  Lemma split8 (l : list V) : 8 <= length l -> exists v s, l = v ++ s /\ length v = 8.
  Proof. intros H. exists (firstn 8 l), (skipn 8 l). split; [symmetry; apply firstn_skipn|]. rewrite firstn_length. lia. Qed.
End M.

Ltac break8 v := let L := fresh in match goal with H : length v = 8 |- _ => rename H into L end;
  do 8 (destruct v as [|? v]; [discriminate L|]); destruct v; [clear L|discriminate L].

(** ** Integers *)
Definition zmad (x y a : Z) : Z := tadd 64 y (tmul 64 a x).
Notation zloop x := (zip_assign (zmad x)).
Notation zker dq := (kernel_loop (fun d _ _ : Z => d) (fun d _ _ => d) z_mul z_add dq).
Notation zrun dq := (run (fun d _ _ : Z => d) (fun d _ _ => d) z_mul z_add dq).

Lemma scalar_step r pc pa c1 c2 a1 a2 sc sa x i mm :
  length pc = i -> length pa = i -> length c1 = 8 -> length c2 = 8 -> length a1 = 8 -> length a2 = 8 ->
  mm SC = pc ++ c1 ++ c2 ++ sc -> mm SA = pa ++ a1 ++ a2 ++ sa -> mm SS = repeat x 8 ->
  exists r', zrun true i {| regs := r; mem := mm |} scalar_prog =
    Ok {| regs := r'; mem := fun q => if slice_eqb q SC then pc ++ zloop x c1 a1 ++ zloop x c2 a2 ++ sc else if slice_eqb q SC then pc ++ zloop x c1 a1 ++ c2 ++ sc else mm q |}.
Proof.
  intros Lpc Lpa L1 L2 L3 L4 Mc Ma Ms. unfold scalar_prog.
  cbn [run exec]. cbn [mem]. rewrite Ms. change (load (repeat x 8) (0 + 0)) with (@Ok (list Z) (repeat x 8)). cbn [bind setr mem regs].
  rewrite Ma, Nat.add_0_r, load_at by assumption. cbn [bind setr mem regs]. rewrite Ma, load_at' by assumption. cbn [bind setr mem regs].
  rewrite Mc, load_at by assumption. cbn [bind setr mem regs]. rewrite Mc, load_at' by assumption. cbn [bind setr mem regs Nat.eqb].
  cbn [setm mem regs slice_eqb]. rewrite Mc, store_at by assumption. cbn [bind setm mem regs slice_eqb Nat.eqb].
  break8 c1. break8 a1. cbn [repeat lanes3 zip_assign].
  rewrite store_at' by (reflexivity || assumption). cbn [bind]. break8 c2. break8 a2. cbn [lanes3 zip_assign]. eexists. reflexivity.
Qed.

Lemma zip_app {A B} (f : A -> B -> A) l1 l2 r1 r2 : length l1 = length r1 -> zip_assign f (l1 ++ l2) (r1 ++ r2) = zip_assign f l1 r1 ++ zip_assign f l2 r2.
Proof. revert r1. induction l1 as [|x l1 IH]; intros [|y r1] H; cbn [length] in H; try lia; cbn [app zip_assign]; [reflexivity|]. rewrite IH by lia. reflexivity. Qed.

Lemma scalar_loop_ok x q : forall fuel r mm pc pa c a i, q <= fuel -> length c = 16 * q -> 16 * q <= length a -> length pc = i -> length pa = i ->
  mm SC = pc ++ c -> mm SA = pa ++ a -> mm SS = repeat x 8 ->
  exists s, zker true fuel scalar_prog (i + 16 * q) i {| regs := r; mem := mm |} = Ok s /\ mem s SC = pc ++ zloop x c a.
Proof.
  induction q as [|q IH]; intros fuel r mm pc pa c a i Hf Lc La Lpc Lpa Mc Ma Ms.
  - destruct c; [|cbn in Lc; lia]. exists {| regs := r; mem := mm |}. split; [|exact Mc]. destruct fuel; cbn [kernel_loop]; (destruct (Nat.ltb_spec i (i + 16 * 0)); [lia|reflexivity]).
  - destruct fuel as [|fuel]; [lia|]. cbn [kernel_loop]. destruct (Nat.ltb_spec i (i + 16 * S q)); [|lia].
    destruct (split8 c) as (c1 & c' & -> & L1); [lia|]. rewrite app_length in Lc. destruct (split8 c') as (c2 & sc & -> & L2); [lia|]. rewrite app_length in Lc.
    destruct (split8 a) as (a1 & a' & -> & L3); [lia|]. rewrite app_length in La. destruct (split8 a') as (a2 & sa & -> & L4); [lia|]. rewrite app_length in La.
    destruct (scalar_step r pc pa c1 c2 a1 a2 sc sa x i mm Lpc Lpa L1 L2 L3 L4 Mc Ma Ms) as (r' & E). rewrite E. cbn [bind].
    assert (Lz1 : length (zloop x c1 a1) = 8) by (clear -L1 L3; break8 c1; break8 a1; reflexivity).
    assert (Lz2 : length (zloop x c2 a2) = 8) by (clear -L2 L4; break8 c2; break8 a2; reflexivity).
    match goal with |- exists s, kernel_loop _ _ _ _ _ _ _ _ _ {| regs := _; mem := ?m |} = _ /\ _ => set (mm' := m) end.
    destruct (IH fuel r' mm' (pc ++ zloop x c1 a1 ++ zloop x c2 a2) (pa ++ a1 ++ a2) sc sa (i + 16)) as (s & Es & Ms'); try lia.
    { rewrite !app_length. lia. } { rewrite !app_length. lia. }
    { unfold mm'. cbn [slice_eqb]. now rewrite <- !app_assoc. } { unfold mm'. cbn [slice_eqb]. rewrite Ma. now rewrite <- !app_assoc. } { unfold mm'. cbn [slice_eqb]. exact Ms. }
    exists s. replace (i + 16 * S q) with (i + 16 + 16 * q) by lia. split; [exact Es|]. rewrite Ms'. rewrite !zip_app by lia. now rewrite <- !app_assoc.
Qed.
(** Too short: some access is outside its slice. *)
Lemma scalar_step_short dq r pc pa c a i mm x : length pc = i -> length pa = i -> length c < 16 \/ length a < 16 -> mm SC = pc ++ c -> mm SA = pa ++ a -> mm SS = repeat x 8 ->
  zrun dq i {| regs := r; mem := mm |} scalar_prog = Panic.
Proof.
  intros Lpc Lpa H Mc Ma Ms. unfold scalar_prog.
  cbn [run exec]. cbn [mem]. rewrite Ms. change (load (repeat x 8) (0 + 0)) with (@Ok (list Z) (repeat x 8)). cbn [bind setr mem regs]. rewrite Ma, Nat.add_0_r.
  destruct (le_lt_dec 8 (length a)) as [Ha|Ha]; [|rewrite load_short by (rewrite app_length; lia); reflexivity].
  destruct (split8 a Ha) as (a1 & a' & -> & L3). rewrite load_at by assumption. cbn [bind setr mem regs]. rewrite Ma.
  rewrite app_length in H, Ha. destruct (le_lt_dec 8 (length a')) as [Ha'|Ha']; [|rewrite load_short by (rewrite !app_length; lia); reflexivity].
  destruct (split8 a' Ha') as (a2 & sa & -> & L4). rewrite load_at' by assumption. cbn [bind setr mem regs]. rewrite Mc. rewrite app_length in H.
  assert (Hc : length c < 16) by lia. destruct (le_lt_dec 8 (length c)) as [Hc'|Hc']; [|rewrite load_short by (rewrite app_length; lia); reflexivity].
  destruct (split8 c Hc') as (c1 & c' & -> & L1). rewrite load_at by assumption. cbn [bind setr mem regs]. rewrite Mc. rewrite app_length in Hc.
  rewrite load_short by (rewrite !app_length; lia). reflexivity.
Qed.
Lemma load_cases {V} (l : list V) j : load l j = Panic \/ exists v, load l j = Ok v.
Proof. unfold load. destruct (_ <=? _); eauto. Qed.
Lemma scalar_step_nodq r i mm : zrun false i {| regs := r; mem := mm |} scalar_prog = Panic.
Proof.
  unfold scalar_prog. cbn [run exec]. do 5 (match goal with |- context [load ?l ?j] => destruct (load_cases l j) as [-> | (? & ->)] end; [reflexivity|cbn [bind setr mem regs]]). reflexivity.
Qed.
Lemma scalar_loop_bad dq x : forall fuel r mm pc pa c a i, length c <= 16 * fuel -> length pc = i -> length pa = i -> c <> [] -> (dq = false \/ length c mod 16 <> 0 \/ length a < length c) ->
  mm SC = pc ++ c -> mm SA = pa ++ a -> mm SS = repeat x 8 ->
  zker dq fuel scalar_prog (i + length c) i {| regs := r; mem := mm |} = Panic.
Proof.
  induction fuel as [|fuel IH]; intros r mm pc pa c a i Hf Lpc Lpa Hne Hb Mc Ma Ms.
  { destruct c; [congruence|cbn in Hf; lia]. }
  cbn [kernel_loop]. assert (0 < length c) by (destruct c; [congruence|cbn; lia]). destruct (Nat.ltb_spec i (i + length c)); [|lia].
  destruct dq; [|rewrite scalar_step_nodq; reflexivity]. destruct Hb as [Hb|Hb]; [discriminate|].
  destruct (le_lt_dec 16 (length c)) as [Hc|Hc]; [|rewrite (scalar_step_short true r pc pa c a i mm x) by (assumption || lia); reflexivity].
  destruct (le_lt_dec 16 (length a)) as [Ha|Ha]; [|rewrite (scalar_step_short true r pc pa c a i mm x) by (assumption || lia); reflexivity].
  destruct (split8 c) as (c1 & c' & -> & L1); [lia|]. rewrite app_length in *. destruct (split8 c') as (c2 & sc & -> & L2); [lia|]. rewrite app_length in *.
  destruct (split8 a) as (a1 & a' & -> & L3); [lia|]. rewrite app_length in *. destruct (split8 a') as (a2 & sa & -> & L4); [lia|]. rewrite app_length in *.
  destruct (scalar_step r pc pa c1 c2 a1 a2 sc sa x i mm Lpc Lpa L1 L2 L3 L4 Mc Ma Ms) as (r' & E). rewrite E. cbn [bind].
  assert (Lz1 : length (zloop x c1 a1) = 8) by (clear -L1 L3; break8 c1; break8 a1; reflexivity).
  assert (Lz2 : length (zloop x c2 a2) = 8) by (clear -L2 L4; break8 c2; break8 a2; reflexivity).
  match goal with |- kernel_loop _ _ _ _ _ _ _ _ _ {| regs := _; mem := ?m |} = _ => set (mm' := m) end.
  replace (i + (length c1 + (length c2 + length sc))) with (i + 16 + length sc) by lia.
  apply (IH r' mm' (pc ++ zloop x c1 a1 ++ zloop x c2 a2) (pa ++ a1 ++ a2) sc sa (i + 16)).
  - lia.
  - rewrite !app_length. lia.
  - rewrite !app_length. lia.
  - intros ->. cbn [length] in *. rewrite L1, L2 in Hb. change ((8 + (8 + 0)) mod 16) with 0 in Hb. lia.
  - right. destruct Hb as [Hb|Hb]; [left|right; lia]. intros Hz. apply Hb. rewrite L1, L2. replace (8 + (8 + length sc)) with (length sc + 1 * 16) by lia. now rewrite Nat.mod_add by lia.
  - unfold mm'. cbn [slice_eqb]. now rewrite <- !app_assoc.
  - unfold mm'. cbn [slice_eqb]. rewrite Ma. now rewrite <- !app_assoc.
  - unfold mm'. cbn [slice_eqb]. exact Ms.
Qed.

(** ** Complex numbers *)
Lemma floats_len l : length (floats l) = 2 * length l.
Proof. induction l as [|z l IH]; [reflexivity|]. unfold floats in *. cbn [flat_map length app]. lia. Qed.
Lemma floats_app l l' : floats (l ++ l') = floats l ++ floats l'.
Proof. apply flat_map_app. Qed.
Lemma complexes_floats l : complexes (floats l) = l.
Proof. induction l as [|[x y] l IH]; [reflexivity|]. unfold floats in *. cbn [flat_map app complexes fst snd]. now rewrite IH. Qed.

Section Cx.
  Context (fl : R -> R) (dq : bool).
  Notation crun := (run (r_fma fl) (r_fnma fl) (fun d _ _ => d) (fun d _ _ => d) dq).
  Notation cker := (kernel_loop (r_fma fl) (r_fnma fl) (fun d _ _ => d) (fun d _ _ => d) dq).
  Notation cl := (mad_loop (mad_elem_fma fl)).
  Lemma split4 (l : list C) : 8 <= length l -> exists l1 l2 s, l = l1 ++ l2 ++ s /\ length l1 = 4 /\ length l2 = 4.
  Proof.
    intros H. exists (firstn 4 l), (firstn 4 (skipn 4 l)), (skipn 4 (skipn 4 l)). rewrite !firstn_skipn. split; [reflexivity|]. rewrite !firstn_length, skipn_length. lia.
  Qed.
  Lemma run_app i s p q : crun i s (p ++ q) = (s' <- crun i s p ;; crun i s' q).
  Proof. revert s. induction p as [|x p IH]; intros s; [reflexivity|]. cbn [app run]. destruct (exec _ _ _ _ _ i s x); cbn [bind]; auto. Qed.
  Definition fetch (p : slice) (d1 d2 : nat) : list instr := [Load 0 p true 0; Load 1 p true 8; Shufpd d1 0 1 0; Shufpd d2 0 1 255].
  Definition mad_compute : list instr :=
    [Fmadd231 6 2 4; Fmadd231 7 2 5; Fnmadd231 6 3 5; Fmadd231 7 3 4; Shufpd 0 6 7 0; Shufpd 1 6 7 255; Store SC 0 0; Store SC 8 1].
  Lemma mad_prog_parts : mad_prog = fetch SA 2 3 ++ fetch SB 4 5 ++ fetch SC 6 7 ++ mad_compute.
  Proof. reflexivity. Qed.
  Lemma fetch_ok i s p d1 d2 pre u v post : length pre = i -> length u = 8 -> length v = 8 -> mem s p = pre ++ u ++ v ++ post -> 2 <= d1 -> d1 < d2 ->
    exists s', crun i s (fetch p d1 d2) = Ok s' /\ mem s' = mem s /\ regs s' d1 = shufpd 0 0 u v /\ regs s' d2 = shufpd 255 0 u v /\
      forall d, d <> 0 -> d <> 1 -> d <> d1 -> d <> d2 -> regs s' d = regs s d.
  Proof.
    intros Hp Hu Hv Hm H1 H2. unfold fetch. cbn [run exec]. rewrite Hm, Nat.add_0_r, load_at by assumption. cbn [bind setr mem regs]. rewrite Hm, load_at' by assumption.
    cbn [bind]. eexists. split; [reflexivity|]. cbn [setr mem regs].
    destruct (Nat.eqb_spec d1 d2); [lia|]. rewrite !Nat.eqb_refl. change (0 =? 0) with true. change (0 =? 1) with false. change (1 =? 1) with true. cbn [setr mem regs].
    destruct (Nat.eqb_spec 0 d1); [lia|]. destruct (Nat.eqb_spec 1 d1); [lia|]. change (0 =? 1) with false. cbn iota.
    repeat split; try reflexivity. intros d D0 D1 D2 D3. destruct (Nat.eqb_spec d d2); [lia|]. destruct (Nat.eqb_spec d d1); [lia|]. destruct (Nat.eqb_spec d 1); [lia|]. destruct (Nat.eqb_spec d 0); [lia|]. reflexivity.
  Qed.
  Lemma mad_step r pc pa pb c1 c2 a1 a2 b1 b2 sc sa sb i mm :
    length pc = i -> length pa = i -> length pb = i -> length c1 = 4 -> length c2 = 4 -> length a1 = 4 -> length a2 = 4 -> length b1 = 4 -> length b2 = 4 ->
    mm SC = pc ++ floats c1 ++ floats c2 ++ sc -> mm SA = pa ++ floats a1 ++ floats a2 ++ sa -> mm SB = pb ++ floats b1 ++ floats b2 ++ sb ->
    exists r', crun i {| regs := r; mem := mm |} mad_prog =
      Ok {| regs := r'; mem := fun q => if slice_eqb q SC then pc ++ floats (cl c1 a1 b1) ++ floats (cl c2 a2 b2) ++ sc else if slice_eqb q SC then pc ++ floats (cl c1 a1 b1) ++ floats c2 ++ sc else mm q |}.
  Proof.
    intros Lpc Lpa Lpb L1 L2 L3 L4 L5 L6 Mc Ma Mb.
    assert (Q : forall l : list C, length l = 4 -> length (floats l) = 8) by (intros l Hl; rewrite floats_len; lia).
    rewrite mad_prog_parts, !run_app.
    destruct (fetch_ok i {| regs := r; mem := mm |} SA 2 3 pa (floats a1) (floats a2) sa) as (s1 & E1 & M1 & A1 & A2 & K1); auto; try discriminate. rewrite E1. cbn [bind mem] in *.
    destruct (fetch_ok i s1 SB 4 5 pb (floats b1) (floats b2) sb) as (s2 & E2 & M2 & B1 & B2 & K2); auto; try discriminate. { now rewrite M1. } rewrite run_app, E2. cbn [bind].
    destruct (fetch_ok i s2 SC 6 7 pc (floats c1) (floats c2) sc) as (s3 & E3 & M3 & C1 & C2 & K3); auto; try discriminate. { now rewrite M2, M1. } rewrite run_app, E3. cbn [bind].
    rewrite <- K2 in A1, A2 by lia. rewrite <- K3 in A1, A2, B1, B2 by lia. clear E1 E2 E3 K1 K2 K3.
    unfold mad_compute. cbn [run exec bind]. cbn [setr setm mem regs Nat.eqb slice_eqb]. rewrite A1, A2, B1, B2, C1, C2, M3, M2, M1, Mc, Nat.add_0_r.
    rewrite store_at by auto. cbn [bind setr setm mem regs Nat.eqb slice_eqb].
    clear Mc Ma Mb A1 A2 B1 B2 C1 C2 Q.
    assert (K : forall l : list C, length l = 4 -> exists x1 y1 x2 y2 x3 y3 x4 y4, l = [(x1, y1); (x2, y2); (x3, y3); (x4, y4)]).
    { clear. intros l H. do 4 (destruct l as [|[? ?] l]; [discriminate H|]). destruct l; [|discriminate H]. repeat eexists. }
    destruct (K c1 L1) as (? & ? & ? & ? & ? & ? & ? & ? & ->). destruct (K a1 L3) as (? & ? & ? & ? & ? & ? & ? & ? & ->). destruct (K b1 L5) as (? & ? & ? & ? & ? & ? & ? & ? & ->).
    destruct (K c2 L2) as (? & ? & ? & ? & ? & ? & ? & ? & ->). destruct (K a2 L4) as (? & ? & ? & ? & ? & ? & ? & ? & ->). destruct (K b2 L6) as (? & ? & ? & ? & ? & ? & ? & ? & ->).
    rewrite store_at' by (assumption || reflexivity). cbn [bind setr setm mem regs Nat.eqb slice_eqb]. eexists. unfold setm, setr. cbn [mem regs]. rewrite M3, M2, M1. reflexivity.
  Qed.
  Lemma mad_loop_app c1 a1 b1 c2 a2 b2 (f : C -> C -> C -> C) : length a1 = length c1 -> length b1 = length c1 -> mad_loop f (c1 ++ c2) (a1 ++ a2) (b1 ++ b2) = mad_loop f c1 a1 b1 ++ mad_loop f c2 a2 b2.
  Proof.
    revert a1 b1. induction c1 as [|x c1 IH]; intros [|y a1] [|z b1] Ha Hb; cbn [length] in *; try lia; cbn [app mad_loop]; [reflexivity|]. now rewrite IH by lia.
  Qed.
  Lemma mad_loop_length (f : C -> C -> C -> C) c a b : length (mad_loop f c a b) = length c.
  Proof. revert a b. induction c as [|x c IH]; intros [|y a] [|z b]; cbn [mad_loop length]; auto. Qed.
  Lemma mad_kernel_ok q : forall fuel r mm pc pa pb c a b i, q <= fuel -> length c = 8 * q -> length a = 8 * q -> length b = 8 * q -> length pc = i -> length pa = i -> length pb = i ->
    mm SC = pc ++ floats c -> mm SA = pa ++ floats a -> mm SB = pb ++ floats b ->
    exists s, cker fuel mad_prog (i + 16 * q) i {| regs := r; mem := mm |} = Ok s /\ mem s SC = pc ++ floats (cl c a b).
  Proof.
    induction q as [|q IH]; intros fuel r mm pc pa pb c a b i Hf Lc La Lb Lpc Lpa Lpb Mc Ma Mb.
    - destruct c; [|cbn in Lc; lia]. exists {| regs := r; mem := mm |}. split; [|exact Mc]. destruct fuel; cbn [kernel_loop]; (destruct (Nat.ltb_spec i (i + 16 * 0)); [lia|reflexivity]).
    - destruct fuel as [|fuel]; [lia|]. cbn [kernel_loop]. destruct (Nat.ltb_spec i (i + 16 * S q)); [|lia].
      destruct (split4 c) as (c1 & c2 & sc & -> & L1 & L2); [lia|]. destruct (split4 a) as (a1 & a2 & sa & -> & L3 & L4); [lia|]. destruct (split4 b) as (b1 & b2 & sb & -> & L5 & L6); [lia|].
      rewrite !app_length in *. rewrite !floats_app in *.
      destruct (mad_step r pc pa pb c1 c2 a1 a2 b1 b2 _ _ _ i mm Lpc Lpa Lpb L1 L2 L3 L4 L5 L6 Mc Ma Mb) as (r' & E). rewrite E. cbn [bind].
      match goal with |- exists s, kernel_loop _ _ _ _ _ _ _ _ _ {| regs := _; mem := ?m |} = _ /\ _ => set (mm' := m) end.
      destruct (IH fuel r' mm' (pc ++ floats (cl c1 a1 b1) ++ floats (cl c2 a2 b2)) (pa ++ floats a1 ++ floats a2) (pb ++ floats b1 ++ floats b2) sc sa sb (i + 16)) as (s & Es & Ms'); try lia.
      1-3: rewrite !app_length, !floats_len, ?mad_loop_length; lia.
      1-3: unfold mm'; cbn [slice_eqb]; rewrite ?Ma, ?Mb; now rewrite <- !app_assoc.
      exists s. replace (i + 16 * S q) with (i + 16 + 16 * q) by lia. split; [exact Es|]. rewrite Ms'. rewrite !mad_loop_app by lia. rewrite !floats_app. now rewrite <- !app_assoc.
  Qed.
End Cx.
