(** Model of private and public functional key switching in sunscreen_tfhe and of the circuit bootstrap built on
    them. The floating-point convention is that of TfheBoot.v. *)
From Verif Require Export TfheCbs.
From Verif Require Import Alu MuxGraph.
Open Scope Z_scope.

(** sunscreen_tfhe/src/ops/ciphertext/glev_ciphertext_ops.rs:56-58: [for (b, a) in glwes.zip(digits)]. *)
Fixpoint scalar_mads (h : hw) (pr : profile) (w : Z) (c : glwe) (bs : list glwe) (ds : list Z) : res glwe :=
  match bs, ds with
  | b :: bs, d :: ds => c' <- glwe_scalar_mad h pr w c b d ;; scalar_mads h pr w c' bs ds
  | _, _ => Ok c
  end.
(** sunscreen_tfhe/src/ops/ciphertext/glev_ciphertext_ops.rs:48-59 [decomposed_scalar_glev_mad], with the iterator
    made from the scalar [x] (math/radix.rs:25-32). The digits are computed before the products instead of
    interleaved with them, which changes nothing: a panic in either discards the result. *)
Definition scalar_glev_mad (h : hw) (pr : profile) (w log : Z) (count : nat) (c : glwe) (x : Z) (glev : list glwe) : res glwe :=
  ds <- scalar_digits pr w log count x ;; scalar_mads h pr w c (rev glev) ds.

(** ** Private functional key switching: sunscreen_tfhe/src/ops/keyswitch/private_functional_keyswitch.rs *)

(** A user's map, as the code calls it: it receives the current contents of the polynomial and the arguments and
    leaves new contents. *)
Definition user_map := list Z -> list Z -> list Z.
(** [pt_touri]: all zero but for position [z]. *)
Definition one_hot (p z : nat) (x : Z) : list Z := upd (repeat 0 p) z (fun _ => x).
(** Lines 84-99: the loop over the entries of one GLEV ciphertext, from level [j] on. [pt_poly] is cleared before
    each call of the map. *)
Fixpoint pfks_glev_loop (pr : profile) (w log : Z) (N p z : nat) (f : user_map) (sk : list (list Z)) (s : Z) (j : nat)
    (glev : list glwe) (rnd : list (list (list Z) * option (list Z))) : res (list glwe) :=
  match glev, rnd with
  | c :: glev, (masks, e) :: rnd =>
      x <- scale_by_decomposition_factor pr w log s j ;;
      c' <- glwe_encrypt w N c (f (zpoly N) (one_hot p z x)) sk masks e ;;
      cs <- pfks_glev_loop pr w log N p z f sk s (S j) glev rnd ;;
      Ok (c' :: cs)
  | glev, _ => Ok glev
  end.
(** Lines 74-100: the loop over the coefficients of the LWE key and a final -1 ([ss]). *)
Fixpoint pfks_row_loop (pr : profile) (w log : Z) (N p z : nat) (f : user_map) (sk : list (list Z)) (ss : list Z)
    (glevs : list (list glwe)) (rnd : list (list (list (list Z) * option (list Z)))) : res (list (list glwe)) :=
  match ss, glevs, rnd with
  | s :: ss, g :: glevs, r :: rnd =>
      g' <- pfks_glev_loop pr w log N p z f sk s 0 g r ;;
      gs <- pfks_row_loop pr w log N p z f sk ss glevs rnd ;;
      Ok (g' :: gs)
  | _, glevs, _ => Ok glevs
  end.
(** Lines 66-73: the loop over the inputs, zipped with chunks of [n + 1] GLEV ciphertexts. The parallel
    iterations write disjoint chunks and draw independent randomness; the model runs them in order. *)
Fixpoint pfks_key_loop (pr : profile) (w log : Z) (n N p : nat) (f : user_map) (sk : list (list Z)) (s : list Z)
    (z todo : nat) (key : list (list glwe)) (rnd : list (list (list (list Z) * option (list Z)))) : res (list (list glwe)) :=
  match todo with
  | O => Ok key
  | S todo =>
      c <- pfks_row_loop pr w log N p z f sk (s ++ [2 ^ w - 1]) (firstn (n + 1) key) (firstn (n + 1) rnd) ;;
      rest <- pfks_key_loop pr w log n N p f sk s (S z) todo (skipn (n + 1) key) (skipn (n + 1) rnd) ;;
      Ok (c ++ rest)
  end.
(** [assert_is_valid] for a private functional key-switch key: entities/private_functional_keyswitch_key.rs:44-46,
    [p * (n + 1)] GLEV ciphertexts. *)
Definition pfksk_valid (n N k p count : nat) (key : list (list glwe)) : bool :=
  (length key =? p * (n + 1))%nat && forallb (glev_valid N k count) key.
(** Lines 44-102 [generate_private_functional_keyswitch_key]. *)
Definition generate_pfksk (pr : profile) (w log : Z) (count n N k p : nat) (f : user_map) (key : list (list glwe))
    (s : list Z) (sk : list (list Z)) (rnd : list (list (list (list Z) * option (list Z)))) : res (list (list glwe)) :=
  if pfksk_valid n N k p count key && radix_valid w log count && (length s =? n)%nat && polys_valid N k sk
     && glwe_dim_valid N k && lwe_dim_valid n && negb (p =? 0)%nat
  then pfks_key_loop pr w log n N p f sk s 0 p key rnd else Panic.

(** Lines 127-138: one input; [ab] is its mask followed by its body. [ksk_glevs.next().unwrap()] panics when the
    key runs out. Returns the remaining key. *)
Fixpoint pfks_input_loop (h : hw) (pr : profile) (w log : Z) (count : nat) (out : glwe) (ab : list Z) (key : list (list glwe))
  : res (glwe * list (list glwe)) :=
  match ab with
  | [] => Ok (out, key)
  | x :: ab =>
      match key with
      | [] => Panic
      | glev :: key => out' <- scalar_glev_mad h pr w log count out x glev ;; pfks_input_loop h pr w log count out' ab key
      end
  end.
(** Lines 126-138. [ab[i]] for [i <= n] panics when the input is too short and ignores what is beyond [n + 1]
    elements: the inputs are not checked otherwise. *)
Fixpoint pfks_inputs_loop (h : hw) (pr : profile) (w log : Z) (count n : nat) (out : glwe) (inputs : list lwe)
    (key : list (list glwe)) : res glwe :=
  match inputs with
  | [] => Ok out
  | c :: inputs =>
      let ab := lwe_a c ++ [lwe_b c] in
      if (length ab <? n + 1)%nat then Panic
      else ' (out', key') <- pfks_input_loop h pr w log count out (firstn (n + 1) ab) key ;;
           pfks_inputs_loop h pr w log count n out' inputs key'
  end.
(** Lines 107-142 [private_functional_keyswitch]. [out] is added to, then negated. *)
Definition pfks (h : hw) (pr : profile) (w log : Z) (count n N k p : nat) (out : glwe) (inputs : list lwe) (key : list (list glwe))
  : res glwe :=
  if glwe_valid N k out && pfksk_valid n N k p count key && lwe_dim_valid n && glwe_dim_valid N k
     && radix_valid w log count && negb (p =? 0)%nat && (p =? length inputs)%nat then
    r <- pfks_inputs_loop h pr w log count n out inputs key ;; Ok (glwe_negate w r)
  else Panic.

(** ** The keys and the last step of the circuit bootstrap *)

(** Lines 167-171: the map of key [i < k], where [s] is polynomial [i] of the target key. *)
Definition cb_map_a (w : Z) (s : list Z) : user_map :=
  fun poly x => zip_assign (fun _ a => tmul w (tneg w (nth 0 x 0)) a) poly s.
(** Lines 193-196: the map of the last key. *)
Definition cb_map_b : user_map := fun poly x => upd (map (fun _ => 0) poly) 0 (fun _ => nth 0 x 0).
(** Lines 162-184: the first keys. *)
Fixpoint cb_keys_loop (pr : profile) (w log : Z) (count n N k : nat) (keys : list (list (list glwe))) (ss : list (list Z))
    (s : list Z) (sk : list (list Z)) (rnd : nat -> list (list (list (list Z) * option (list Z)))) : res (list (list (list glwe))) :=
  match keys, ss with
  | key :: keys, s_i :: ss =>
      key' <- generate_pfksk pr w log count n N k 1 (cb_map_a w s_i) key s sk (rnd O) ;;
      keys' <- cb_keys_loop pr w log count n N k keys ss s sk (fun i => rnd (S i)) ;;
      Ok (key' :: keys')
  | keys, _ => Ok keys
  end.
(** [assert_is_valid] for the keys of a circuit bootstrap (entities/circuit_bootstrapping_private_keyswitch_keys.rs): [k + 1]
    private functional key-switch keys for one input. *)
Definition cbsksk_valid (n N k count : nat) (keys : list (list (list glwe))) : bool :=
  (length keys =? k + 1)%nat && forallb (pfksk_valid n N k 1 count) keys.
(** Lines 145-207 [generate_circuit_bootstrapping_pfks_keys]. *)
Definition generate_cbsksk (pr : profile) (w log : Z) (count n N k : nat) (keys : list (list (list glwe))) (s : list Z)
    (sk : list (list Z)) (rnd : nat -> list (list (list (list Z) * option (list Z)))) : res (list (list (list glwe))) :=
  if cbsksk_valid n N k count keys && (length s =? n)%nat && glwe_dim_valid N k && polys_valid N k sk
     && radix_valid w log count && lwe_dim_valid n then
    keys' <- cb_keys_loop pr w log count n N k (firstn k keys) sk s sk rnd ;;
    match nth_error keys k with
    | None => Panic
    | Some b => b' <- generate_pfksk pr w log count n N k 1 cb_map_b b s sk (rnd k) ;; Ok (keys' ++ [b'])
    end
  else Panic.

(** sunscreen_tfhe/src/ops/bootstrapping/circuit_bootstrapping.rs:224-252 [extract_and_rotate_lo_noise_glwe], from
    level [i] on. [ex] is the scratch ciphertext [extracted], [outs] the list being filled. *)
Fixpoint extract_rotate (w log : Z) (N k : nat) (ex : lwe) (outs : list lwe) (c : glwe) (i : nat) : res (list lwe) :=
  match outs with
  | [] => Ok []
  | o :: outs =>
      x <- sample_extract w N k ex c i ;;
      e <- t_encode w 1 (cbs_bits log i) ;;
      o' <- lwe_rotate w (k * N) o x e ;;
      os <- extract_rotate w log N k ex outs c (S i) ;;
      Ok (o' :: os)
  end.
(** circuit_bootstrapping.rs:485-514 [apply_pfks_on_ggsw_components]: the inner loop. *)
Fixpoint pfks_glev (h : hw) (pr : profile) (w log : Z) (count n N k : nat) (lwes : list lwe) (glev : list glwe)
    (key : list (list glwe)) : res (list glwe) :=
  match lwes, glev with
  | d :: lwes, g :: glev =>
      g' <- pfks h pr w log count n N k 1 g [d] key ;;
      gs <- pfks_glev h pr w log count n N k lwes glev key ;;
      Ok (g' :: gs)
  | _, glev => Ok glev
  end.
Fixpoint apply_pfks (h : hw) (pr : profile) (w log : Z) (count n N k : nat) (lwes : list lwe) (rows : list (list glwe))
    (keys : list (list (list glwe))) : res (list (list glwe)) :=
  match rows, keys with
  | r :: rows, key :: keys =>
      r' <- pfks_glev h pr w log count n N k lwes r key ;;
      rs <- apply_pfks h pr w log count n N k lwes rows keys ;;
      Ok (r' :: rs)
  | rows, _ => Ok rows
  end.
(** circuit_bootstrapping.rs:162-219 [circuit_bootstrap_via_pfks]. [lp], [cp], [n], [N2], [k2]: the bootstrap; [lf],
    [cf]: the radix of the key switch; [log], [count], [N1], [k1]: the result. [scr], [scg], [scl], [ex] are the
    contents of the scratch buffers. *)
Definition circuit_bootstrap_pfks (h : hw) (pr : profile) (w lp lf log : Z) (cp cf count n N2 k2 N1 k1 : nat)
    (out : list (list glwe)) (input : lwe) (bsk : list (list (list glwe))) (keys : list (list (list glwe)))
    (scr : lwe) (scg : glwe) (ex : lwe) (scl : list lwe) (d1 : nat -> glwe) : res (list (list glwe)) :=
  if glwe_dim_valid N1 k1 && glwe_dim_valid N2 k2 && lwe_dim_valid n && radix_valid w lp cp && radix_valid w log count
     && radix_valid w lf cf && cbsksk_valid (k2 * N2) N1 k1 cf keys && bsk_valid n N2 k2 cp bsk
     && ggsw_valid N1 k1 count out && lwe_valid n input then
    lo <- cbs_hi_noise h pr w lp log cp count n N2 k2 scr scg input bsk d1 ;;
    lwes <- extract_rotate w log N2 k2 ex scl lo 0 ;;
    apply_pfks h pr w lf cf (k2 * N2) N1 k1 lwes out keys
  else Panic.

(** ** Public functional key switching: sunscreen_tfhe/src/ops/keyswitch/public_functional_keyswitch.rs *)

(** Lines 43-51: the loop over the entries of one GLEV ciphertext; [pt] is the scratch polynomial. *)
Fixpoint pufks_glev_loop (pr : profile) (w log : Z) (N : nat) (sk : list (list Z)) (s : Z) (pt : list Z) (j : nat)
    (glev : list glwe) (rnd : list (list (list Z) * option (list Z))) : res (list glwe * list Z) :=
  match glev, rnd with
  | c :: glev, (masks, e) :: rnd =>
      x <- scale_by_decomposition_factor pr w log s j ;;
      let pt' := upd pt 0 (fun _ => x) in
      c' <- glwe_encrypt w N c pt' sk masks e ;;
      ' (cs, pt'') <- pufks_glev_loop pr w log N sk s pt' (S j) glev rnd ;;
      Ok (c' :: cs, pt'')
  | glev, _ => Ok (glev, pt)
  end.
Fixpoint pufks_key_loop (pr : profile) (w log : Z) (N : nat) (sk : list (list Z)) (ss : list Z) (pt : list Z)
    (glevs : list (list glwe)) (rnd : list (list (list (list Z) * option (list Z)))) : res (list (list glwe)) :=
  match ss, glevs, rnd with
  | s :: ss, g :: glevs, r :: rnd =>
      ' (g', pt') <- pufks_glev_loop pr w log N sk s pt 0 g r ;;
      gs <- pufks_key_loop pr w log N sk ss pt' glevs rnd ;;
      Ok (g' :: gs)
  | _, glevs, _ => Ok glevs
  end.
(** [assert_is_valid] for a public functional key-switch key: [n] GLEV ciphertexts. *)
Definition pufksk_valid (n N k count : nat) (key : list (list glwe)) : bool :=
  (length key =? n)%nat && forallb (glev_valid N k count) key.
(** Lines 29-53 [generate_public_functional_keyswitch_key]. *)
Definition generate_pufksk (pr : profile) (w log : Z) (count n N k : nat) (key : list (list glwe)) (s : list Z)
    (sk : list (list Z)) (rnd : list (list (list (list Z) * option (list Z)))) : res (list (list glwe)) :=
  if (length s =? n)%nat && polys_valid N k sk && pufksk_valid n N k count key
  then pufks_key_loop pr w log N sk s (zpoly N) key rnd else Panic.

(** Lines 119-131: the loop over the rows of the key, from column [i] on; [poly] is the scratch polynomial handed to
    the map, [acc] the accumulator. *)
Fixpoint pufks_loop (pr : profile) (w log : Z) (count N k : nat) (f : user_map) (inputs : list lwe) (poly : list Z)
    (acc : glwe) (i : nat) (key : list (list glwe)) : res (glwe * list Z) :=
  match key with
  | [] => Ok (acc, poly)
  | row :: key =>
      let poly' := f poly (map (fun c => nth i (lwe_a c) 0) inputs) in
      acc' <- glev_mad pr w log count N k acc poly' row ;;
      pufks_loop pr w log count N k f inputs poly' acc' (S i) key
  end.
(** Lines 75-146 [public_functional_keyswitch]. [out] is cleared; [scp] is the contents of the scratch polynomial
    (scratch.rs does not clear buffers); [d] is the floating-point error of the accumulated product. *)
Definition pufks (pr : profile) (w log : Z) (count n N k : nat) (f : user_map) (out : glwe) (inputs : list lwe)
    (key : list (list glwe)) (scp : list Z) (d : glwe) : res glwe :=
  if pufksk_valid n N k count key && glwe_valid N k out && forallb (lwe_valid n) inputs && (length inputs <=? N)%nat then
    ' (acc, poly) <- pufks_loop pr w log count N k f inputs scp (glwe_new N k) 0 key ;;
    let poly' := f poly (map lwe_b inputs) in
    let o := glwe_negate w (glwe_perturb w acc d) in
    Ok {| ga := ga o; gb := poly_add_assign w (gb o) poly' |}
  else Panic.
