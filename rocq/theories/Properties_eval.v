(** Properties of evaluation: C01, C03, C07, C08, C09, C10, C13, C14, C39. *)
From Coq Require Import List Arith ZArith Bool SpecFloat Lia.
Import ListNotations.
From Verif Require Import Base Shapes Scalar Buffers Spec Node Eval Types Instances Machine Vocab Math
  Eval_facts Exact_facts Eval_claims.

(** C01 Lifted and plain evaluation agree: same final context, same value, error or panic.
    Without any algebraic law, for every tree that is not a [Sum] under unary operators only. *)
Theorem C01_lifted_agrees : forall F (S : Scalar F) (n : node F) (c : ctx F),
  sum_spine n = false ->
  evaluate n c = (fst (evaluate_spec n c), res_map unwrap (snd (evaluate_spec n c))).
Proof. exact @lifted_agrees. Qed.
Print Assumptions C01_lifted_agrees.

(** For all trees when the scalars are a ring whose [from_usize] counts. *)
Theorem C01_lifted_agrees_ring : forall F (S : Scalar F) (n : node F) (c : ctx F),
  ring_theory fzero fone fadd fmul fsub fneg (@eq F) ->
  (forall k, fof_usize k = Some (Nat.iter k (fun a : F => fadd a fone) fzero)) ->
  evaluate n c = (fst (evaluate_spec n c), res_map unwrap (snd (evaluate_spec n c))).
Proof. exact @lifted_agrees_ring. Qed.
Print Assumptions C01_lifted_agrees_ring.

Example C01_example :
  let S := Z_scalar in
  let n := Add (Sum (ConstSpec (Full (TA [3]) 2%Z))) (Mul (Var 0) (ConstSpec (Full TS 0%Z))) in
  let c := fun i => match i with 0 => Some (VScal 5%Z) | _ => None end in
  sum_spine n = false /\
  evaluate_spec n c = (c, Ok (Full TS 6%Z)) /\ snd (evaluate n c) = Ok (VScal 6%Z).
Proof. split; [|split]; reflexivity. Qed.

(** The law is needed: with 64-bit floats the two modes differ on a sum of ten times 0.1. *)
Theorem C01_float_sum_refuted : exists n : node f64, forall pow lib c,
  let S := f64_scalar pow lib in
  exists v w, snd (evaluate n c) = Ok v /\ res_map unwrap (snd (evaluate_spec n c)) = Ok w /\
              v <> w.
Proof. exact float_sum_differs. Qed.
Print Assumptions C01_float_sum_refuted.

(** And with u8 scalars the lifted sum of 300 entries panics where the plain sum succeeds. *)
Theorem C01_u8_sum_refuted : exists n : node Z, forall c,
  let S := wrapping_int false 8 in
  snd (evaluate n c) = Ok (VScal 0%Z) /\ snd (evaluate_spec n c) = Panic.
Proof. exact u8_sum_differs. Qed.
Print Assumptions C01_u8_sum_refuted.

(** C03 Shape query agrees with evaluation (final context included). *)
Theorem C03_shape_agrees : forall F (S : Scalar F) (n : node F) (c c' : ctx F) v,
  node_wf n -> ctx_wf c -> shape_pure n = true ->
  evaluate n c = (c', Ok v) -> evaluate_shape n c = (c', Ok (vshape v)).
Proof. exact @shape_claim. Qed.
Print Assumptions C03_shape_agrees.

Theorem C03_shape_of_spec : forall F (S : Scalar F) (n : node F) (c c' : ctx F) s,
  node_wf n -> ctx_wf c -> shape_pure n = true ->
  evaluate_spec n c = (c', Ok s) -> evaluate_shape n c = (c', Ok (spec_shape s)).
Proof. exact @shape_spec_claim. Qed.
Print Assumptions C03_shape_of_spec.

Theorem C03_shape_error : forall F (S : Scalar F) (n : node F) (c c' : ctx F),
  node_wf n -> ctx_wf c -> shape_pure n = true ->
  (forall s, snd (evaluate_shape n c) <> Ok s) -> forall v, evaluate n c <> (c', Ok v).
Proof. exact @shape_error. Qed.
Print Assumptions C03_shape_error.

Example C03_example :
  let S := Z_scalar in
  let n := Contract 0 (Cached (Var 0) 1) (Add (Var 1) (Const (VScal 1%Z))) in
  let v := VArr [2] (AN [AF 3%Z; AF 4%Z]) in
  let c := fun i => match i with 0 => Some v | _ => None end in
  node_wf n /\ ctx_wf c /\ shape_pure n = true /\
  snd (evaluate_shape n c) = Ok (St [2; 2]) /\
  snd (evaluate n c) = Ok (VArr [2; 2] (AN [AN [AF 12; AF 15]; AN [AF 16; AF 20]]%Z)).
Proof.
  split; [simpl; auto|]; split.
  - intros [|i] v E; inversion E; subst; simpl; repeat constructor.
  - split; [reflexivity|]; split; reflexivity.
Qed.

(** The exclusion is needed: below [Sum] the shape query skips the cache write. *)
Theorem C03_cached_sum_refuted : exists (n : node Z) c v,
  let S := Z_scalar in
  node_wf n /\ ctx_wf c /\ snd (evaluate n c) = Ok v /\
  snd (evaluate_shape n c) = Err (ERight (Undefined 1)).
Proof. exact cached_sum_shape. Qed.
Print Assumptions C03_cached_sum_refuted.

(** C07 [contains] is true exactly of the identifiers written in the tree. *)
Theorem C07_contains_occurs : forall F (n : node F) i, contains n i = true <-> occurs i n.
Proof. exact @contains_occurs. Qed.
Print Assumptions C07_contains_occurs.

(** C07 If [contains n i] is false, no method observes or modifies the entry of [i]. *)
Theorem C07_independent : forall F (S : Scalar F) (n : node F) i (c c' : ctx F),
  contains n i = false -> (forall j, j <> i -> c j = c' j) ->
  (snd (evaluate n c) = snd (evaluate n c') /\
   snd (evaluate_spec n c) = snd (evaluate_spec n c') /\
   snd (evaluate_shape n c) = snd (evaluate_shape n c')) /\
  (forall j, j <> i ->
     fst (evaluate n c) j = fst (evaluate n c') j /\
     fst (evaluate_spec n c) j = fst (evaluate_spec n c') j /\
     fst (evaluate_shape n c) j = fst (evaluate_shape n c') j) /\
  (fst (evaluate n c) i = c i /\ fst (evaluate_spec n c) i = c i /\
   fst (evaluate_shape n c) i = c i).
Proof. exact @independent. Qed.
Print Assumptions C07_independent.

Example C07_example :
  let n := Mul (VarAdj 0 1) (Cached (Un Ln (Var 2)) 3) : node Z in
  map (contains n) [0; 1; 2; 3; 4] = [true; true; true; true; false].
Proof. reflexivity. Qed.

(** C08 Undefined variables.  [reads n] lists, in evaluation order, the error each read of [n]
    would cause, wrapped in the path to it.  Full statement: for every cache-free tree and every
    context, evaluation returns the first of these errors whose identifier is undefined, or a
    value if there is none.  Proved for typed trees without Vec buffers and without non-square
    matrix-vector products, which the next theorems show to be necessary. *)
Theorem C08_leftmost_partial : forall F (S : Scalar F) (G : tenv) (n : node F) k c,
  fof_total -> node_wf n -> novec G n -> square G n -> typeof G n = Some k ->
  ctx_ok G c -> cache_free n = true ->
  match find (undef_in c) (reads n) with
  | Some e => evaluate n c = (c, Err e) /\ evaluate_spec n c = (c, Err e)
  | None => exists v s, evaluate n c = (c, Ok v) /\ evaluate_spec n c = (c, Ok s)
  end.
Proof. exact @leftmost. Qed.
Print Assumptions C08_leftmost_partial.

(** Without any typing hypothesis: a value is returned only if nothing read is undefined, and an
    error is the leftmost undefined read or not about an identifier at all. *)
Theorem C08_errors : forall F (S : Scalar F) (n : node F) (c : ctx F),
  cache_free n = true ->
  match snd (evaluate n c) with
  | Ok _ => find (undef_in c) (reads n) = None
  | Err e => find (undef_in c) (reads n) = Some e \/ err_ident e = None
  | _ => True
  end.
Proof. exact @any_error. Qed.
Print Assumptions C08_errors.

Example C08_example :
  let S := Z_scalar in
  let n := Add (Un Double (Var 0)) (Mul (Var 1) (Var 2)) in
  let G := fun i => if i <? 3 then Some KS else None in
  let c := fun i => match i with 0 => Some (VScal 5%Z) | _ => None end in
  fof_total /\ node_wf n /\ novec G n /\ square G n /\ typeof G n = Some KS /\
  ctx_ok G c /\ cache_free n = true /\
  find (undef_in c) (reads n) = Some (ERight (ELeft (Undefined 1))) /\
  snd (evaluate n c) = Err (ERight (ELeft (Undefined 1))).
Proof. exact undefined_example. Qed.

(** A length mismatch to the left of an undefined variable panics instead. *)
Theorem C08_leftmost_refuted : exists (n : node Z) (G : tenv) c,
  let S := Z_scalar in
  typeof G n <> None /\ ctx_ok G c /\ cache_free n = true /\
  find (undef_in c) (reads n) = Some (ERight (Undefined 2)) /\
  snd (evaluate n c) = Panic.
Proof. exact undefined_panics. Qed.
Print Assumptions C08_leftmost_refuted.

(** C09 Shape mismatches.  Full statement: for each of + - * /, vectors of different lengths
    give [BinaryError::Output] with the two shapes, left first.  Proved for / and for the shape
    queries of all four. *)
Theorem C09_div_mismatch_partial :
  forall F (S : Scalar F) (l r : node F) (c c1 c2 : ctx F) xs ys,
  evaluate l c = (c1, Ok (VVec xs)) -> evaluate r c1 = (c2, Ok (VVec ys)) ->
  length xs <> length ys ->
  evaluate (Div l r) c = (c2, Err (EOutput (Incompat (Dy [length xs]) (Dy [length ys])))).
Proof. exact @div_mismatch. Qed.
Print Assumptions C09_div_mismatch_partial.

Theorem C09_shape_mismatch_partial :
  forall F (S : Scalar F) (l r : node F) (c c1 c2 : ctx F) x y,
  evaluate_shape l c = (c1, Ok (Dy [x])) -> evaluate_shape r c1 = (c2, Ok (Dy [y])) -> x <> y ->
  forall op, In op [@Add F; @Sub F; @Mul F; @Div F] ->
  evaluate_shape (op l r) c = (c2, Err (EOutput (Incompat (Dy [x]) (Dy [y])))).
Proof. exact @shape_mismatch. Qed.
Print Assumptions C09_shape_mismatch_partial.

(** False for + - *: they panic, for every pair of dense vectors of different lengths. *)
Theorem C09_mismatch_refuted : exists (l r : node Z) c xs ys,
  let S := Z_scalar in
  snd (evaluate l c) = Ok (VVec xs) /\ snd (evaluate r c) = Ok (VVec ys) /\
  length xs <> length ys /\ snd (evaluate (Add l r) c) = Panic.
Proof. exact add_mismatch. Qed.
Print Assumptions C09_mismatch_refuted.

Theorem C09_dense_mismatch_panics :
  forall F (S : Scalar F) (l r : node F) (c c1 c2 : ctx F) xs ys,
  evaluate_spec l c = (c1, Ok (Raw (VVec xs))) -> evaluate_spec r c1 = (c2, Ok (Raw (VVec ys))) ->
  length xs <> length ys ->
  evaluate (Add l r) c = (c2, Panic) /\ evaluate (Sub l r) c = (c2, Panic) /\
  evaluate (Mul l r) c = (c2, Panic).
Proof. exact @dense_mismatch. Qed.
Print Assumptions C09_dense_mismatch_panics.

Example C09_example :
  let S := Z_scalar in
  let c := fun i => match i with
                    | 0 => Some (VVec [1; 2]%Z) | 1 => Some (VVec [1; 2; 3]%Z) | _ => None end in
  snd (evaluate (Div (Var 0) (Var 1)) c) = Err (EOutput (Incompat (Dy [2]) (Dy [3]))) /\
  snd (evaluate_shape (Add (Var 0) (Var 1)) c) = Err (EOutput (Incompat (Dy [2]) (Dy [3]))) /\
  snd (evaluate (Add (Var 0) (Var 1)) c) = Panic.
Proof. split; [|split]; reflexivity. Qed.

(** C39 Vectors of different lengths are never combined: whatever the representation of the
    operands, + - * either panic or report both shapes, left first. *)
Theorem C39_mismatch_never_succeeds :
  forall F (S : Scalar F) (l r : node F) (c c1 c2 : ctx F) x y i j,
  evaluate_spec l c = (c1, Ok x) -> evaluate_spec r c1 = (c2, Ok y) ->
  spec_bty x = TV i -> spec_bty y = TV j -> i <> j ->
  forall op, In op [@Add F; @Sub F; @Mul F] ->
  evaluate (op l r) c = (c2, Panic) \/
  evaluate (op l r) c = (c2, Err (EOutput (Incompat (Dy [i]) (Dy [j])))).
Proof. exact @any_mismatch. Qed.
Print Assumptions C39_mismatch_never_succeeds.

Example C39_example :
  let S := Z_scalar in
  let c := fun i => match i with 0 => Some (VVec [1; 2]%Z) | _ => None end in
  snd (evaluate (Add (ConstSpec (Full (TV 3) 0%Z)) (Var 0)) c) =
    Err (EOutput (Incompat (Dy [3]) (Dy [2]))) /\
  snd (evaluate (Sub (ConstSpec (Full (TV 3) 0%Z)) (Var 0)) c) = Panic.
Proof. split; reflexivity. Qed.

(** C10 Static typing is sound.  Full statement: a well-typed tree returns a well-formed value
    of its type or a declared error.  Proved: any value returned has the type, the context keeps
    its type and evaluation is never stuck on a missing impl; panics are excluded in the second
    theorem only without Vec buffers and non-square matrix-vector products (see C08, C24). *)
Theorem C10_typed_partial : forall F (S : Scalar F) (G : tenv) (n : node F) k c,
  node_wf n -> typeof G n = Some k -> ctx_ok G c ->
  ctx_ok G (fst (evaluate n c)) /\
  match snd (evaluate n c) with
  | Ok v => vwf v /\ sty_of (bty_of v) = k
  | Stuck => False
  | _ => True
  end.
Proof. exact @typed_eval. Qed.
Print Assumptions C10_typed_partial.

Theorem C10_typed_spec_partial : forall F (S : Scalar F) (G : tenv) (n : node F) k c,
  node_wf n -> typeof G n = Some k -> ctx_ok G c ->
  ctx_ok G (fst (evaluate_spec n c)) /\
  match snd (evaluate_spec n c) with
  | Ok s => spec_wf s /\ sty_of (spec_bty s) = k
  | Stuck => False
  | _ => True
  end.
Proof. exact @typed_spec. Qed.
Print Assumptions C10_typed_spec_partial.

(** The only error is then an identifier read by the tree that is undefined. *)
Theorem C10_progress_partial : forall F (S : Scalar F) (G : tenv) (n : node F) k c,
  fof_total -> node_wf n -> novec G n -> square G n -> typeof G n = Some k ->
  ctx_ok G c ->
  ctx_ok G (fst (evaluate n c)) /\
  match snd (evaluate n c) with
  | Ok v => vwf v /\ sty_of (bty_of v) = k
  | Err e => exists i, err_ident e = Some i /\ uses n i /\ c i = None
  | _ => False
  end.
Proof. exact @typed_progress. Qed.
Print Assumptions C10_progress_partial.

(** Well-typed evaluation can panic: a 2x3 matrix times a vector of length 2. *)
Theorem C10_panic_refuted : exists (n : node Z) (G : tenv) c,
  let S := Z_scalar in
  node_wf n /\ typeof G n = Some (KA [3]) /\ ctx_ok G c /\ snd (evaluate n c) = Panic.
Proof. exact typed_panics. Qed.
Print Assumptions C10_panic_refuted.

Example C10_example :
  let S := Z_scalar in
  let n := Contract 1 (Var 0) (Cached (Un Double (Var 1)) 2) in
  let G := fun i => match i with 0 | 1 | 2 => Some (KA [2]) | _ => None end in
  let v := VArr [2] (AN [AF 3%Z; AF 4%Z]) in
  let c := fun i => match i with 0 | 1 => Some v | _ => None end in
  fof_total /\ node_wf n /\ novec G n /\ square G n /\ typeof G n = Some KS /\
  ctx_ok G c /\ snd (evaluate n c) = Ok (VScal 50%Z).
Proof. exact typed_example. Qed.

(** C13 After a successful evaluation of a [Cached] node its entry holds the value, and in every
    context with that entry (whatever the other entries) all modes return it and change nothing. *)
Theorem C13_cached_stable : forall F (S : Scalar F) (m : node F) k (c c' : ctx F) v,
  evaluate (Cached m k) c = (c', Ok v) ->
  c' k = Some v /\
  forall d, d k = Some v ->
    evaluate (Cached m k) d = (d, Ok v) /\
    evaluate_spec (Cached m k) d = (d, Ok (Raw v)) /\
    evaluate_shape (Cached m k) d = (d, Ok (vshape v)).
Proof. exact @cached_store. Qed.
Print Assumptions C13_cached_stable.

(** No later evaluation of any nodes overwrites a filled entry. *)
Theorem C13_entry_kept : forall F (S : Scalar F) (ps : list (mode * node F)) (c : ctx F) k v,
  c k = Some v -> fold_left run1 ps c k = Some v.
Proof. exact @entry_kept. Qed.
Print Assumptions C13_entry_kept.

Example C13_example :
  let S := Z_scalar in
  let m := Cached (Un Double (Var 0)) 1 in
  let c := fun i => match i with 0 => Some (VScal 5%Z) | _ => None end in
  let c' := fst (evaluate m c) in
  snd (evaluate m c) = Ok (VScal 10%Z) /\ c' 1 = Some (VScal 10%Z) /\
  snd (evaluate m (write c' 0 (VScal 7%Z))) = Ok (VScal 10%Z).
Proof. split; [|split]; reflexivity. Qed.

(** C14 Evaluation writes only caches: whatever is evaluated, in whatever mode and with whatever
    outcome, an entry changes only if it was undefined and is the key of a [Cached] node of one
    of the evaluated trees. *)
Theorem C14_frame : forall F (S : Scalar F) (ps : list (mode * node F)) (c : ctx F) j,
  c j <> None \/ (forall p, In p ps -> is_key (snd p) j = false) ->
  fold_left run1 ps c j = c j.
Proof. exact @run_frame. Qed.
Print Assumptions C14_frame.

Theorem C14_cache_free : forall F (S : Scalar F) (c : ctx F) (p : mode * node F),
  cache_free (snd p) = true -> run1 c p = c.
Proof. exact @run1_cache_free. Qed.
Print Assumptions C14_cache_free.

Example C14_example :
  let S := Z_scalar in
  let n := Add (Cached (Var 0) 1) (Var 3) in
  let c := fun i => match i with 0 => Some (VScal 5%Z) | _ => None end in
  snd (evaluate n c) = Err (ERight (Undefined 3)) /\
  map (fst (evaluate n c)) [0; 1; 2; 3] = [Some (VScal 5%Z); Some (VScal 5%Z); None; None].
Proof. split; reflexivity. Qed.
