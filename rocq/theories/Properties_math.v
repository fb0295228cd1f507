(** Evaluation against mathematics: C02, C12, C32, C33, C34, C35, C52, C53, C74. *)
From Coq Require Import List Arith ZArith Reals Bool SpecFloat Lia Lra.
Import ListNotations.
From Verif Require Import Base Shapes Scalar Buffers Spec Contraction Node Eval Types Instances
  Vocab Math Real_math Float_math Instance_facts Math_claims Scalar_claims Code_math Code_claims
  Cache_claims.

(** C02 Evaluation computes the mathematical expression.  Missing from the full statement: the
    three deviations excluded by [regular] (see [C02_refuted]). *)
Theorem C02_value_partial : forall F (S : Scalar F) (n : node F) (c c' : ctx F) v,
  exact F -> node_wf n -> ctx_wf c -> cache_free n = true -> regular un_fn c n ->
  evaluate n c = (c', Ok v) -> vwf v /\ holds v (den un_fn c n).
Proof. exact @value_claim. Qed.
Print Assumptions C02_value_partial.

(** Well-typed trees with all variables defined have a value. *)
Theorem C02_total_partial : forall F (S : Scalar F) um (G : tenv) (n : node F) k (c : ctx F),
  exact F -> (forall u x, un_fn u x = um u x) ->
  node_wf n -> novec G n -> square G n -> typeof G n = Some k ->
  cache_free n = true -> ctx_ok G c -> (forall i, uses n i -> c i <> None) -> regular um c n ->
  exists v, evaluate n c = (c, Ok v) /\ sty_of (bty_of v) = k /\ holds v (den um c n).
Proof. exact @value_total. Qed.
Print Assumptions C02_total_partial.

(** Over the reals, with the unary operators as in Real_math.v. *)
Theorem C02_real_partial : forall inf sp (n : node R) (c c' : ctx R) v,
  let S := R_scalar inf sp in
  node_wf n -> ctx_wf c -> cache_free n = true -> regular (real_un inf sp) c n ->
  evaluate n c = (c', Ok v) -> vwf v /\ holds v (den (real_un inf sp) c n).
Proof. exact value_real. Qed.
Print Assumptions C02_real_partial.

Theorem C02_real_total_partial : forall inf sp G (n : node R) k (c : ctx R),
  let S := R_scalar inf sp in
  node_wf n -> novec G n -> square G n -> typeof G n = Some k ->
  cache_free n = true -> ctx_ok G c -> (forall i, uses n i -> c i <> None) ->
  regular (real_un inf sp) c n ->
  exists v, evaluate n c = (c, Ok v) /\ sty_of (bty_of v) = k /\ holds v (den (real_un inf sp) c n).
Proof. exact value_real_total. Qed.
Print Assumptions C02_real_total_partial.

Theorem C02_integers_exact : @exact Z Z_scalar.
Proof. exact Z_exact. Qed.
Print Assumptions C02_integers_exact.

Theorem C02_reals_exact : forall inf sp, @exact R (R_scalar inf sp).
Proof. exact R_exact. Qed.
Print Assumptions C02_reals_exact.

Example C02_example :
  let S := Z_scalar in
  let n := Sum (Mul (Contract 1 (VarAdj 0 0) (Var 0)) (Sub (Var 0) (ConstSpec (Full (TA [2]) 0%Z)))) in
  let c := fun i => match i with 0 => Some (vec2 3 4) | _ => None end in
  node_wf n /\ ctx_wf c /\ cache_free n = true /\ regular un_fn c n /\
  evaluate n c = (c, Ok (VScal 25%Z)) /\ tat (den un_fn c n) [] = 25%Z.
Proof.
  split; [simpl; repeat (split; auto; try lia)|].
  split; [intros [|i] v E; inversion E; subst; simpl; repeat constructor|].
  split; [reflexivity|split; [|split; reflexivity]].
  simpl; repeat split; auto; intro H; discriminate H.
Qed.

Example C02_total_example :
  let S := Z_scalar in
  let n := Contract 0 (Var 0) (Sub (Var 0) (Const (VScal 1%Z))) in
  let c := fun i => match i with 0 => Some (vec2 3 4) | _ => None end in
  let G := fun i => match i with 0 => Some (KA [2]) | _ => None end in
  node_wf n /\ novec G n /\ square G n /\ typeof G n = Some (KA [2; 2]) /\
  cache_free n = true /\ ctx_ok G c /\ (forall i, uses n i -> c i <> None) /\ regular un_fn c n /\
  evaluate n c = (c, Ok (mat22 6 9 8 12)).
Proof.
  split; [simpl; auto|split; [simpl; repeat split; discriminate|]].
  split; [simpl; auto|split; [reflexivity|split; [reflexivity|split]]].
  { intros [|i] v E; inversion E; subst; simpl; split; [repeat constructor|reflexivity]. }
  split; [simpl; intros i H; assert (i = 0) by tauto; subst; discriminate|].
  split; [simpl; repeat split; auto; intro H; discriminate H|reflexivity].
Qed.

(** Deviations: a scalar minus a matrix is negated; a zero base with exponent zero gives zero; the
    product of a non-square matrix with a vector has the wrong dimensions. *)
Theorem C02_refuted :
  let S := Z_scalar in
  (exists c v, ctx_wf c /\ snd (evaluate (Sub (Var 0) (Var 1)) c) = Ok v /\
               ~ holds v (den un_fn c (Sub (Var 0) (Var 1)))) /\
  (exists c v, let n := Power (ConstSpec (Full TS 0%Z)) (Var 0) in
               ctx_wf c /\ snd (evaluate n c) = Ok v /\ ~ holds v (den un_fn c n)) /\
  (exists c v, let n := Contract 1 (Var 0) (Var 1) in
               ctx_wf c /\ snd (evaluate n c) = Ok v /\ ~ holds v (den un_fn c n)).
Proof. exact value_differs. Qed.
Print Assumptions C02_refuted.

(** C12 Caching is transparent.  [strip] removes the [Cached] wrappers.  Missing from the full
    statement: trees that are not [regular]. *)
Theorem C12_value_partial : forall F (S : Scalar F) rho keys K,
  exact F -> ctx_wf rho -> forall (n : node F) (c c' : ctx F) v,
  node_wf n -> keyed un_fn rho keys K n -> regular un_fn rho n -> coherent rho keys K c ->
  evaluate n c = (c', Ok v) -> vwf v /\ holds v (den un_fn rho (strip n)).
Proof. exact @cached_value. Qed.
Print Assumptions C12_value_partial.

Theorem C12_same_result_partial : forall F (S : Scalar F) rho keys K,
  exact F -> ctx_wf rho -> forall (G : tenv) (n : node F) k (c : ctx F),
  node_wf n -> novec G n -> square G n -> typeof G n = Some k -> ctx_ok G c ->
  (forall i, uses n i -> c i <> None) ->
  keyed un_fn rho keys K n -> regular un_fn rho n -> coherent rho keys K c ->
  exists v, snd (evaluate n c) = Ok v /\ snd (evaluate (strip n) c) = Ok v /\
            coherent rho keys K (fst (evaluate n c)).
Proof. exact @transparent. Qed.
Print Assumptions C12_same_result_partial.

(** Any sequence of evaluations (in any of the three modes) keeps the context coherent. *)
Theorem C12_coherence_kept_partial : forall F (S : Scalar F) rho keys K,
  exact F -> ctx_wf rho -> forall (l : list (mode * node F)) (c : ctx F),
  (forall p, In p l -> node_wf (snd p) /\ keyed un_fn rho keys K (snd p) /\ regular un_fn rho (snd p)) ->
  coherent rho keys K c -> coherent rho keys K (fold_left run1 l c).
Proof. exact @coherent_run. Qed.
Print Assumptions C12_coherence_kept_partial.

Example C12_example :
  let S := Z_scalar in
  let m := Sub (Var 0) (Const (VScal 1%Z)) in
  let n := Add (Cached m 7) (Mul (Cached m 7) (Var 0)) in
  let rho := fun i => match i with 0 => Some (vec2 3 4) | _ => None end in
  let keys := fun i => Nat.eqb i 7 in
  let K := fun _ => den un_fn rho m in
  let G := fun i => match i with 0 | 7 => Some (KA [2]) | _ => None end in
  ctx_wf rho /\ node_wf n /\ novec G n /\ square G n /\
  typeof G n = Some (KA [2]) /\ ctx_ok G rho /\ (forall i, uses n i -> rho i <> None) /\
  keyed un_fn rho keys K n /\ regular un_fn rho n /\ coherent rho keys K rho /\
  snd (evaluate n rho) = Ok (vec2 8 15) /\ fst (evaluate n rho) 7 = Some (vec2 2 3).
Proof.
  split; [intros [|i] v E; inversion E; subst; simpl; repeat constructor|].
  split; [simpl; auto 9|split; [simpl; repeat split; discriminate|]].
  split; [simpl; auto 9|split; [reflexivity|split]].
  { intros [|i] v E; inversion E; subst; simpl; split; [repeat constructor|reflexivity]. }
  split; [simpl; intros i H; assert (i = 0) by tauto; subst; discriminate|].
  split; [simpl; repeat split; auto|].
  split; [simpl; repeat split; auto; intro H; discriminate H|].
  split; [|split; reflexivity].
  intro i; simpl; destruct (Nat.eqb_spec i 7) as [->|N]; auto; intros v E; discriminate E.
Qed.

(** Outside [regular] caching can change the value: zero to the power zero. *)
Theorem C12_refuted :
  let S := Z_scalar in
  exists (n : node Z) rho keys K v w,
    node_wf n /\ ctx_wf rho /\ keyed un_fn rho keys K n /\ coherent rho keys K rho /\
    snd (evaluate n rho) = Ok v /\ snd (evaluate (strip n) rho) = Ok w /\ v <> w.
Proof. exact caching_differs. Qed.
Print Assumptions C12_refuted.

(** C32 The two-branch sigmoid. *)
Theorem C32_formula : forall inf sp x, (@sigmoid R (R_scalar inf sp) x = / (1 + exp (- x)))%R.
Proof. exact sigmoid_formula. Qed.
Print Assumptions C32_formula.

Theorem C32_range : forall inf sp x, (0 < @sigmoid R (R_scalar inf sp) x < 1)%R.
Proof. exact sigmoid_range. Qed.
Print Assumptions C32_range.

Theorem C32_reflection : forall inf sp x,
  (@sigmoid R (R_scalar inf sp) (- x) = 1 - @sigmoid R (R_scalar inf sp) x)%R.
Proof. exact sigmoid_reflect. Qed.
Print Assumptions C32_reflection.

Theorem C32_increasing : forall inf sp x y,
  (x < y -> @sigmoid R (R_scalar inf sp) x < @sigmoid R (R_scalar inf sp) y)%R.
Proof. exact sigmoid_increasing. Qed.
Print Assumptions C32_increasing.

Theorem C32_derivative : forall inf sp x,
  derivable_pt_lim (@sigmoid R (R_scalar inf sp)) x
    (@sigmoid R (R_scalar inf sp) x * (1 - @sigmoid R (R_scalar inf sp) x))%R.
Proof. exact sigmoid_derivative. Qed.
Print Assumptions C32_derivative.

(** The exponential is only taken at non-positive numbers: its values elsewhere do not matter. *)
Theorem C32_never_exponentiates_positive : forall inf sp (g : R -> R) x,
  (forall y, (y <= 0)%R -> g y = exp y) ->
  @sigmoid R (with_exp inf sp g) x = @sigmoid R (R_scalar inf sp) x.
Proof. exact sigmoid_small_exp. Qed.
Print Assumptions C32_never_exponentiates_positive.

Example C32_example : forall inf sp,
  (@sigmoid R (R_scalar inf sp) 0 = / 2)%R /\
  (forall y, (y <= 0)%R -> (if Rle_dec y 0 then exp y else 0)%R = exp y).
Proof.
  intros inf sp; split; [rewrite C32_formula, Ropp_0, exp_0; f_equal; lra|].
  intros y H; destruct (Rle_dec y 0); [reflexivity|contradiction].
Qed.

(** C33 Zero short cuts under IEEE arithmetic.  [computes op x y s]: up to the sign of zeros, the
    result [s] is [op] applied to the entries of [x] and [y]. *)
Theorem C33_add : forall pow lib (l r : node f64) (c c1 c2 : ctx f64) x y s,
  let S := f64_scalar pow lib in
  evaluate_spec l c = (c1, Ok x) -> evaluate_spec r c1 = (c2, Ok y) -> spec_wf x -> spec_wf y ->
  snd (evaluate_spec (Add l r) c) = Ok s -> computes (SFadd 53 1024) x y s.
Proof. exact add_short. Qed.
Print Assumptions C33_add.

(** For [Sub] the short cut fires when the right operand is a zero constant. *)
Theorem C33_sub : forall pow lib (l r : node f64) (c c1 c2 : ctx f64) v t z s,
  let S := f64_scalar pow lib in
  evaluate_spec l c = (c1, Ok (Raw v)) -> evaluate_spec r c1 = (c2, Ok (Full t z)) ->
  vwf v -> bty_wf t -> SFeqb z f64_zero = true ->
  snd (evaluate_spec (Sub l r) c) = Ok s -> computes (SFsub 53 1024) (Raw v) (Full t z) s.
Proof. exact sub_short. Qed.
Print Assumptions C33_sub.

Theorem C33_mul : forall pow lib (l r : node f64) (c c1 c2 : ctx f64) x y s,
  let S := f64_scalar pow lib in
  evaluate_spec l c = (c1, Ok x) -> evaluate_spec r c1 = (c2, Ok y) -> spec_wf x -> spec_wf y ->
  all_finite x -> all_finite y ->
  snd (evaluate_spec (Mul l r) c) = Ok s -> computes (SFmul 53 1024) x y s.
Proof. exact mul_short. Qed.
Print Assumptions C33_mul.

Example C33_example : forall pow lib,
  let S := f64_scalar pow lib in
  let x := VArr [2] (AN [AF (f64_of_Z 3); AF (S754_zero true)]) in
  let l := Const x in
  let r := ConstSpec (Full TS (S754_zero true)) in
  let c := fun _ => None in
  evaluate_spec l c = (c, Ok (Raw x)) /\ evaluate_spec r c = (c, Ok (Full TS (S754_zero true))) /\
  vwf x /\ all_finite (Raw x) /\ all_finite (Full TS (S754_zero true)) /\
  snd (evaluate_spec (Add l r) c) = Ok (Raw x) /\
  snd (evaluate_spec (Sub l r) c) = Ok (Raw x) /\
  snd (evaluate_spec (Mul l r) c) = Ok (Full (TA [2]) f64_zero).
Proof.
  intros pow lib S x l r c; split; [reflexivity|split; [reflexivity|split; [simpl; repeat constructor|]]].
  split.
  { intros ix B; unfold all_finite in *; inversion B as [|i d is ds Hi Hr]; subst; inversion Hr; subst.
    destruct i as [|[|i]]; [exact I|exact I|lia]. }
  split; [intros ix B; exact I|split; [reflexivity|split; reflexivity]].
Qed.

(** Finiteness is needed for [Mul]. *)
Theorem C33_infinite_refuted : forall pow lib, let S := f64_scalar pow lib in
  exists (l r : node f64) c x y s,
  snd (evaluate_spec l c) = Ok x /\ snd (evaluate_spec r c) = Ok y /\ spec_wf x /\ spec_wf y /\
  snd (evaluate_spec (Mul l r) c) = Ok s /\ ~ computes (SFmul 53 1024) x y s.
Proof. exact mul_infinite_differs. Qed.
Print Assumptions C33_infinite_refuted.

(** C34 Plain evaluation is pointwise evaluation of the written operations: no law is assumed of
    the scalars.  Missing from the full statement: scalars to the left of arrays of rank 2 or more. *)
Theorem C34_bit_exact_partial : forall F (S : Scalar F) (c c' : ctx F) (n : node F) v,
  ctx_wf c -> node_wf n -> elementwise c n -> evaluate n c = (c', Ok v) ->
  c' = c /\ holds v (den un_fn c n).
Proof. exact @elementwise_claim. Qed.
Print Assumptions C34_bit_exact_partial.

Example C34_example : forall pow lib,
  let S := f64_scalar pow lib in
  let x := VArr [2] (AN [AF (f64_of_Z 3); AF (f64_of_Z 5)]) in
  let n := Div (Sub (Const (VScal (f64_of_Z 1))) (Var 0)) (Un Exp (Var 0)) in
  let c := fun i => match i with 0 => Some x | _ => None end in
  ctx_wf c /\ node_wf n /\ elementwise c n /\
  snd (evaluate n c) =
    Ok (VArr [2] (AN [AF (SFdiv 53 1024 (f64_of_Z (-2)) (lib Lexp (f64_of_Z 3)));
                      AF (SFdiv 53 1024 (f64_of_Z (-4)) (lib Lexp (f64_of_Z 5)))])).
Proof.
  intros pow lib S x n c.
  split; [intros [|i] v E; inversion E; subst; simpl; repeat constructor|].
  split; [simpl; auto|split; [|reflexivity]].
  simpl; unfold keeps_order; simpl; repeat split; auto; discriminate.
Qed.

Theorem C34_refuted :
  let S := Z_scalar in
  exists (l r : node Z) c v,
    node_wf l /\ node_wf r /\ elementwise c l /\ elementwise c r /\ ctx_wf c /\
    snd (evaluate (Sub l r) c) = Ok v /\ ~ holds v (den un_fn c (Sub l r)).
Proof. exact order_differs. Qed.
Print Assumptions C34_refuted.

(** C52 Every operation of an expression on plain buffers, with its operands in the order the code
    hands them over and sums taken from zero upwards in row-major order: no law is assumed of the
    scalars and nothing but contractions of two scalars, adjoints, specs and caches is left out. *)
Theorem C52_value : forall F (S : Scalar F) (c c' : ctx F) (n : node F) v,
  ctx_wf c -> node_wf n -> written c n -> evaluate n c = (c', Ok v) ->
  c' = c /\ vwf v /\ holds v (steps c n).
Proof. exact @steps_claim. Qed.
Print Assumptions C52_value.

(** Lifted evaluation gives the same buffer, the same error or the same panic. *)
Theorem C52_lifted : forall F (S : Scalar F) (c : ctx F) (n : node F),
  ctx_wf c -> node_wf n -> written c n ->
  evaluate_spec n c = (c, res_map Raw (snd (evaluate n c))).
Proof. exact @steps_lifted. Qed.
Print Assumptions C52_lifted.

(** [(1 - M) . x] summed, with [M] rectangular: the subtraction is exchanged and only the leading
    block of [M] is used.  In [f64], [2^53 + 1 + 1] summed in that order is [2^53]. *)
Example C52_example :
  let S := Z_scalar in
  let m := (VArr [3; 2]%nat (AN [AN [AF 1; AF 2]; AN [AF 3; AF 4]; AN [AF 5; AF 6]]))%Z in
  let c := fun i => match i with 0 => Some m | 1 => Some (VArr [3] (AN [AF 1%Z; AF 10%Z; AF 100%Z]))
                              | _ => None end in
  let n := Sum (Contract 1 (Sub (Const (VScal 1%Z)) (Var 0)) (Var 1)) in
  ctx_wf c /\ node_wf n /\ written c n /\ evaluate n c = (c, Ok (VScal (0 + 1 * 10 + (2 + 3 * 10)))%Z).
Proof.
  intros S m c n; split; [intros [|[|i]] v E; inversion E; subst; simpl; repeat constructor|].
  split; [simpl; auto|split; [simpl; split; auto; split; auto; right; discriminate|reflexivity]].
Qed.

Example C52_example_f64 : forall pow lib,
  let S := f64_scalar pow lib in
  let big := f64_of_Z 9007199254740992 in
  let c := fun i => match i with 0 => Some (VArr [3] (AN [AF big; AF fone; AF fone])) | _ => None end in
  let d := fun i => match i with 0 => Some (VArr [3] (AN [AF fone; AF fone; AF big])) | _ => None end in
  snd (evaluate (Sum (Var 0)) c) = Ok (VScal big) /\
  snd (evaluate (Sum (Var 0)) d) = Ok (VScal (f64_of_Z 9007199254740994)).
Proof. intros pow lib S big c d; split; reflexivity. Qed.

(** C53 Every outcome of a well-typed expression on plain buffers: the value of C52, the error or the
    panic that [fault_of] names, and the context is never changed. *)
Theorem C53_outcome : forall F (S : Scalar F) (G : tenv) (c : ctx F) (n : node F) k,
  ctx_ok G c -> node_wf n -> written_typed G n -> typeof G n = Some k ->
  match fault_of c n with
  | None => exists v, evaluate n c = (c, Ok v) /\ sty_of (bty_of v) = k /\ holds v (steps c n)
  | Some (Returns e) => evaluate n c = (c, Err e)
  | Some Panics => evaluate n c = (c, Panic)
  end.
Proof. exact @outcome_claim. Qed.
Print Assumptions C53_outcome.

(** [u / v + w] with lengths 2, 2, 2: a value; with lengths 2, 3, 2: the error of the division;
    2, 2, 3: a panic of the addition; [w] missing: that error, but only after the division. *)
Example C53_example :
  let S := Z_scalar in
  let n := Add (Div (Var 0) (Var 1)) (Var 2) in
  let G := fun i => if i <? 3 then Some KV else None in
  let two := Some (VVec [6; 8]%Z) in
  let three := Some (VVec [1; 2; 3]%Z) in
  let c := fun u v w i => match i with 0 => u | 1 => v | 2 => w | _ => None end in
  (ctx_ok G (c two two two) /\ node_wf n /\ written_typed G n /\ typeof G n = Some KV) /\
  fault_of (c two two two) n = None /\
  fault_of (c two three two) n = Some (Returns (ELeft (EOutput (Incompat (Dy [2]) (Dy [3]))))) /\
  fault_of (c two two three) n = Some Panics /\
  fault_of (c two two None) n = Some (Returns (ERight (Undefined 2))) /\
  fault_of (c two three None) n = Some (Returns (ELeft (EOutput (Incompat (Dy [2]) (Dy [3]))))).
Proof.
  intros S n G two three c; split; [|repeat split; reflexivity].
  split; [intros [|[|[|i]]] v E; inversion E; subst; simpl; auto|simpl; auto].
Qed.

(** C35 Linear regression gradient, for every dimension and over any exact scalars. *)
Theorem C35_gradient : forall F (S : Scalar F), exact F ->
  forall n (x w y : ident) vx vw (b : F) (c : ctx F),
  x <> w -> x <> y -> w <> y ->
  c x = Some vx -> vwf vx -> bty_of vx = TA [n] ->
  c w = Some vw -> vwf vw -> bty_of vw = TA [n] ->
  c y = Some (VScal b) ->
  exists v, evaluate_adjoint (sse x w y) w c = Some (c, Ok v) /\ bty_of v = TA [n] /\
    forall i, i < n ->
      vat fzero v [i] =
      fmul (fmul (fadd fone fone)
              (fsub (sum_over (seq 0 n) (fun k => fmul (vat fzero vx [k]) (vat fzero vw [k]))) b))
           (vat fzero vx [i]).
Proof. exact @regression. Qed.
Print Assumptions C35_gradient.

Example C35_example :
  let S := Z_scalar in
  let c := fun i => match i with 0 => Some (vec2 3 4) | 1 => Some (vec2 1 2)
                              | 2 => Some (VScal 1%Z) | _ => None end in
  vwf (vec2 3 4) /\ vwf (vec2 1 2) /\
  option_map snd (evaluate_adjoint (sse 0 1 2) 1 c) = Some (Ok (vec2 60 80)).
Proof. split; [simpl; repeat constructor|split; [simpl; repeat constructor|reflexivity]]. Qed.

(** C74 Caches of computations on plain buffers change no outcome, whatever the scalars: from any
    context reached by filling keys, the value, error or panic is that of the tree without caches
    in the context without them. *)
Theorem C74_outcome : forall F (S : Scalar F) rho P (n : node F) (c : ctx F),
  ctx_wf rho -> node_wf n -> caches rho P n -> filled rho P c ->
  snd (evaluate n c) = snd (evaluate (strip n) rho) /\
  snd (evaluate_spec n c) = snd (evaluate_spec (strip n) rho).
Proof. exact @cached_outcome. Qed.
Print Assumptions C74_outcome.

(** Such contexts are kept by any sequence of evaluations in the three modes. *)
Theorem C74_kept : forall F (S : Scalar F) rho P,
  ctx_wf rho -> forall (l : list (mode * node F)) (c : ctx F),
  (forall p, In p l -> node_wf (snd p) /\ caches rho P (snd p)) ->
  filled rho P c -> filled rho P (fold_left run1 l c).
Proof. exact @cached_run. Qed.
Print Assumptions C74_kept.

(** So from empty keys, no history of evaluations is visible in the next one. *)
Theorem C74_history : forall F (S : Scalar F) rho P (l : list (mode * node F)) (n : node F),
  ctx_wf rho -> (forall k, P k <> None -> rho k = None) ->
  (forall p, In p ((MEval, n) :: l) -> node_wf (snd p) /\ caches rho P (snd p)) ->
  snd (evaluate n (fold_left run1 l rho)) = snd (evaluate (strip n) rho).
Proof. exact @cached_history. Qed.
Print Assumptions C74_history.

(** In [f64], with a sum that rounds, after asking for the shape of the cache. *)
Example C74_example : forall pow lib,
  let S := f64_scalar pow lib in
  let big := f64_of_Z 9007199254740992 in
  let m := Add (Const (VScal big)) (Var 0) in
  let n := Div (Cached m 7) (Sub (Cached m 7) (Const (VScal big))) in
  let P := fun i => if Nat.eqb i 7 then Some m else None in
  let rho := fun i => match i with 0 => Some (VScal (f64_of_Z 1)) | _ => None end in
  let l := [(MShape, Cached m 7)] in
  ctx_wf rho /\ (forall k, P k <> None -> rho k = None) /\
  (forall p, In p ((MEval, n) :: l) -> node_wf (snd p) /\ caches rho P (snd p)) /\
  fold_left run1 l rho 7 = Some (VScal big) /\
  snd (evaluate n (fold_left run1 l rho)) = Ok (VScal (S754_infinity false)).
Proof.
  intros pow lib S big m n P rho l.
  split; [intros [|i] v E; inversion E; subst; simpl; repeat constructor|].
  split; [intros [|k] H; [elim H; reflexivity|reflexivity]|].
  split; [|split; reflexivity].
  intros p [<- | [<- | []]]; cbn; repeat split.
Qed.

(** A product of two scalars is a lifted constant, which a cache forgets: [(0 . 1) * y] is 0 for
    infinite [y], and undefined when the first factor is cached. *)
Example C74_scalars_refuted : forall pow lib, let S := f64_scalar pow lib in
  exists (m : node f64) rho,
  let n := Mul (Cached m 7) (Var 0) in
  ctx_wf rho /\ rho 7 = None /\ node_wf n /\ cache_free m = true /\
  snd (evaluate (strip n) rho) = Ok (VScal (S754_zero false)) /\
  snd (evaluate n rho) = Ok (VScal S754_nan).
Proof.
  intros pow lib S.
  exists (Contract 1 (Const (VScal f64_zero)) (Const (VScal (f64_of_Z 1)))).
  exists (fun i => match i with 0 => Some (VScal (S754_infinity false)) | _ => None end).
  split; [intros [|i] v E; inversion E; subst; simpl; repeat constructor|].
  split; [reflexivity|split; [cbn; repeat split|split; [reflexivity|split; reflexivity]]].
Qed.
