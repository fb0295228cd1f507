(** Dual numbers: C25, C26, C43. *)
From Coq Require Import List Arith ZArith Reals Bool Lia Lra Ring_theory.
Import ListNotations.
From Verif Require Import Base Shapes Scalar Buffers Spec Contraction Node Eval Types Instances
  Vocab Math Real_math Calculus Math_claims Calculus_claims Dual Dual_math Dual_claims.

(** C25 Dual numbers are [a + b*eps] with [eps^2 = 0].  Full statement: negation, addition,
    subtraction and multiplication with duals and with plain values; multiplication with a plain
    value is wrong (C25_scale_refuted), the rest holds in every commutative ring. *)
Theorem C25_eps_partial : forall R (z o : R) add mul sub opp,
  ring_theory z o add mul sub opp eq -> forall (x y : dual R R) r e,
  let rd := reading add mul in
  rd e (dual_neg opp opp x) = opp (rd e x) /\
  rd e (dual_add add add x y) = add (rd e x) (rd e y) /\
  rd e (dual_add_val add x r) = add (rd e x) r /\
  rd e (dual_sub sub sub x y) = sub (rd e x) (rd e y) /\
  rd e (dual_sub_val sub x r) = sub (rd e x) r /\
  add (rd e (dual_mul mul mul add x y)) (mul (mul (d_adjoint x) (d_adjoint y)) (mul e e)) =
    mul (rd e x) (rd e y) /\
  dual_mul_ref mul mul mul add x y = dual_mul mul mul add x y.
Proof. intros R z o add mul sub opp T; exact (dual_eps T). Qed.
Print Assumptions C25_eps_partial.

(** Duals form a commutative ring in which [0 + 1*eps] has square zero. *)
Theorem C25_ring : forall R (z o : R) add mul sub opp,
  ring_theory z o add mul sub opp eq -> forall x y w : dual R R,
  let M := dual_mul mul mul add in let A := dual_add add add in let N := dual_neg opp opp in
  M x y = M y x /\ M (M x y) w = M x (M y w) /\ M (A x y) w = A (M x w) (M y w) /\
  M x (Dual o z) = x /\ A x (N x) = Dual z z /\ dual_sub sub sub x y = A x (N y) /\
  M (Dual z o) (Dual z o) = Dual z z.
Proof. intros R z o add mul sub opp T; exact (dual_ring T). Qed.
Print Assumptions C25_ring.

(** Over the reals: a dual that tracks a function tracks the result of the operation. *)
Theorem C25_derivative_partial : forall f g t (x y : dual R R) r, tracks f t x -> tracks g t y ->
  tracks (fun s => - f s)%R t (dual_neg Ropp Ropp x) /\
  tracks (fun s => f s + g s)%R t (dual_add Rplus Rplus x y) /\
  tracks (fun s => f s + r)%R t (dual_add_val Rplus x r) /\
  tracks (fun s => f s - g s)%R t (dual_sub Rminus Rminus x y) /\
  tracks (fun s => f s - r)%R t (dual_sub_val Rminus x r) /\
  tracks (fun s => f s * g s)%R t (dual_mul Rmult Rmult Rplus x y) /\
  tracks (fun s => f s * g s)%R t (dual_mul_ref Rmult Rmult Rmult Rplus x y).
Proof. exact dual_derivative. Qed.
Print Assumptions C25_derivative_partial.

Example C25_example :
  ring_theory 0%Z 1%Z Z.add Z.mul Z.sub Z.opp eq /\
  tracks (fun s => s * s)%R 3%R (dual_mul Rmult Rmult Rplus (Dual 3 1)%R (Dual 3 1)%R) /\
  dual_mul Rmult Rmult Rplus (Dual 3 1)%R (Dual 3 1)%R = Dual (3 * 3)%R (1 * 3 + 1 * 3)%R.
Proof.
  split; [exact Zth|split; [|reflexivity]].
  assert (T : tracks (fun s => s) 3%R (Dual 3 1)%R) by (split; [reflexivity|apply derivable_pt_lim_id]).
  apply (dual_derivative _ _ _ _ _ 0%R T T).
Qed.

(** Constructors and conjugate, for every kind of buffer. *)
Theorem C25_start : forall F (S : Scalar F) (b : value F) d ix, vwf b -> in_box (dims (vshape b)) ix ->
  d_value (dual_variable b) = b /\ d_value (dual_constant b) = b /\
  vshape (d_adjoint (dual_variable b)) = vshape b /\ vat d (d_adjoint (dual_variable b)) ix = fone /\
  vshape (d_adjoint (dual_constant b)) = vshape b /\ vat d (d_adjoint (dual_constant b)) ix = fzero.
Proof. exact dual_start. Qed.
Print Assumptions C25_start.

Theorem C25_conj : forall V F (S : Scalar F) (x : dual V (value F)) d ix, vwf (d_adjoint x) ->
  in_box (dims (vshape (d_adjoint x))) ix ->
  d_value (dual_conj x) = d_value x /\
  vshape (d_adjoint (dual_conj x)) = vshape (d_adjoint x) /\
  vat d (d_adjoint (dual_conj x)) ix = fneg (vat d (d_adjoint x) ix).
Proof. exact dual_conj_entries. Qed.
Print Assumptions C25_conj.

Example C25_start_example :
  vwf (vec2 4 5)%Z /\ in_box (dims (vshape (vec2 4 5)%Z)) [1] /\
  @dual_conj Z Z Z_scalar (Dual 7%Z (vec2 4 5)%Z) = Dual 7%Z (vec2 (-4) (-5))%Z.
Proof. split; [cbn; repeat constructor|split; [cbn; repeat constructor|reflexivity]]. Qed.

(** The derivative of [f * r] for a constant [r] is not what [Dual * r] returns. *)
Theorem C25_scale_refuted : exists f t (x : dual R R) r, tracks f t x /\
  ~ tracks (fun s => f s * r)%R t (dual_mul_val Rmult x r).
Proof. exact dual_scale_wrong. Qed.
Print Assumptions C25_scale_refuted.

(** C43 What [Dual * plain] computes: the value is multiplied, the adjoint is kept; this is the
    product with a constant dual exactly when the adjoint is not changed by the factor. *)
Theorem C43_scale : forall R (z o : R) add mul sub opp,
  ring_theory z o add mul sub opp eq -> forall (x : dual R R) r,
  (d_value (dual_mul_val mul x r) = mul (d_value x) r /\
   d_adjoint (dual_mul_val mul x r) = d_adjoint x) /\
  (dual_mul_val mul x r = dual_mul mul mul add x (Dual r z) <->
   mul (d_adjoint x) r = d_adjoint x).
Proof.
  intros R z o add mul sub opp T x r; split; [split; reflexivity|exact (dual_mul_plain T x r)].
Qed.
Print Assumptions C43_scale.

(** Adding or subtracting a plain value is adding or subtracting a constant dual. *)
Theorem C43_shift : forall R (z o : R) add mul sub opp,
  ring_theory z o add mul sub opp eq -> forall (x : dual R R) r,
  dual_add_val add x r = dual_add add add x (Dual r z) /\
  dual_sub_val sub x r = dual_sub sub sub x (Dual r z).
Proof. intros R z o add mul sub opp T; exact (dual_plain T). Qed.
Print Assumptions C43_shift.

Example C43_example :
  dual_mul_val Z.mul (Dual 5%Z 1%Z) (-2)%Z = Dual (-10)%Z 1%Z /\
  dual_mul Z.mul Z.mul Z.add (Dual 5%Z 1%Z) (Dual (-2)%Z 0%Z) = Dual (-10)%Z (-2)%Z.
Proof. split; reflexivity. Qed.

(** C26 [evaluate_dual] evaluates the value, then the adjoint in the context left by the value;
    a failure of the value is [Left], of the adjoint [Right]. *)
Theorem C26_pairs : forall F (S : Scalar F) (n : node F) t (c : ctx F),
  (evaluate_dual n t c = None <-> adjoint n t = None) /\
  (forall c2 v w, evaluate_dual n t c = Some (c2, Ok (Dual v w)) <->
     exists c1, evaluate n c = (c1, Ok v) /\ evaluate_adjoint n t c1 = Some (c2, Ok w)) /\
  (forall c1 e, evaluate_dual n t c = Some (c1, Err (ELeft e)) <->
     adjoint n t <> None /\ evaluate n c = (c1, Err e)) /\
  (forall c2 e, evaluate_dual n t c = Some (c2, Err (ERight e)) <->
     exists c1 v, evaluate n c = (c1, Ok v) /\ evaluate_adjoint n t c1 = Some (c2, Err e)) /\
  (forall c2 e, evaluate_dual n t c = Some (c2, Err e) -> exists e', e = ELeft e' \/ e = ERight e').
Proof. exact dual_pairs. Qed.
Print Assumptions C26_pairs.

(** It panics exactly when one of the two does, and leaves the context the panic left. *)
Theorem C26_panics : forall F (S : Scalar F) (n : node F) t (c c' : ctx F),
  evaluate_dual n t c = Some (c', Panic) <->
  (adjoint n t <> None /\ evaluate n c = (c', Panic)) \/
  (exists c1 v, evaluate n c = (c1, Ok v) /\ evaluate_adjoint n t c1 = Some (c', Panic)).
Proof. exact dual_panics. Qed.
Print Assumptions C26_panics.

(** Without [Cached] the order does not matter and the context is unchanged. *)
Theorem C26_cache_free : forall F (S : Scalar F) (n : node F) t (c c' : ctx F) v w,
  cache_free n = true ->
  (evaluate_dual n t c = Some (c', Ok (Dual v w)) <->
   c' = c /\ evaluate n c = (c, Ok v) /\ evaluate_adjoint n t c = Some (c, Ok w)).
Proof. exact dual_cache_free. Qed.
Print Assumptions C26_cache_free.

(** Over the reals the two parts are the value and the Jacobian (hypotheses as in C04; example
    C04_example_regression). *)
Theorem C26_gradient : forall inf sp G (c : ctx R) t (n n' : node R),
  let S := R_scalar inf sp in
  posed G c t n n' -> regular (real_un inf sp) c n -> smooth inf sp c t n ->
  exists v w x,
    evaluate_dual n t c = Some (c, Ok (Dual v w)) /\ c t = Some x /\
    dims (vshape w) = dims (vshape v) ++ dims (vshape x) /\
    forall i j, in_box (dims (vshape v)) i -> in_box (dims (vshape x)) j ->
      vat 0%R v i = entry inf sp n c i /\
      derivable_pt_lim (fun h => entry inf sp n (bump c t j h) i) 0%R (vat 0%R w (i ++ j)).
Proof. exact dual_gradient. Qed.
Print Assumptions C26_gradient.

(** The product of Vecs of different lengths panics. *)
Example C26_example_panic :
  let n : node Z := Mul (Var 0) (Var 1) in
  let c : ctx Z := fun i => match i with 0 => Some (VVec [3; 4]%Z) | 1 => Some (VVec [5%Z]) | _ => None end in
  @evaluate_dual Z Z_scalar n 0 c = Some (c, Panic).
Proof. reflexivity. Qed.

(** [x * y] by [x] with [x = 3], [y = 4]; with [y] undefined; with an adjoint whose target is
    undefined although the value is fine. *)
Example C26_example :
  let n : node Z := Mul (Var 0) (Var 1) in
  let c : ctx Z := fun i => match i with 0 => Some (VScal 3%Z) | 1 => Some (VScal 4%Z) | _ => None end in
  let c1 : ctx Z := fun i => match i with 0 => Some (VScal 3%Z) | _ => None end in
  cache_free n = true /\
  @evaluate_dual Z Z_scalar n 0 c = Some (c, Ok (Dual (VScal 12%Z) (VScal 4%Z))) /\
  @evaluate_dual Z Z_scalar n 0 c1 = Some (c1, Err (ELeft (ERight (Undefined 1)))) /\
  @evaluate_dual Z Z_scalar n 2 c = Some (c, Err (ERight (ELeft (ELeft (ERight (Undefined 2)))))).
Proof. repeat split; reflexivity. Qed.
