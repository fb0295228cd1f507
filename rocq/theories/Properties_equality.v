(** [==] on expressions: C91. *)
From Coq Require Import List Arith Bool String ZArith SpecFloat.
Import ListNotations.
From Verif Require Import Base Shapes Scalar Buffers Spec Contraction Node Eval Dual Debug_math Instances Generic_math
  Equality Equality_math Equality_claims.

(** C91 Two expressions of the same type are equal exactly when their constants are equal, entry by
    entry and in the same form. *)
Theorem C91_constants : forall F (S : Scalar F) (n m : node F), same_type n m ->
  (node_eqb n m = true <-> node_rel equal any n m).
Proof. exact @node_eqb_rel. Qed.
Print Assumptions C91_constants.

(** Buffers, specs and dual numbers likewise. *)
Theorem C91_buffers : forall F (S : Scalar F),
  (forall v w : value F, value_eqb v w = true <-> value_rel equal v w) /\
  (forall s t : spec F, same_buffer (spec_bty s) (spec_bty t) -> (spec_eqb s t = true <-> spec_rel equal s t)) /\
  (forall d e : dual (value F) (value F), dual_eqb d e = true <-> pair_rel equal d e).
Proof. exact (fun F S => conj value_eqb_rel (conj spec_eqb_rel dual_eqb_rel)). Qed.
Print Assumptions C91_buffers.

(** If [==] of scalars is equality, so is [==] of expressions. *)
Theorem C91_exact : forall F (S : Scalar F) (n m : node F), (forall x y : F, feq x y = true <-> x = y) ->
  same_type n m -> (node_eqb n m = true <-> n = m).
Proof. exact @equal_exact. Qed.
Print Assumptions C91_exact.

(** An expression is equal to itself exactly when the scalars in its constants are. *)
Theorem C91_self : forall F (S : Scalar F) (n : node F),
  node_eqb n n = true <-> constants_in (fun x => feq x x = true) n.
Proof. exact @equal_self. Qed.
Print Assumptions C91_self.

(** It is symmetric if [==] of scalars is. *)
Theorem C91_symmetric : forall F (S : Scalar F) (n m : node F), (forall x y : F, feq x y = feq y x) ->
  same_type n m -> node_eqb n m = node_eqb m n.
Proof. exact @equal_sym. Qed.
Print Assumptions C91_symmetric.

(** Equal expressions have equal derivatives, and equal values if the operations respect [==]. *)
Theorem C91_derivative : forall F (S : Scalar F) (n m : node F) t, same_type n m -> node_eqb n m = true ->
  opt_rel (node_rel equal any) (adjoint n t) (adjoint m t).
Proof. exact @equal_derivative. Qed.
Print Assumptions C91_derivative.

Theorem C91_evaluate : forall F (S : Scalar F) (n m : node F) c d, all_respected (equal (S := S)) ->
  same_type n m -> node_eqb n m = true -> ctx_rel equal c d ->
  run_rel equal (value_rel equal) (evaluate n c) (evaluate m d).
Proof. exact @equal_evaluate. Qed.
Print Assumptions C91_evaluate.

(** Floating point operations do not, but with sums, products, negations and absolute values equal
    expressions have the same results up to the signs of zeros. *)
Theorem C91_floats : forall prec emax pow lib (n m : node f64) c, same_type n m ->
  @node_eqb f64 (float_scalar prec emax pow lib) n m = true -> uses sign_blind n ->
  run_rel up_to_zero (value_rel up_to_zero) (@evaluate f64 (float_scalar prec emax pow lib) n c)
                                            (@evaluate f64 (float_scalar prec emax pow lib) m c) /\
  run_rel up_to_zero (spec_rel up_to_zero) (@evaluate_spec f64 (float_scalar prec emax pow lib) n c)
                                           (@evaluate_spec f64 (float_scalar prec emax pow lib) m c) /\
  run_rel up_to_zero eq (@evaluate_shape f64 (float_scalar prec emax pow lib) n c)
                        (@evaluate_shape f64 (float_scalar prec emax pow lib) m c).
Proof. exact @equal_floats. Qed.
Print Assumptions C91_floats.

(** Witnesses. *)
Example C91_example : let S := Z_scalar in
  let n := Add (Var 0) (Const (VVec [1; 2]%Z)) in let m := Add (Var 0) (Const (VVec [1; 3]%Z)) in
  (forall x y : Z, feq x y = true <-> x = y) /\ same_type n m /\
  node_eqb n n = true /\ node_eqb n m = false /\
  node_eqb (ConstSpec (Full (TA [2]) 1%Z)) (ConstSpec (Raw (VArr [2] (AN [AF 1%Z; AF 1%Z])))) = false /\
  all_respected (equal (S := Z_scalar)).
Proof.
  cbn; split; [exact Z.eqb_eq|]; split; [repeat constructor|]; do 3 (split; [reflexivity|]).
  split; unfold equal; cbn; auto; try (intros *; rewrite !Z.eqb_eq; intros; subst; auto; fail).
  all: intros; try match goal with n : nat |- _ => cbn; apply Z.eqb_refl end.
Qed.

(** NaN is not equal to itself, and division sees the sign of a zero. *)
Example C91_self_refuted : let S := f64_scalar (fun x _ => x) (fun _ x => x) in
  node_eqb (Const (VScal S754_nan)) (Const (VScal S754_nan)) = false.
Proof. reflexivity. Qed.
Example C91_division_refuted : let S := f64_scalar (fun x _ => x) (fun _ x => x) in
  let n := Div (Var 0) (Const (VScal (S754_zero false))) in
  let m := Div (Var 0) (Const (VScal (S754_zero true))) in
  let c := fun i => match i with 0 => Some (VScal (f64_of_Z 1)) | _ => None end in
  same_type n m /\ node_eqb n m = true /\
  snd (evaluate n c) = Ok (VScal (S754_infinity false)) /\ snd (evaluate m c) = Ok (VScal (S754_infinity true)).
Proof. cbn; split; [repeat constructor|repeat split]. Qed.
Example C91_floats_example : let S := f64_scalar (fun x _ => x) (fun _ x => x) in
  let n := Mul (Un Negate (Var 0)) (Const (VScal (S754_zero false))) in
  let m := Mul (Un Negate (Var 0)) (Const (VScal (S754_zero true))) in
  same_type n m /\ node_eqb n m = true /\ uses sign_blind n.
Proof. cbn; split; [repeat constructor|split; [reflexivity|repeat constructor]]. Qed.
