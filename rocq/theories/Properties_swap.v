(** The order of operands: C94. *)
From Coq Require Import List Arith ZArith Bool SpecFloat.
Import ListNotations.
From Verif Require Import Base Shapes Scalar Buffers Spec Contraction Node Eval Types Instances
  Vocab Swap_math Swap_claims.

(** * C94 The operands of sums and products may be exchanged *)

(** If addition and multiplication of scalars are commutative, exchanging operands of sums and products
    anywhere in an expression does not change its value, nor whether it has one ... *)
Theorem C94_value : forall F (S : Scalar F) (n n' : node F) c v,
  (forall x y, fadd x y = fadd y x) -> (forall x y, fmul x y = fmul y x) ->
  reordered n n' -> cache_free n = true ->
  (evaluate n c = (c, Ok v) <-> evaluate n' c = (c, Ok v)).
Proof. exact @swap_value'. Qed.
Print Assumptions C94_value.

(** ... nor its lazy form and its shape ... *)
Theorem C94_spec : forall F (S : Scalar F) (n n' : node F) c s,
  (forall x y, fadd x y = fadd y x) -> (forall x y, fmul x y = fmul y x) ->
  reordered n n' -> cache_free n = true ->
  (evaluate_spec n c = (c, Ok s) <-> evaluate_spec n' c = (c, Ok s)).
Proof. exact @swap_spec'. Qed.
Print Assumptions C94_spec.

Theorem C94_shape : forall F (S : Scalar F) (n n' : node F) c s,
  (forall x y, fadd x y = fadd y x) -> (forall x y, fmul x y = fmul y x) ->
  reordered n n' -> cache_free n = true ->
  (evaluate_shape n c = (c, Ok s) <-> evaluate_shape n' c = (c, Ok s)).
Proof. exact @swap_shape'. Qed.
Print Assumptions C94_shape.

(** ... nor whether and at which type it compiles. *)
Theorem C94_types : forall F (G : tenv) (n n' : node F), reordered n n' -> typeof G n = typeof G n'.
Proof. exact @swap_types. Qed.
Print Assumptions C94_types.

(** The derivatives again differ only by such exchanges, so all this holds of derivatives of every order ... *)
Theorem C94_derivative : forall F (n n' d : node F) t, reordered n n' -> adjoint n t = Some d ->
  exists d', adjoint n' t = Some d' /\ reordered d d'.
Proof. exact @swap_adjoint. Qed.
Print Assumptions C94_derivative.

(** ... and the gradients are equal. *)
Theorem C94_gradient : forall F (S : Scalar F) (n n' : node F) t c v,
  (forall x y, fadd x y = fadd y x) -> (forall x y, fmul x y = fmul y x) ->
  reordered n n' -> cache_free n = true ->
  (evaluate_adjoint n t c = Some (c, Ok v) <-> evaluate_adjoint n' t c = Some (c, Ok v)).
Proof. exact @swap_gradient. Qed.
Print Assumptions C94_gradient.

(** For floats of every format, whatever [powf] and the library functions compute: the same bits. *)
Theorem C94_floats : forall prec emax pow lib (n n' : node f64) t c v,
  reordered n n' -> cache_free n = true ->
  let S := float_scalar prec emax pow lib in
  (evaluate n c = (c, Ok v) <-> evaluate n' c = (c, Ok v)) /\
  (evaluate_adjoint n t c = Some (c, Ok v) <-> evaluate_adjoint n' t c = Some (c, Ok v)).
Proof. exact swap_floats. Qed.
Print Assumptions C94_floats.

Theorem C94_ints : forall (n n' : node Z) t c v,
  reordered n n' -> cache_free n = true ->
  let S := Z_scalar in
  (evaluate n c = (c, Ok v) <-> evaluate n' c = (c, Ok v)) /\
  (evaluate_adjoint n t c = Some (c, Ok v) <-> evaluate_adjoint n' t c = Some (c, Ok v)).
Proof. exact swap_ints. Qed.
Print Assumptions C94_ints.

(** 2 (x * y) + z and z + 2 (y * x) at x = 3, y = [4, 5], z = [6, 7] in f64. *)
Example C94_example :
  let f := fun k => f64_of_Z (Z.of_nat k) in
  let S := f64_scalar (fun x _ => x) (fun _ x => x) in
  let n := Add (Un Double (Mul (Var 0) (Var 1))) (Var 2) in
  let n' := Add (Var 2) (Un Double (Mul (Var 1) (Var 0))) in
  let c := fun i => match i with
                    | 0 => Some (VScal (f 3)) | 1 => Some (VArr [2] (AN [AF (f 4); AF (f 5)]))
                    | 2 => Some (VArr [2] (AN [AF (f 6); AF (f 7)])) | _ => None
                    end in
  let v := VArr [2] (AN [AF (f 30); AF (f 37)]) in
  reordered n n' /\ cache_free n = true /\ evaluate n c = (c, Ok v) /\ evaluate n' c = (c, Ok v).
Proof.
  cbv zeta; split; [apply re_add_swap; [apply re_un, re_mul_swap; apply re_same|apply re_same]|].
  repeat split.
Qed.

(** Failures: the error names the other side. *)
Example C94_error :
  let S := Z_scalar in
  let c := (fun i => match i with 0 => Some (VScal 1%Z) | _ => None end) : ctx Z in
  evaluate (Add (Var 0) (Var 1)) c = (c, Err (ERight (Undefined 1))) /\
  evaluate (Add (Var 1) (Var 0)) c = (c, Err (ELeft (Undefined 1))).
Proof. split; reflexivity. Qed.

(** Regrouping, in contrast, changes floats: (2^53 + 1) + 1 and 2^53 + (1 + 1). *)
Example C94_regrouping_refuted :
  let S := f64_scalar (fun x _ => x) (fun _ x => x) in
  let k := fun z => Const (VScal (f64_of_Z z)) in
  let c := (fun _ => None) : ctx f64 in
  exists v w, evaluate (Add (Add (k (2 ^ 53)%Z) (k 1%Z)) (k 1%Z)) c = (c, Ok v) /\
    evaluate (Add (k (2 ^ 53)%Z) (Add (k 1%Z) (k 1%Z))) c = (c, Ok w) /\ v <> w.
Proof.
  cbv zeta; eexists _, _; split; [vm_compute; reflexivity|split; [vm_compute; reflexivity|]].
  intro H; vm_compute in H; discriminate.
Qed.
