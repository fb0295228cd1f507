(** Operators that decide by a comparison, at every floating-point number (property C85). *)
From Coq Require Import List Arith ZArith Reals SpecFloat Lia Lra.
Import ListNotations.
From Verif Require Import Base Shapes Scalar Buffers Spec Contraction Node Eval Types Instances
  Vocab Math Float_math Branch_math Branch_claims.

(** C85: in every binary format, [Abs], [Negate], [Sign], [Dirac] and [XLnX] of a value are computed entry
    by entry as the table [decided] says, for zeros of both signs, infinities and NaN as well. *)
Theorem C85_values : forall (prec emax : Z), (2 <= prec < emax)%Z ->
  forall (pow : f64 -> f64 -> f64) (lib : libfn -> f64 -> f64), let S := float_scalar prec emax pow lib in
  forall u (m : node f64) (c c' : ctx f64) v, ctx_wf c -> node_wf m -> evaluate m c = (c', Ok v) ->
  exists w, evaluate (Un u m) c = (c', Ok w) /\ vshape w = vshape v /\
  forall ix, in_box (dims (vshape v)) ix -> decided prec emax lib u (vat f64_zero v ix) (vat f64_zero w ix).
Proof. exact values_decided. Qed.
Print Assumptions C85_values.

(** The gradient of the absolute value of a scalar is its sign: 1, -1, and zero at zero. *)
Theorem C85_abs_gradient : forall (prec emax : Z), (2 <= prec < emax)%Z ->
  forall (pow : f64 -> f64 -> f64) (lib : libfn -> f64 -> f64), let S := float_scalar prec emax pow lib in
  forall i (c : ctx f64) x, c i = Some (VScal x) ->
  exists y, evaluate_adjoint (Un Abs (Var i)) i c = Some (c, Ok (VScal y)) /\ decided prec emax lib Sign x y.
Proof. exact @abs_gradient. Qed.
Print Assumptions C85_abs_gradient.

(** That of the sign is infinite at zero, and zero elsewhere. *)
Theorem C85_sign_gradient : forall (prec emax : Z), (2 <= prec < emax)%Z ->
  forall (pow : f64 -> f64 -> f64) (lib : libfn -> f64 -> f64), let S := float_scalar prec emax pow lib in
  forall i (c : ctx f64) x, c i = Some (VScal x) ->
  exists y, evaluate_adjoint (Un Sign (Var i)) i c = Some (c, Ok (VScal y)) /\ decided prec emax lib Dirac x y.
Proof. exact @sign_gradient. Qed.
Print Assumptions C85_sign_gradient.

(** Witnesses: [-0], [-3] and NaN in f32. *)
Example C85_example : forall pow lib,
  let S := f32_scalar pow lib in
  let three := float_of_Z 24 128 3 in
  let v : value f64 := VArr [3] (AN [AF (S754_zero true); AF (SFopp three); AF S754_nan]) in
  let c : ctx f64 := fun j => match j with 0 => Some v | 1 => Some (VScal (SFopp three)) | 2 => Some (VScal (S754_zero true)) | _ => None end in
  (2 <= 24 < 128)%Z /\ ctx_wf c /\ evaluate (Var 0) c = (c, Ok v) /\
  snd (evaluate (Un Abs (Var 0)) c) = Ok (VArr [3] (AN [AF (S754_zero false); AF three; AF S754_nan])) /\
  snd (evaluate (Un Sign (Var 0)) c) = Ok (VArr [3] (AN [AF (S754_zero true); AF (float_of_Z 24 128 (-1)); AF S754_nan])) /\
  snd (evaluate (Un Dirac (Var 0)) c) = Ok (VArr [3] (AN [AF (S754_infinity false); AF (S754_zero false); AF (S754_zero false)])) /\
  option_map snd (evaluate_adjoint (Un Abs (Var 1)) 1 c) = Some (Ok (VScal (float_of_Z 24 128 (-1)))) /\
  option_map snd (evaluate_adjoint (Un Abs (Var 2)) 2 c) = Some (Ok (VScal (S754_zero true))) /\
  option_map snd (evaluate_adjoint (Un Sign (Var 2)) 2 c) = Some (Ok (VScal (S754_infinity false))).
Proof.
  intros pow lib S three v c; split; [lia|split].
  - intros [|[|[|j]]] w; cbn; intros [= <-]; cbn; auto; repeat split; auto.
  - repeat split.
Qed.
