(** Leaves of expressions.  Specification side; nothing here models code. *)
From Coq Require Import List.
Import ListNotations.
From Verif Require Import Base Shapes Scalar Buffers Spec Contraction Node Eval Types Diff_math.

(** Variables, constants, and derivatives of variables. *)
Definition leaf {F} (m : node F) : Prop :=
  (exists i, m = Var i) \/ (exists i u, m = VarAdj i u) \/ exists v, m = Const v.

(** Buffers of this type have a derivative by scalars, given a largest number of axes: not vectors on
    the heap, nor arrays without axes. *)
Definition few_axes (most : nat) (k : sty) : Prop :=
  match k with
  | KS | KT => True
  | KV => False
  | KA s => 1 <= length s <= most
  end.

(** Operations that take the derivatives of their operands as they are. *)
Definition plain_rule {F} (m : node F) : Prop :=
  match m with
  | Un u _ => affine u
  | Power _ _ | Mul _ _ | Div _ _ | Contract _ _ _ => False
  | _ => True
  end.
