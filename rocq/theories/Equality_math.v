(** Vocabulary for [==] on expressions (property C91).  Specification side; nothing here models
    code. *)
From Coq Require Import ZArith SpecFloat.
From Verif Require Import Base Shapes Scalar Buffers Spec Node Instances Generic_math.

(** [==] of the scalar type holds. *)
Definition equal {F} {S : Scalar F} (x y : F) : Prop := feq x y = true.

(** The same number but for the sign of zero. *)
Definition up_to_zero (x y : f64) : Prop :=
  x = y \/ exists s t, x = S754_zero s /\ y = S754_zero t.

(** Operations in which the sign of a zero makes no other difference than the sign of a zero: no
    division, powers, signs or library functions. *)
Definition sign_blind (k : kind) : Prop :=
  match k with
  | KUn SubOne | KUn OneSub | KUn AddOne | KUn Double | KUn Negate | KUn Abs | KUn Rabbit => True
  | _ => False
  end.
(** Expressions that use only such. *)
Definition uses {F} (may : kind -> Prop) (n : node F) : Prop := node_rel eq may n n.
