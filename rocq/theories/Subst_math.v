(** Replacing a variable by an expression.  Specification side; nothing here models code. *)
From Coq Require Import List.
From Verif Require Import Base Shapes Scalar Buffers Spec Node.

(** [n] with the expression [m] for the variable [i]. *)
Fixpoint replaced {F} (i : ident) (m n : node F) : node F :=
  match n with
  | Var j => if ident_eqb j i then m else Var j
  | VarAdj _ _ | Const _ | ConstSpec _ => n
  | ConstAdj l t => ConstAdj (replaced i m l) t
  | Cached l k => Cached (replaced i m l) k
  | Un u l => Un u (replaced i m l)
  | Sum l => Sum (replaced i m l)
  | Power l r => Power (replaced i m l) (replaced i m r)
  | Add l r => Add (replaced i m l) (replaced i m r)
  | Sub l r => Sub (replaced i m l) (replaced i m r)
  | Mul l r => Mul (replaced i m l) (replaced i m r)
  | Div l r => Div (replaced i m l) (replaced i m r)
  | Contract a l r => Contract a (replaced i m l) (replaced i m r)
  end.

(** The identifier is used as a variable only, not in an adjoint and not as the key of a cache. *)
Fixpoint only_variable {F} (i : ident) (n : node F) : Prop :=
  match n with
  | Var _ | Const _ | ConstSpec _ => True
  | VarAdj j t => j <> i /\ t <> i
  | ConstAdj l t => t <> i /\ only_variable i l
  | Cached l k => k <> i /\ only_variable i l
  | Un _ l | Sum l => only_variable i l
  | Power l r | Add l r | Sub l r | Mul l r | Div l r | Contract _ l r => only_variable i l /\ only_variable i r
  end.
