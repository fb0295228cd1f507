(** Exchanging operands.  Specification side; nothing here models code. *)
From Coq Require Import List.
From Verif Require Import Base Shapes Scalar Buffers Spec Contraction Node.

(** [reordered n n']: [n'] is [n] with the operands of some of its sums and products exchanged, at any
    depth. *)
Inductive reordered {F} : node F -> node F -> Prop :=
| re_same n : reordered n n
| re_const m m' t : reordered m m' -> reordered (ConstAdj m t) (ConstAdj m' t)
| re_un u m m' : reordered m m' -> reordered (Un u m) (Un u m')
| re_sum m m' : reordered m m' -> reordered (Sum m) (Sum m')
| re_power l l' r r' : reordered l l' -> reordered r r' -> reordered (Power l r) (Power l' r')
| re_sub l l' r r' : reordered l l' -> reordered r r' -> reordered (Sub l r) (Sub l' r')
| re_div l l' r r' : reordered l l' -> reordered r r' -> reordered (Div l r) (Div l' r')
| re_contract a l l' r r' : reordered l l' -> reordered r r' -> reordered (Contract a l r) (Contract a l' r')
| re_add l l' r r' : reordered l l' -> reordered r r' -> reordered (Add l r) (Add l' r')
| re_mul l l' r r' : reordered l l' -> reordered r r' -> reordered (Mul l r) (Mul l' r')
| re_add_swap l l' r r' : reordered l l' -> reordered r r' -> reordered (Add l r) (Add r' l')
| re_mul_swap l l' r r' : reordered l l' -> reordered r r' -> reordered (Mul l r) (Mul r' l').
