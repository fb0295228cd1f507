(** Expressions that are printed with the same text (property C88). *)
From Coq Require Import List Arith Bool.
From Verif Require Import Base Shapes Scalar Buffers Spec Contraction Node.

(** Trees over variables, and such trees with sums and double contractions on the outside. *)
Fixpoint over_variables {F} (n : node F) : bool :=
  match n with
  | Var _ => true
  | VarAdj _ _ | Const _ | ConstSpec _ | ConstAdj _ _ | Cached _ _ | Sum _ => false
  | Un _ m => over_variables m
  | Power l r | Add l r | Sub l r | Mul l r | Div l r => over_variables l && over_variables r
  | Contract axes l r => (axes <=? 2) && over_variables l && over_variables r
  end.
Fixpoint sums_over_variables {F} (n : node F) : bool :=
  match n with
  | Sum m => sums_over_variables m
  | Contract 2 l r => sums_over_variables l && sums_over_variables r
  | _ => over_variables n
  end.

(** The operators that are printed as others: [x + 1] as [1 - x], [asin] as [acos], [x ln x] and
    [x (1 - x)] as the products they are; and what lacks brackets: powers of powers, of negations, of
    doubles and of exponentials. *)
Inductive printed_as {F} : node F -> node F -> Prop :=
  | as_add_one m : printed_as (Un AddOne m) (Un OneSub m)
  | as_arcsin m : printed_as (Un ArcSin m) (Un ArcCos m)
  | as_xlnx m : printed_as (Un XLnX m) (Mul m (Un Ln m))
  | as_rabbit m : printed_as (Un Rabbit m) (Mul m (Un OneSub m))
  | as_power x y z : printed_as (Power (Power x y) z) (Power x (Power y z))
  | as_negated x z : printed_as (Power (Un Negate x) z) (Un Negate (Power x z))
  | as_doubled x z : printed_as (Power (Un Double x) z) (Un Double (Power x z))
  | as_exp x z : printed_as (Power (Un Exp x) z) (Un Exp (Power x z)).

(** Equal up to these. *)
Inductive alike {F} : node F -> node F -> Prop :=
  | al_as n m : printed_as n m -> alike n m
  | al_refl n : alike n n
  | al_sym n m : alike n m -> alike m n
  | al_trans n m k : alike n m -> alike m k -> alike n k
  | al_un u n m : alike n m -> alike (Un u n) (Un u m)
  | al_sum n m : alike n m -> alike (Sum n) (Sum m)
  | al_power n m n' m' : alike n n' -> alike m m' -> alike (Power n m) (Power n' m')
  | al_add n m n' m' : alike n n' -> alike m m' -> alike (Add n m) (Add n' m')
  | al_sub n m n' m' : alike n n' -> alike m m' -> alike (Sub n m) (Sub n' m')
  | al_mul n m n' m' : alike n n' -> alike m m' -> alike (Mul n m) (Mul n' m')
  | al_div n m n' m' : alike n n' -> alike m m' -> alike (Div n m) (Div n' m')
  | al_contract a n m n' m' : alike n n' -> alike m m' -> alike (Contract a n m) (Contract a n' m').
