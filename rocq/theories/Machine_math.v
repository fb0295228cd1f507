(** Expressions over the integers: exact values and sizes.  Specification side; nothing here
    models code. *)
From Coq Require Import List Arith ZArith.
Import ListNotations.
From Verif Require Import Base Shapes Scalar Buffers Spec Contraction Node Eval Instances
  Vocab Math Float_math Machine.
Local Open Scope Z_scope.

(** Numbers of the integer type. *)
Definition in_range (signed : bool) (w z : Z) : Prop := int_min signed w <= z <= int_max signed w.

(** Expressions with additions, products and contractions, together with the nodes that stand for
    derivatives; with subtractions too if [minus], and with divisions if [over]. *)
Fixpoint integer_ops {F} (minus over : Prop) (n : node F) : Prop :=
  match n with
  | Var _ | VarAdj _ _ | Const _ => True
  | Un (AddOne | Square | Double) m | Sum m | ConstAdj m _ => integer_ops minus over m
  | Un (SubOne | OneSub | Negate | Rabbit) m => minus /\ integer_ops minus over m
  | Add l r | Mul l r | Contract _ l r => integer_ops minus over l /\ integer_ops minus over r
  | Sub l r => minus /\ integer_ops minus over l /\ integer_ops minus over r
  | Div l r => over /\ integer_ops minus over l /\ integer_ops minus over r
  | _ => False
  end.

(** The value in unbounded integers. *)
Definition exact_integer (c : ctx Z) (n : node Z) : tensor Z :=
  @den Z Z_scalar (@un_fn Z Z_scalar) c n.

(** The value in unbounded integers if every operation on the way, without short cuts, stays in the
    range of the type and no divisor is zero. *)
Definition checked_integer (signed : bool) (w : Z) (c : ctx Z) (n : node Z) : tensor (option Z) :=
  @den (option Z) (checked_int signed w) (@un_fn (option Z) (checked_int signed w))
    (ctx_through Some c) (node_through Some n).

(** Sizes: all signs made positive, and a product not smaller than its factors. *)
Definition size_mul (x y : Z) : Z := Z.max (x * y) (Z.max x y).
Definition size_int : Scalar Z := {|
  fzero := 0; fone := 1; finf := 0;
  fadd := Z.add; fsub := Z.add; fmul := size_mul; fdiv := Z.max; fpow := fun x _ => size_mul x x;
  fneg := fun x => x; fabs := fun x => x; fsignum := fun _ => 1;
  flib := fun _ x => x;
  feq := Z.eqb; fle := Z.leb;
  fof_usize := fun n => Some (Z.of_nat n)
|}.
Definition size_integer (c : ctx Z) (n : node Z) : tensor Z :=
  @den Z size_int (@un_fn Z size_int) (ctx_through Z.abs c) (node_through Z.abs n).

(** No dimension is zero. *)
Definition inhabited {A} (v : value A) : Prop := Forall (fun d => (0 < d)%nat) (dims (vshape v)).
Fixpoint constants_inhabited {A} (n : node A) : Prop :=
  match n with
  | Const v => inhabited v
  | Un _ m | Sum m | Cached m _ | ConstAdj m _ => constants_inhabited m
  | Power l r | Add l r | Sub l r | Mul l r | Div l r | Contract _ l r =>
      constants_inhabited l /\ constants_inhabited r
  | Var _ | VarAdj _ _ | ConstSpec _ => True
  end.

(** Every entry of every divisor. *)
Fixpoint divisors_all {E} {SE : Scalar E} (P : E -> Prop) (c : ctx E) (n : node E) : Prop :=
  match n with
  | Div l r => divisors_all P c l /\ divisors_all P c r /\
      forall ix, in_box (tdims (den un_fn c r)) ix -> P (tat (den un_fn c r) ix)
  | Un _ m | Sum m | Cached m _ => divisors_all P c m
  | Power l r | Add l r | Sub l r | Mul l r | Contract _ l r => divisors_all P c l /\ divisors_all P c r
  | Var _ | VarAdj _ _ | Const _ | ConstSpec _ | ConstAdj _ _ => True
  end.

(** The expression and all the operands whose values it needs. *)
Fixpoint operands {F} (n : node F) : list (node F) :=
  n :: match n with
       | Un _ m | Sum m | Cached m _ => operands m
       | Power l r | Add l r | Sub l r | Mul l r | Div l r | Contract _ l r => operands l ++ operands r
       | Var _ | VarAdj _ _ | Const _ | ConstSpec _ | ConstAdj _ _ => []
       end.
