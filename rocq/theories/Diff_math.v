(** When an expression can be differentiated.  Specification side; nothing here models code. *)
From Coq Require Import List.
Import ListNotations.
From Verif Require Import Base Shapes Scalar Buffers Spec Contraction Node Eval Types.

(** [part m n]: [m] is [n] or one of the expressions it is built from. *)
Inductive part {F} (m : node F) : node F -> Prop :=
| part_self : part m m
| part_const n t : part m n -> part m (ConstAdj n t)
| part_cached n k : part m n -> part m (Cached n k)
| part_un u n : part m n -> part m (Un u n)
| part_sum n : part m n -> part m (Sum n)
| part_power_l l r : part m l -> part m (Power l r)
| part_power_r l r : part m r -> part m (Power l r)
| part_add_l l r : part m l -> part m (Add l r)
| part_add_r l r : part m r -> part m (Add l r)
| part_sub_l l r : part m l -> part m (Sub l r)
| part_sub_r l r : part m r -> part m (Sub l r)
| part_mul_l l r : part m l -> part m (Mul l r)
| part_mul_r l r : part m r -> part m (Mul l r)
| part_div_l l r : part m l -> part m (Div l r)
| part_div_r l r : part m r -> part m (Div l r)
| part_contract_l a l r : part m l -> part m (Contract a l r)
| part_contract_r a l r : part m r -> part m (Contract a l r).

(** Operators without a derivative. *)
Definition no_derivative : list unop :=
  [Dirac; DiGamma; Erf; Cosh; ArcCos; ArcCosh; Sinh; ArcSin; ArcSinh; Tan; Tanh; ArcTan; ArcTanh].

(** The outermost operation admits a derivative by [t]. *)
Definition admits {F} (t : ident) (n : node F) : Prop :=
  match n with
  | ConstSpec _ | ConstAdj _ _ => False
  | Cached _ k => k = t
  | Un u _ => ~ In u no_derivative
  | _ => True
  end.

(** The outermost operation can be differentiated twice. *)
Definition admits_twice {F} (n : node F) : Prop :=
  match n with
  | VarAdj _ _ | Const _ | ConstSpec _ | ConstAdj _ _ | Cached _ _ => False
  | Un u _ => ~ In u (Sign :: Gamma :: LogGamma :: no_derivative)
  | _ => True
  end.

(** Types of scalars and arrays, by dimensions. *)
Definition array_type (ds : list nat) : sty := match ds with [] => KS | _ => KA ds end.

(** Variables and constants are scalars and arrays. *)
Definition array_types {F} (G : tenv) (n : node F) : Prop :=
  (forall i k, G i = Some k -> exists ds, k = array_type ds) /\
  forall v, part (Const v) n -> exists ds, sty_of (bty_of v) = array_type ds.

(** Operators with the same derivative everywhere. *)
Definition affine (u : unop) : Prop := In u [SubOne; OneSub; AddOne; Double; Negate].

(** The outermost operation has a gradient that type-checks, for a target with dimensions [T]: leaves
    must have few enough dimensions; if the target is an array, products, quotients and functions
    that are not affine need scalars, sums and differences equal dimensions, and of the contractions
    only dot products of vectors and outer products with a scalar are left. *)
Definition gradient_types {F} (G : tenv) (T : list nat) (n : node F) : Prop :=
  match n with
  | Var i => forall s, G i = Some (array_type s) -> length s <= 3 /\ length s + length T <= 5
  | VarAdj _ _ | Const _ => forall s, typeof G n = Some (array_type s) -> length s + length T <= 5
  | Un u m => T = [] \/ affine u \/ typeof G m = Some KS
  | Add l r | Sub l r => T = [] \/ typeof G l = typeof G r
  | Mul l r | Div l r => T = [] \/ typeof G l = Some KS /\ typeof G r = Some KS
  | Contract O l r =>
      T = [] \/
      length T <= 2 /\ typeof G l = Some KS /\ typeof G r = Some KS \/
      (exists d n, T = [d] /\ typeof G l = Some (KA [n]) /\ typeof G r = Some KS) \/
      exists d, T = [d] /\ typeof G l = Some KS /\ typeof G r = Some (KA [d])
  | Contract _ l r =>
      T = [] \/
      exists d n, T = [d] /\ typeof G l = Some (KA [n]) /\ typeof G r = Some (KA [n])
  | _ => True
  end.

(** The outermost operation has a second gradient that type-checks, first by an array of dimensions
    [T] and then by one of dimensions [U]. *)
Definition gradient_twice {F} (G : tenv) (T U : list nat) (n : node F) : Prop :=
  match n with
  | Var i => forall s, G i = Some (array_type s) -> length s <= 3 /\ length s + length T + length U <= 5
  | Cached _ _ | Sum _ => True
  | Un u _ => affine u
  | Add l r | Sub l r => typeof G l = typeof G r
  | Contract O l r => exists d, T = [d] /\ U = [d] /\ typeof G l = Some KS /\ typeof G r = Some KS
  | _ => False
  end.
