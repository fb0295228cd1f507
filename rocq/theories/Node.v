(** Expression trees, [Contains] and [Differentiable] (symbolic part).  No proofs. *)
From Coq Require Import List Arith Bool.
Import ListNotations.
From Verif Require Import Base Shapes Scalar Buffers Spec.

(** Expression nodes.  [Var]: meta/variable.rs:41; [VarAdj]: variable.rs:116-122;
    [Const]: meta/constant.rs:42 with a buffer, [ConstSpec] with a [Spec] (same struct, other
    type argument); [ConstAdj]: constant.rs:119-126; [Cached]: meta/cached.rs:12-15;
    [Un u]: the structs of ops/mod.rs:6; [Sum]: unary.rs:228; [Power], [Add], [Sub], [Mul],
    [Div]: binary.rs:82,198,334,470,589; [Contract axes]: linalg/mod.rs:31. *)
Inductive node (F : Type) : Type :=
| Var (i : ident)
| VarAdj (i t : ident)
| Const (v : value F)
| ConstSpec (s : spec F)
| ConstAdj (n : node F) (t : ident)
| Cached (n : node F) (k : ident)
| Un (u : unop) (n : node F)
| Sum (n : node F)
| Power (b e : node F)
| Add (l r : node F)
| Sub (l r : node F)
| Mul (l r : node F)
| Div (l r : node F)
| Contract (axes : nat) (l r : node F).
Arguments Var {F}. Arguments VarAdj {F}. Arguments Const {F}. Arguments ConstSpec {F}.
Arguments ConstAdj {F}. Arguments Cached {F}. Arguments Un {F}. Arguments Sum {F}.
Arguments Power {F}. Arguments Add {F}. Arguments Sub {F}. Arguments Mul {F}.
Arguments Div {F}. Arguments Contract {F}.

(** [Contains::contains]: variable.rs:50 and 132; constant.rs:52 and 135; cached.rs:25-27;
    for operators, the derive macro aegir_derive/src/ops.rs:124-154 joins the [#[op]] fields
    with [||]. *)
Fixpoint contains {F} (n : node F) (t : ident) : bool :=
  match n with
  | Var i => ident_eqb i t
  | VarAdj i u => ident_eqb i t || ident_eqb u t
  | Const _ => false
  | ConstSpec _ => false
  | ConstAdj m u => contains m t || ident_eqb u t
  | Cached m c => ident_eqb t c || contains m t
  | Un _ m => contains m t
  | Sum m => contains m t
  | Power l r | Add l r | Sub l r | Mul l r | Div l r | Contract _ l r =>
      contains l t || contains r t
  end.

(** Chain rule of one unary operator given the node and its adjoint; [None] where /repo has no
    [Differentiable] impl.  unary.rs:43-51 (SubOne), 80-88 (OneSub), 120-128 (AddOne),
    158-168 (Square), 200-208 (Double), 308-316 (Negate), 373-383 (Sign), 412-422 (Abs);
    logarithmic.rs:40-48 (Ln), 83-93 (XLnX), 125-133 (Exp); sigmoid.rs:31-41 (Rabbit),
    91-101 (Sigmoid); special.rs:36-46 (Gamma), 86-96 (LogGamma); trig.rs:28-38 (Cos),
    116-126 (Sin).  Dirac, DiGamma, Erf and the other trigonometric operators have none. *)
Definition un_adjoint {F} (u : unop) (m m' : node F) : option (node F) :=
  match u with
  | SubOne => Some m'
  | OneSub => Some (Un Negate m')
  | AddOne => Some m'
  | Square => Some (Mul (Un Double m) m')
  | Double => Some (Un Double m')
  | Negate => Some (Un Negate m')
  | Sign => Some (Mul (Un Dirac m) m')
  | Abs => Some (Mul (Un Sign m) m')
  | Ln => Some (Div m' m)
  | XLnX => Some (Mul m' (Un AddOne (Un Ln m)))
  | Exp => Some (Mul (Un Exp m) m')
  | Rabbit => Some (Mul (Un OneSub (Un Double m)) m')
  | Sigmoid => Some (Mul m' (Un Rabbit (Un Sigmoid m)))
  | Gamma => Some (Mul (Mul m' (Un DiGamma m)) (Un Gamma m))
  | LogGamma => Some (Mul m' (Un DiGamma m))
  | Cos => Some (Un Negate (Mul m' (Un Sin m)))
  | Sin => Some (Mul m' (Un Cos m))
  | Dirac | DiGamma | Erf | Cosh | ArcCos | ArcCosh | Sinh | ArcSin | ArcSinh
  | Tan | Tanh | ArcTan | ArcTanh => None
  end.

(** [Option] sequencing used to express "both operands are Differentiable", e.g. the
    bounds of ops/arithmetic/binary.rs:257-261. *)
Definition obind {A B} (o : option A) (f : A -> option B) : option B :=
  match o with Some a => f a | None => None end.

(** [Differentiable::adjoint]: variable.rs:87-92 (Variable), 226-233 (VariableAdjoint);
    constant.rs:77-90 (Constant over a buffer; [Spec] constants and ConstantAdjoint have no
    impl); cached.rs:54-67 (only for the cache's own identifier); unary as above;
    unary.rs:263-271 (Sum); binary.rs:132-150 (Power), 257-271 (Add), 389-403 (Sub),
    543-560 (Mul), 626-642 (Div); linalg/mod.rs:72-86 (Contract). *)
Fixpoint adjoint {F} (n : node F) (t : ident) : option (node F) :=
  match n with
  | Var i => Some (VarAdj i t)
  | VarAdj i u => Some (ConstAdj (VarAdj i u) t)
  | Const v => Some (ConstAdj (Const v) t)
  | ConstSpec _ => None
  | ConstAdj _ _ => None
  | Cached m c => if ident_eqb c t then adjoint m t else None
  | Un u m => obind (adjoint m t) (fun m' => un_adjoint u m m')
  | Sum m => adjoint m t
  | Power b e =>
      obind (adjoint b t) (fun b' => obind (adjoint e t) (fun e' =>
      Some (Mul (Power b (Un SubOne e)) (Add (Mul e b') (Mul (Un XLnX b) e')))))
  | Add l r =>
      obind (adjoint l t) (fun l' => obind (adjoint r t) (fun r' => Some (Add l' r')))
  | Sub l r =>
      obind (adjoint l t) (fun l' => obind (adjoint r t) (fun r' => Some (Sub l' r')))
  | Mul l r =>
      obind (adjoint l t) (fun l' => obind (adjoint r t) (fun r' =>
      Some (Add (Mul l' r) (Mul r' l))))
  | Div l r =>
      obind (adjoint l t) (fun l' => obind (adjoint r t) (fun r' =>
      Some (Div (Sub (Mul r l') (Mul l r')) (Un Square r))))
  | Contract axes l r =>
      obind (adjoint l t) (fun l' => obind (adjoint r t) (fun r' =>
      Some (Add (Contract axes l r') (Contract axes l' r))))
  end.

(** [Factorial::factorial], special.rs:114. *)
Definition factorial {F} (n : node F) : node F := Un Gamma (Un AddOne n).
(** [Erf::complement] / [Erfc::erfc], special.rs:165,173. *)
Definition erfc {F} (n : node F) : node F := Un OneSub (Un Erf n).
