(** Model of the [Debug] output of expressions, buffers, shapes, errors, specs and dual numbers: the
    derived impls and the two written by hand.  [name] is the [Debug] text of an identifier (the name
    of its struct, aegir_derive/src/ids.rs:21-22), [show] that of a scalar.  The layout [Name(a, b)],
    [Name { f: a }], [(a, b)] and [[a, b]] is that of [#[derive(Debug)]] and std.  Only the compact
    form [{:?}] is modelled, not [{:#?}].  No proofs in this file. *)
From Coq Require Import List Arith Bool String.
Import ListNotations.
From Verif Require Import Base Shapes Scalar Buffers Spec Contraction Node Eval Dual Fmt.
Local Open Scope string_scope.

(** Texts separated by [", "], as std's [debug_list] and [debug_tuple] do (used for the derived impls
    at arithmetic/binary.rs:81 and for arrays, arrays/buffer.rs:18). *)
Fixpoint commas (l : list string) : string :=
  match l with
  | [] => ""
  | [s] => s
  | s :: l' => s ++ ", " ++ commas l'
  end.

(** [Name(a, b)]: a derived impl on a tuple struct or tuple variant, e.g. arithmetic/binary.rs:197. *)
Definition debug_tuple (name : string) (fields : list string) : string :=
  name ++ "(" ++ commas fields ++ ")".
(** [Name { f: a, g: b }]: a derived impl on a struct with two named fields, e.g.
    meta/variable.rs:115-122. *)
Definition debug_struct (name f a g b : string) : string :=
  name ++ " { " ++ f ++ ": " ++ a ++ ", " ++ g ++ ": " ++ b ++ " }".

Section Debug.
Context {F : Type}.
Variable name : ident -> string.
Variable show : F -> string.

(** [Debug] of nested arrays (std), the buffers of arrays/buffer.rs:18. *)
Fixpoint arr_debug (a : arr F) : string :=
  match a with
  | AF x => show x
  | AN l => "[" ++ commas (map arr_debug l) ++ "]"
  end.

(** [Debug] of buffers (std): scalars.rs:41, tuples.rs:15, vecs.rs:18, arrays/buffer.rs:18. *)
Definition value_debug (v : value F) : string :=
  match v with
  | VScal x => show x
  | VTup x y => "(" ++ show x ++ ", " ++ show y ++ ")"
  | VVec l => "[" ++ commas (map show l) ++ "]"
  | VArr _ a => arr_debug a
  end.

(** Struct names passed to [impl_unary!], which derives [Debug] (ops/mod.rs:5-6): unary.rs:26,66,103,
    144,183,291,332,361,398; logarithmic.rs:23,67,108; sigmoid.rs:18,71; special.rs:19,50,69,136;
    trig.rs:11,42,61,80,99,130,149,168,187,206,225,244. *)
Definition un_name (u : unop) : string :=
  match u with
  | SubOne => "SubOne" | OneSub => "OneSub" | AddOne => "AddOne" | Square => "Square"
  | Double => "Double" | Negate => "Negate" | Dirac => "Dirac" | Sign => "Sign" | Abs => "Abs"
  | Ln => "Ln" | XLnX => "XLnX" | Exp => "Exp" | Rabbit => "Rabbit" | Sigmoid => "Sigmoid"
  | Gamma => "Gamma" | DiGamma => "DiGamma" | LogGamma => "LogGamma" | Erf => "Erf"
  | Cos => "Cos" | Cosh => "Cosh" | ArcCos => "ArcCos" | ArcCosh => "ArcCosh"
  | Sin => "Sin" | Sinh => "Sinh" | ArcSin => "ArcSin" | ArcSinh => "ArcSinh"
  | Tan => "Tan" | Tanh => "Tanh" | ArcTan => "ArcTan" | ArcTanh => "ArcTanh"
  end.

(** [Debug] of the two operands of a binary operator, arithmetic/binary.rs:81,197,333,469,588. *)
Definition debug_pair (nm : string) (l r : option string) : option string :=
  match l, r with Some a, Some b => Some (debug_tuple nm [a; b]) | _, _ => None end.

(** [Debug] of expressions; [None] where the type has no [Debug] impl.  meta/variable.rs:40,115-122;
    meta/constant.rs:93-100 (a constant prints its buffer; a [Constant<Spec<_>>] is not a constant of
    a [Buffer] and has no impl), 118-125; meta/cached.rs:11-15; ops/mod.rs:5; unary.rs:227;
    binary.rs:81,197,333,469,588; linalg/mod.rs:88-99. *)
Fixpoint node_debug (n : node F) : option string :=
  match n with
  | Var i => Some (debug_tuple "Variable" [name i])
  | VarAdj i t => Some (debug_struct "VariableAdjoint" "value" (name i) "target" (name t))
  | Const v => Some (value_debug v)
  | ConstSpec _ => None
  | ConstAdj m t =>
      match node_debug m with
      | Some s => Some (debug_struct "ConstantAdjoint" "node" s "target" (name t))
      | None => None
      end
  | Cached m k =>
      match node_debug m with
      | Some s => Some (debug_struct "Cached" "node" s "ident" (name k))
      | None => None
      end
  | Un u m => match node_debug m with Some s => Some (debug_tuple (un_name u) [s]) | None => None end
  | Sum m => match node_debug m with Some s => Some (debug_tuple "Sum" [s]) | None => None end
  | Power l r => debug_pair "Power" (node_debug l) (node_debug r)
  | Add l r => debug_pair "Add" (node_debug l) (node_debug r)
  | Sub l r => debug_pair "Sub" (node_debug l) (node_debug r)
  | Mul l r => debug_pair "Mul" (node_debug l) (node_debug r)
  | Div l r => debug_pair "Div" (node_debug l) (node_debug r)
  | Contract axes l r =>
      debug_pair ("Contract<" ++ show_nat axes ++ ">") (node_debug l) (node_debug r)
  end.

(** [Debug] of shapes, derived: shapes/compiled.rs:4,32,135,141,147,153,159 (unit structs: the name
    without the dimensions), shapes/runtime.rs:5-6. *)
Definition shape_debug (s : shape) : string :=
  match s with
  | St ds => "S" ++ show_nat (List.length ds)
  | Dy ds => debug_tuple "SDynamic" ["[" ++ commas (map show_nat ds) ++ "]"]
  end.

(** [Debug for IncompatibleShapes], derived, shapes/mod.rs:6-13. *)
Definition incompat_debug (e : incompat) : string :=
  debug_struct "IncompatibleShapes" "left" (shape_debug (inc_left e)) "right" (shape_debug (inc_right e)).

(** [Debug] of evaluation errors, derived: meta/mod.rs:42-46, errors.rs:63-73. *)
Fixpoint err_debug (e : err) : string :=
  match e with
  | Undefined i => debug_tuple "Undefined" [name i]
  | ELeft e' => debug_tuple "Left" [err_debug e']
  | ERight e' => debug_tuple "Right" [err_debug e']
  | EOutput x => debug_tuple "Output" [incompat_debug x]
  end.

(** [Debug for Spec], derived, buffers/spec.rs:40-65. *)
Definition spec_debug (s : spec F) : string :=
  match s with
  | Raw v => debug_tuple "Raw" [value_debug v]
  | Full t x => debug_tuple "Full" [shape_debug (bty_shape t); show x]
  | Diagonal t x => debug_tuple "Diagonal" [shape_debug (bty_shape t); show x]
  end.

(** [Debug for Dual], derived, dual.rs:29-36, for two buffers. *)
Definition dual_debug (d : dual (value F) (value F)) : string :=
  debug_struct "Dual" "value" (value_debug (d_value d)) "adjoint" (value_debug (d_adjoint d)).
End Debug.
