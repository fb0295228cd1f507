(** Model of [==] on buffers, specs, dual numbers and expressions: the derived [PartialEq] impls.
    They compare values of the same Rust type; at different types, where Rust has no [==], these
    functions are [false].  No proofs in this file. *)
From Coq Require Import List Arith Bool String.
Import ListNotations.
From Verif Require Import Base Shapes Scalar Buffers Spec Contraction Node Eval Dual Debug.

Section Equality.
Context {F : Type} {S : Scalar F}.

(** [==] of slices (std): the same length and equal entries.  Used by [Vec] and arrays (vecs.rs:18,
    arrays/buffer.rs:18). *)
Definition list_eqb {A} (eqb : A -> A -> bool) : list A -> list A -> bool := fix go l m :=
  match l, m with
  | [], [] => true
  | x :: l', y :: m' => eqb x y && go l' m'
  | _, _ => false
  end.

(** [==] of nested arrays (std; arrays/buffer.rs:18). *)
Fixpoint arr_eqb (a b : arr F) : bool :=
  match a, b with
  | AF x, AF y => feq x y
  | AN l, AN m => list_eqb arr_eqb l m
  | _, _ => false
  end.

(** [==] of buffers (std): scalars.rs:41, tuples.rs:15, vecs.rs:18, arrays/buffer.rs:18. *)
Definition value_eqb (v w : value F) : bool :=
  match v, w with
  | VScal x, VScal y => feq x y
  | VTup x y, VTup x' y' => feq x x' && feq y y'
  | VVec l, VVec m => list_eqb feq l m
  | VArr ds a, VArr es b => list_eqb Nat.eqb ds es && arr_eqb a b
  | _, _ => false
  end.

(** [==] of shapes, derived: shapes/compiled.rs:4,32,135-159 (unit structs, equal if of the same
    type), shapes/runtime.rs:5-6. *)
Definition shape_eqb (s t : shape) : bool :=
  match s, t with
  | St ds, St es | Dy ds, Dy es => list_eqb Nat.eqb ds es
  | _, _ => false
  end.

(** [==] of specs, derived, buffers/spec.rs:40-65: equal only in the same form. *)
Definition spec_eqb (s t : spec F) : bool :=
  match s, t with
  | Raw v, Raw w => value_eqb v w
  | Full t x, Full u y => shape_eqb (bty_shape t) (bty_shape u) && feq x y
  | Diagonal t x, Diagonal u y => shape_eqb (bty_shape t) (bty_shape u) && feq x y
  | _, _ => false
  end.

(** [==] of dual numbers of buffers, derived, dual.rs:29-36. *)
Definition dual_eqb (d e : dual (value F) (value F)) : bool :=
  value_eqb (d_value d) (d_value e) && value_eqb (d_adjoint d) (d_adjoint e).

(** The operator structs as types: two [Un u] are of the same type if they have the same struct
    (ops/mod.rs:5-6), so comparing the names stands for the type check. *)
Definition unop_eqb (u v : unop) : bool := String.eqb (un_name u) (un_name v).

(** [==] of expressions, derived: meta/variable.rs:40,115; meta/constant.rs:41,118;
    meta/cached.rs:11; ops/mod.rs:5; unary.rs:227; binary.rs:81,197,333,469,588;
    linalg/mod.rs:30. *)
Fixpoint node_eqb (n m : node F) : bool :=
  match n, m with
  | Var i, Var j => ident_eqb i j
  | VarAdj i t, VarAdj j u => ident_eqb i j && ident_eqb t u
  | Const v, Const w => value_eqb v w
  | ConstSpec s, ConstSpec t => spec_eqb s t
  | ConstAdj n' t, ConstAdj m' u => node_eqb n' m' && ident_eqb t u
  | Cached n' t, Cached m' u => node_eqb n' m' && ident_eqb t u
  | Un u n', Un v m' => unop_eqb u v && node_eqb n' m'
  | Sum n', Sum m' => node_eqb n' m'
  | Power l r, Power l' r' => node_eqb l l' && node_eqb r r'
  | Add l r, Add l' r' => node_eqb l l' && node_eqb r r'
  | Sub l r, Sub l' r' => node_eqb l l' && node_eqb r r'
  | Mul l r, Mul l' r' => node_eqb l l' && node_eqb r r'
  | Div l r, Div l' r' => node_eqb l l' && node_eqb r r'
  | Contract a l r, Contract b l' r' => Nat.eqb a b && node_eqb l l' && node_eqb r r'
  | _, _ => false
  end.
End Equality.
