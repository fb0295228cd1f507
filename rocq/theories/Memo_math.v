(** Which caches an evaluation fills.  Specification side; nothing here models code. *)
From Coq Require Import List Bool.
From Verif Require Import Base Shapes Scalar Buffers Spec Node.

(** [B]: the identifiers that have a value before; [filled sh n B]: those that have one after [n] was
    evaluated from left to right.  A cache that has a value is not entered.  The shape query ([sh]) does
    not enter sums and powers, whose shape is known; the operand of the adjoint of a constant is only
    asked for its shape. *)
Fixpoint filled {F} (sh : bool) (n : node F) (B : ident -> bool) : ident -> bool :=
  match n with
  | Var _ | VarAdj _ _ | Const _ | ConstSpec _ => B
  | ConstAdj m _ => filled true m B
  | Cached m k => if B k then B else fun j => ident_eqb k j || filled false m B j
  | Un _ m => filled sh m B
  | Sum m => if sh then B else filled false m B
  | Power l r => if sh then B else filled false r (filled false l B)
  | Add l r | Sub l r | Mul l r | Div l r | Contract _ l r => filled sh r (filled sh l B)
  end.

(** [m] stands in [n] under a cache with the key [k]. *)
Fixpoint stores {F} (m : node F) (k : ident) (n : node F) : Prop :=
  match n with
  | Var _ | VarAdj _ _ | Const _ | ConstSpec _ => False
  | Cached l k' => (l = m /\ k' = k) \/ stores m k l
  | ConstAdj l _ | Un _ l | Sum l => stores m k l
  | Power l r | Add l r | Sub l r | Mul l r | Div l r | Contract _ l r => stores m k l \/ stores m k r
  end.

(** The identifiers that have a value, and contexts with more of them. *)
Definition has {F} (c : ident -> option F) (j : ident) : bool := match c j with Some _ => true | None => false end.
Definition extends {F} (c d : ident -> option F) : Prop := forall j x, c j = Some x -> d j = Some x.

(** No cache stands under a cache with the same key. *)
Fixpoint keys_apart {F} (n : node F) : Prop :=
  match n with
  | Var _ | VarAdj _ _ | Const _ | ConstSpec _ => True
  | Cached m k => (forall l, ~ stores l k m) /\ keys_apart m
  | ConstAdj m _ | Un _ m | Sum m => keys_apart m
  | Power l r | Add l r | Sub l r | Mul l r | Div l r | Contract _ l r => keys_apart l /\ keys_apart r
  end.
