(** Renaming identifiers.  Specification side; nothing here models code. *)
From Coq Require Import List.
From Verif Require Import Base Shapes Scalar Buffers Spec Node Eval.

(** [n] with [f i] for every identifier [i]. *)
Fixpoint renamed {F} (f : ident -> ident) (n : node F) : node F :=
  match n with
  | Var i => Var (f i)
  | VarAdj i t => VarAdj (f i) (f t)
  | Const v => Const v
  | ConstSpec s => ConstSpec s
  | ConstAdj m t => ConstAdj (renamed f m) (f t)
  | Cached m k => Cached (renamed f m) (f k)
  | Un u m => Un u (renamed f m)
  | Sum m => Sum (renamed f m)
  | Power l r => Power (renamed f l) (renamed f r)
  | Add l r => Add (renamed f l) (renamed f r)
  | Sub l r => Sub (renamed f l) (renamed f r)
  | Mul l r => Mul (renamed f l) (renamed f r)
  | Div l r => Div (renamed f l) (renamed f r)
  | Contract a l r => Contract a (renamed f l) (renamed f r)
  end.

(** The same for the identifier an error reports. *)
Fixpoint renamed_err (f : ident -> ident) (e : err) : err :=
  match e with
  | Undefined i => Undefined (f i)
  | ELeft e => ELeft (renamed_err f e)
  | ERight e => ERight (renamed_err f e)
  | EOutput x => EOutput x
  end.

Definition injective (f : ident -> ident) : Prop := forall i j, f i = f j -> i = j.

(** [c'] holds under the new names what [c] holds under the old ones. *)
Definition same_under {A} (f : ident -> ident) (c c' : ident -> A) : Prop := forall i, c' (f i) = c i.

(** What becomes of [c'] and the result: that of [p] under the new names; identifiers that are not new
    names keep what [c'] holds. *)
Definition same_outcome {F A} (f : ident -> ident) (c' : ctx F) (p p' : ctx F * res err A) : Prop :=
  same_under f (fst p) (fst p') /\
  (forall j, (forall i, f i <> j) -> fst p' j = c' j) /\
  snd p' = res_map_err (renamed_err f) (snd p).
