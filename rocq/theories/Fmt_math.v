(** Vocabulary for rendering and error messages.  Specification side; nothing here models code. *)
From Coq Require Import List Arith Bool String Ascii Reals.
Import ListNotations.
From Verif Require Import Base Shapes Scalar Buffers Spec Contraction Node Eval Fmt.

(** An error wrapped in a sequence of [Left] (true) and [Right] (false), outermost first. *)
Fixpoint nested (path : list bool) (e : err) : err :=
  match path with
  | [] => e
  | true :: p => ELeft (nested p e)
  | false :: p => ERight (nested p e)
  end.

(** The innermost error. *)
Fixpoint root_cause (e : err) : ident + incompat :=
  match e with
  | Undefined i => inl i
  | ELeft e' | ERight e' => root_cause e'
  | EOutput x => inr x
  end.

(** Trees and contexts with scalars only. *)
Fixpoint scalar_tree {F} (n : node F) : Prop :=
  match n with
  | Var _ | VarAdj _ _ => True
  | Const v => bty_of v = TS
  | ConstSpec s => spec_bty s = TS
  | ConstAdj m _ | Cached m _ | Un _ m | Sum m => scalar_tree m
  | Power l r | Add l r | Sub l r | Mul l r | Div l r | Contract _ l r =>
      scalar_tree l /\ scalar_tree r
  end.
Definition scalar_ctx {F} (c : ctx F) : Prop := forall i v, c i = Some v -> bty_of v = TS.

(** No [Erf] of an operand rendered as [Zero] or [One], no [DiGamma] of one rendered as [One]. *)
Section Sound.
Context {F : Type}.
Variable sym : ident -> string.
Variable show : F -> string.
Fixpoint no_wrong_constant (n : node F) : Prop :=
  match n with
  | Var _ | VarAdj _ _ | Const _ | ConstSpec _ | ConstAdj _ _ => True
  | Un u m => no_wrong_constant m /\
      match u with
      | Erf => to_expr sym show m <> Some XZero /\ to_expr sym show m <> Some XOne
      | DiGamma => to_expr sym show m <> Some XOne
      | _ => True
      end
  | Cached m _ | Sum m => no_wrong_constant m
  | Power l r | Add l r | Sub l r | Mul l r | Div l r | Contract _ l r =>
      no_wrong_constant l /\ no_wrong_constant r
  end.

(** Operators with value zero at one. *)
Definition zero_at_one (u : unop) : bool :=
  match u with SubOne | OneSub | Ln | XLnX | Rabbit | LogGamma | ArcCos | ArcCosh => true | _ => false end.
(** Where an operand of dimensions [dims] rendered as [One] enters an operator that makes a zero or a
    scalar one of it, it is a scalar (or subtracted from itself). *)
Fixpoint ones_scalar (dims : node F -> list nat) (n : node F) : Prop :=
  let one m := to_expr sym show m = Some XOne in
  match n with
  | Var _ | VarAdj _ _ | Const _ | ConstSpec _ | ConstAdj _ _ => True
  | Un u m => ones_scalar dims m /\ (zero_at_one u = true -> one m -> dims m = [])
  | Cached m _ | Sum m => ones_scalar dims m
  | Power l r | Add l r | Mul l r | Div l r | Contract 0 l r => ones_scalar dims l /\ ones_scalar dims r
  | Sub l r => ones_scalar dims l /\ ones_scalar dims r /\ (one l -> one r -> l = r \/ dims l = [] /\ dims r = [])
  | Contract (S _) l r => ones_scalar dims l /\ ones_scalar dims r /\ (one l -> one r -> dims l = [] /\ dims r = [])
  end.
End Sound.

(** Bytes that may occur in the symbol of an identifier: letters, digits, underscore, and bytes of
    non-ASCII characters other than the lead bytes of the signs used by the renderer
    (U+2000..U+2FFF and the mathematical letters). *)
Definition name_byte (a : ascii) : bool :=
  let n := nat_of_ascii a in
  ((48 <=? n) && (n <=? 57)) || ((65 <=? n) && (n <=? 90)) || (n =? 95) ||
  ((97 <=? n) && (n <=? 122)) || ((128 <=? n) && negb (n =? 226) && negb (n =? 240)).
Definition digit (a : ascii) : bool :=
  let n := nat_of_ascii a in (48 <=? n) && (n <=? 57).
Fixpoint all_name (s : string) : bool :=
  match s with EmptyString => true | String a s' => name_byte a && all_name s' end.
(** Symbols: not empty, only such bytes, not starting with a digit. *)
Definition is_name (s : string) : bool :=
  match s with EmptyString => false | String a _ => negb (digit a) && all_name s end.

(** Trees over variables whose text is unambiguous: no [AddOne], [Rabbit], [XLnX], [ArcSin] (their
    text is that of another operator), and no [Power], [Negate], [Double] or [Exp] as the base of a
    [Power] (brackets are missing). *)
Definition open_right {F} (n : node F) : bool :=
  match n with Power _ _ | Un Negate _ | Un Double _ | Un Exp _ => true | _ => false end.
Fixpoint clear {F} (n : node F) : bool :=
  match n with
  | Var _ => true
  | VarAdj _ _ | Const _ | ConstSpec _ | ConstAdj _ _ | Cached _ _ | Sum _ => false
  | Un u m =>
      clear m && match u with AddOne | Rabbit | XLnX | ArcSin => false | _ => true end
  | Power l r => clear l && clear r && negb (open_right l)
  | Add l r | Sub l r | Mul l r | Div l r => clear l && clear r
  | Contract axes l r => (axes <=? 2) && clear l && clear r
  end.
(** As above, with sums and double contractions of such trees on the outside (sums below other
    operators have no text). *)
Fixpoint shown {F} (n : node F) : bool :=
  match n with
  | Sum m => shown m
  | Contract 2 l r => shown l && shown r
  | _ => clear n
  end.
