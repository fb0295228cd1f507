(** Vocabulary for [Debug] output (properties C89 and C90).  Specification side; nothing here models
    code. *)
From Coq Require Import List Arith Bool String Ascii.
Import ListNotations.
From Verif Require Import Base Shapes Scalar Buffers Spec Contraction Node Eval Fmt_math.
Local Open Scope string_scope.

(** A word: not empty, and without brackets, commas and spaces. *)
Definition bare (c : ascii) : bool :=
  negb (Ascii.eqb c "(" || Ascii.eqb c ")" || Ascii.eqb c "[" || Ascii.eqb c "]" ||
        Ascii.eqb c "," || Ascii.eqb c " ").
Fixpoint all_bare (s : string) : bool :=
  match s with EmptyString => true | String c s' => bare c && all_bare s' end.
Definition word (s : string) : Prop := s <> "" /\ all_bare s = true.

(** What there is to see of a buffer: a pair, or nested lists (a scalar is a list of depth zero). *)
Definition contents {F} (v : value F) : F * F + arr F :=
  match v with
  | VScal x => inr (AF x)
  | VTup x y => inl (x, y)
  | VVec l => inr (AN (map AF l))
  | VArr _ a => inr a
  end.

Section Reads.
Context {F : Type}.
Variable show : F -> string.

(** The same nested lists, with entries of the same text. *)
Inductive arr_reads : arr F -> arr F -> Prop :=
| ar_entry x y : show x = show y -> arr_reads (AF x) (AF y)
| ar_rows l m : Forall2 arr_reads l m -> arr_reads (AN l) (AN m).
Definition value_reads (v w : value F) : Prop :=
  match contents v, contents w with
  | inl (x, y), inl (x', y') => show x = show x' /\ show y = show y'
  | inr a, inr b => arr_reads a b
  | _, _ => False
  end.

(** The same tree: the same nodes with the same identifiers, and constants that read the same. *)
Inductive reads_as : node F -> node F -> Prop :=
| rd_var i : reads_as (Var i) (Var i)
| rd_varadj i t : reads_as (VarAdj i t) (VarAdj i t)
| rd_const v w : value_reads v w -> reads_as (Const v) (Const w)
| rd_constadj n m t : reads_as n m -> reads_as (ConstAdj n t) (ConstAdj m t)
| rd_cached n m k : reads_as n m -> reads_as (Cached n k) (Cached m k)
| rd_un u n m : reads_as n m -> reads_as (Un u n) (Un u m)
| rd_sum n m : reads_as n m -> reads_as (Sum n) (Sum m)
| rd_power l r l' r' : reads_as l l' -> reads_as r r' -> reads_as (Power l r) (Power l' r')
| rd_add l r l' r' : reads_as l l' -> reads_as r r' -> reads_as (Add l r) (Add l' r')
| rd_sub l r l' r' : reads_as l l' -> reads_as r r' -> reads_as (Sub l r) (Sub l' r')
| rd_mul l r l' r' : reads_as l l' -> reads_as r r' -> reads_as (Mul l r) (Mul l' r')
| rd_div l r l' r' : reads_as l l' -> reads_as r r' -> reads_as (Div l r) (Div l' r')
| rd_contract a l r l' r' : reads_as l l' -> reads_as r r' -> reads_as (Contract a l r) (Contract a l' r').
End Reads.

(** Whether a tree has constants of buffers; of specs. *)
Fixpoint has_constants {F} (n : node F) : bool :=
  match n with
  | Var _ | VarAdj _ _ => false
  | Const _ | ConstSpec _ => true
  | ConstAdj m _ | Cached m _ | Un _ m | Sum m => has_constants m
  | Power l r | Add l r | Sub l r | Mul l r | Div l r | Contract _ l r =>
      has_constants l || has_constants r
  end.
Fixpoint has_specs {F} (n : node F) : bool :=
  match n with
  | Var _ | VarAdj _ _ | Const _ => false
  | ConstSpec _ => true
  | ConstAdj m _ | Cached m _ | Un _ m | Sum m => has_specs m
  | Power l r | Add l r | Sub l r | Mul l r | Div l r | Contract _ l r => has_specs l || has_specs r
  end.

(** Buffers of the same Rust type: the length of a [Vec] is not part of it. *)
Definition same_buffer (s t : bty) : Prop :=
  match s, t with
  | TS, TS | TT, TT | TV _, TV _ => True
  | TA ds, TA es => ds = es
  | _, _ => False
  end.
(** Expressions of the same Rust type. *)
Inductive same_type {F} : node F -> node F -> Prop :=
| st_var i : same_type (Var i) (Var i)
| st_varadj i t : same_type (VarAdj i t) (VarAdj i t)
| st_const v w : same_buffer (bty_of v) (bty_of w) -> same_type (Const v) (Const w)
| st_constspec s t : same_buffer (spec_bty s) (spec_bty t) -> same_type (ConstSpec s) (ConstSpec t)
| st_constadj n m t : same_type n m -> same_type (ConstAdj n t) (ConstAdj m t)
| st_cached n m k : same_type n m -> same_type (Cached n k) (Cached m k)
| st_un u n m : same_type n m -> same_type (Un u n) (Un u m)
| st_sum n m : same_type n m -> same_type (Sum n) (Sum m)
| st_power l r l' r' : same_type l l' -> same_type r r' -> same_type (Power l r) (Power l' r')
| st_add l r l' r' : same_type l l' -> same_type r r' -> same_type (Add l r) (Add l' r')
| st_sub l r l' r' : same_type l l' -> same_type r r' -> same_type (Sub l r) (Sub l' r')
| st_mul l r l' r' : same_type l l' -> same_type r r' -> same_type (Mul l r) (Mul l' r')
| st_div l r l' r' : same_type l l' -> same_type r r' -> same_type (Div l r) (Div l' r')
| st_contract a l r l' r' : same_type l l' -> same_type r r' -> same_type (Contract a l r) (Contract a l' r').

(** Shapes and causes of errors that read the same: of fixed shapes only the rank is seen. *)
Definition shape_reads (s t : shape) : Prop :=
  match s, t with
  | St ds, St es => List.length ds = List.length es
  | Dy ds, Dy es => ds = es
  | _, _ => False
  end.
Definition cause_reads (c d : ident + incompat) : Prop :=
  match c, d with
  | inl i, inl j => i = j
  | inr x, inr y => shape_reads (inc_left x) (inc_left y) /\ shape_reads (inc_right x) (inc_right y)
  | _, _ => False
  end.
(** The sides taken from the outermost error to the innermost. *)
Fixpoint err_path (e : err) : list bool :=
  match e with
  | Undefined _ | EOutput _ => []
  | ELeft e' => true :: err_path e'
  | ERight e' => false :: err_path e'
  end.
