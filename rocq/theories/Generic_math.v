(** Two scalar types side by side: buffers, expressions and outcomes that differ only in the scalars
    they hold.  Specification side; nothing here models code. *)
From Coq Require Import List Arith Bool.
Import ListNotations.
From Verif Require Import Base Shapes Scalar Buffers Spec Node Eval Dual.

(** The operations of an expression that not every scalar type need support. *)
Inductive kind := KUn (u : unop) | KPow | KDiv.

Section Generic.
Context {A B : Type} {SA : Scalar A} {SB : Scalar B}.
Variable P : A -> B -> Prop.
Variable may : kind -> Prop.

(** Optional results, and results, of the same kind and with related contents. *)
Definition opt_rel {X Y} (R : X -> Y -> Prop) (x : option X) (y : option Y) : Prop :=
  match x, y with Some a, Some b => R a b | None, None => True | _, _ => False end.
Definition res_rel {E X Y} (R : X -> Y -> Prop) (x : res E X) (y : res E Y) : Prop :=
  match x, y with
  | Ok a, Ok b => R a b
  | Err e, Err f => e = f
  | Panic, Panic | Stuck, Stuck => True
  | _, _ => False
  end.

(** Buffers of the same kind and size with related entries. *)
Inductive arr_rel : arr A -> arr B -> Prop :=
| arel_entry x y : P x y -> arr_rel (AF x) (AF y)
| arel_rows l m : Forall2 arr_rel l m -> arr_rel (AN l) (AN m).
Inductive value_rel : value A -> value B -> Prop :=
| vrel_scalar x y : P x y -> value_rel (VScal x) (VScal y)
| vrel_pair x y x' y' : P x x' -> P y y' -> value_rel (VTup x y) (VTup x' y')
| vrel_vec l m : Forall2 P l m -> value_rel (VVec l) (VVec m)
| vrel_array ds a b : arr_rel a b -> value_rel (VArr ds a) (VArr ds b).
Inductive spec_rel : spec A -> spec B -> Prop :=
| srel_raw v w : value_rel v w -> spec_rel (Raw v) (Raw w)
| srel_full t x y : P x y -> spec_rel (Full t x) (Full t y)
| srel_diagonal t x y : P x y -> spec_rel (Diagonal t x) (Diagonal t y).

(** The same expression with related constants, using only the operations in [may]. *)
Inductive node_rel : node A -> node B -> Prop :=
| nrel_var i : node_rel (Var i) (Var i)
| nrel_varadj i t : node_rel (VarAdj i t) (VarAdj i t)
| nrel_const v w : value_rel v w -> node_rel (Const v) (Const w)
| nrel_spec s r : spec_rel s r -> node_rel (ConstSpec s) (ConstSpec r)
| nrel_constadj m n t : node_rel m n -> node_rel (ConstAdj m t) (ConstAdj n t)
| nrel_cached m n k : node_rel m n -> node_rel (Cached m k) (Cached n k)
| nrel_un u m n : may (KUn u) -> node_rel m n -> node_rel (Un u m) (Un u n)
| nrel_sum m n : node_rel m n -> node_rel (Sum m) (Sum n)
| nrel_power l r l' r' : may KPow -> node_rel l l' -> node_rel r r' -> node_rel (Power l r) (Power l' r')
| nrel_add l r l' r' : node_rel l l' -> node_rel r r' -> node_rel (Add l r) (Add l' r')
| nrel_sub l r l' r' : node_rel l l' -> node_rel r r' -> node_rel (Sub l r) (Sub l' r')
| nrel_mul l r l' r' : node_rel l l' -> node_rel r r' -> node_rel (Mul l r) (Mul l' r')
| nrel_div l r l' r' : may KDiv -> node_rel l l' -> node_rel r r' -> node_rel (Div l r) (Div l' r')
| nrel_contract k l r l' r' : node_rel l l' -> node_rel r r' -> node_rel (Contract k l r) (Contract k l' r').

(** Contexts that define the same identifiers, with related values. *)
Definition ctx_rel (c : ctx A) (d : ctx B) : Prop := forall i, opt_rel value_rel (c i) (d i).

(** Runs that leave related contexts and give related results. *)
Definition run_rel {E X Y} (R : X -> Y -> Prop) (p : ctx A * res E X) (q : ctx B * res E Y) : Prop :=
  ctx_rel (fst p) (fst q) /\ res_rel R (snd p) (snd q).

(** Values with their derivatives, both related. *)
Definition pair_rel (p : dual (value A) (value A)) (q : dual (value B) (value B)) : Prop :=
  value_rel (d_value p) (d_value q) /\ value_rel (d_adjoint p) (d_adjoint q).

(** Sums, products, constants and equality tests respect the relation, and so do the operations in
    [may]. *)
Record respected : Prop := {
  rs_zero : P fzero fzero;
  rs_one : P fone fone;
  rs_add : forall x x' y y', P x x' -> P y y' -> P (fadd x y) (fadd x' y');
  rs_sub : forall x x' y y', P x x' -> P y y' -> P (fsub x y) (fsub x' y');
  rs_mul : forall x x' y y', P x x' -> P y y' -> P (fmul x y) (fmul x' y');
  rs_eq : forall x x' y y', P x x' -> P y y' -> feq x y = feq x' y';
  rs_usize : forall n, opt_rel P (fof_usize n) (fof_usize n);
  rs_div : may KDiv -> forall x x' y y', P x x' -> P y y' -> P (fdiv x y) (fdiv x' y');
  rs_pow : may KPow -> forall x x' y y', P x x' -> P y y' -> P (fpow x y) (fpow x' y');
  rs_un : forall u, may (KUn u) -> forall x x', P x x' -> P (un_fn u x) (un_fn u x')
}.

(** Every operation of the scalar types takes related arguments to related results, and comparisons
    agree. *)
Record all_respected : Prop := {
  ra_zero : P fzero fzero;
  ra_one : P fone fone;
  ra_inf : P finf finf;
  ra_add : forall x x' y y', P x x' -> P y y' -> P (fadd x y) (fadd x' y');
  ra_sub : forall x x' y y', P x x' -> P y y' -> P (fsub x y) (fsub x' y');
  ra_mul : forall x x' y y', P x x' -> P y y' -> P (fmul x y) (fmul x' y');
  ra_div : forall x x' y y', P x x' -> P y y' -> P (fdiv x y) (fdiv x' y');
  ra_pow : forall x x' y y', P x x' -> P y y' -> P (fpow x y) (fpow x' y');
  ra_neg : forall x x', P x x' -> P (fneg x) (fneg x');
  ra_abs : forall x x', P x x' -> P (fabs x) (fabs x');
  ra_signum : forall x x', P x x' -> P (fsignum x) (fsignum x');
  ra_lib : forall f x x', P x x' -> P (flib f x) (flib f x');
  ra_eq : forall x x' y y', P x x' -> P y y' -> feq x y = feq x' y';
  ra_le : forall x x' y y', P x x' -> P y y' -> fle x y = fle x' y';
  ra_usize : forall n, opt_rel P (fof_usize n) (fof_usize n)
}.

End Generic.

(** All operations. *)
Definition any (k : kind) : Prop := True.

(** The scalars of a buffer, an expression and a context all lie in [Q]. *)
Definition within {A} (Q : A -> Prop) (x y : A) : Prop := x = y /\ Q x.
Definition scalars_in {A} (Q : A -> Prop) (v : value A) : Prop := value_rel (within Q) v v.
Definition constants_in {A} (Q : A -> Prop) (n : node A) : Prop := node_rel (within Q) any n n.
Definition context_in {A} (Q : A -> Prop) (c : ctx A) : Prop := forall i v, c i = Some v -> scalars_in Q v.

Section Closed.
Context {A : Type} {S : Scalar A}.
Variable Q : A -> Prop.

(** Every operation stays in [Q]. *)
Record closed : Prop := {
  cl_zero : Q fzero;
  cl_one : Q fone;
  cl_inf : Q finf;
  cl_add : forall x y, Q x -> Q y -> Q (fadd x y);
  cl_sub : forall x y, Q x -> Q y -> Q (fsub x y);
  cl_mul : forall x y, Q x -> Q y -> Q (fmul x y);
  cl_div : forall x y, Q x -> Q y -> Q (fdiv x y);
  cl_pow : forall x y, Q x -> Q y -> Q (fpow x y);
  cl_neg : forall x, Q x -> Q (fneg x);
  cl_abs : forall x, Q x -> Q (fabs x);
  cl_signum : forall x, Q x -> Q (fsignum x);
  cl_lib : forall f x, Q x -> Q (flib f x);
  cl_usize : forall n x, fof_usize n = Some x -> Q x
}.

End Closed.

(** Operations that integers share with the reals: no division, no powers but squares, no library
    functions. *)
Definition integral (k : kind) : Prop :=
  match k with
  | KUn SubOne | KUn OneSub | KUn AddOne | KUn Double | KUn Square | KUn Negate | KUn Abs | KUn Rabbit => True
  | _ => False
  end.
