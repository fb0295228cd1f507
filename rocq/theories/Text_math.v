(** How rendered text is read: the usual grammar of formulas, with the value of each phrase.
    Specification side; nothing here models code. *)
From Coq Require Import List Arith Bool String Ascii Reals.
Import ListNotations.
From Verif Require Import Base Shapes Scalar Buffers Spec Contraction Node Eval Instances Real_math Fmt Fmt_math.
Local Open Scope string_scope.

(** Decimal numbers: digits, at most one point. *)
Definition point (a : ascii) : bool := Ascii.eqb a "."%char.
Definition digit_value (a : ascii) : R := INR (nat_of_ascii a - 48).
Fixpoint all_digits (s : string) : bool :=
  match s with EmptyString => true | String a s' => digit a && all_digits s' end.
Fixpoint digits_point (s : string) : bool :=
  match s with
  | EmptyString => true
  | String a s' => if point a then all_digits s' else digit a && digits_point s'
  end.
(** Such a number, starting with a digit. *)
Definition is_number (s : string) : bool :=
  match s with EmptyString => false | String a _ => digit a && digits_point s end.
Fixpoint fraction (unit : R) (s : string) : R :=
  match s with
  | EmptyString => 0
  | String a s' => digit_value a * unit + fraction (unit / 10) s'
  end%R.
Fixpoint decimal_from (x : R) (s : string) : R :=
  match s with
  | EmptyString => x
  | String a s' => if point a then x + fraction (1 / 10) s' else decimal_from (10 * x + digit_value a) s'
  end%R.
Definition decimal : string -> R := decimal_from 0%R.

(** The named functions. *)
Definition functions : list (string * unop) :=
  [("δ", Dirac); ("sgn", Sign); ("ln", Ln); ("σ", Sigmoid); ("Γ", Gamma); ("ψ", DiGamma); ("lnΓ", LogGamma);
   ("erf", Erf); ("cos", Cos); ("cosh", Cosh); ("acos", ArcCos); ("acosh", ArcCosh); ("sin", Sin);
   ("sinh", Sinh); ("asin", ArcSin); ("asinh", ArcSinh); ("tan", Tan); ("tanh", Tanh); ("atan", ArcTan);
   ("atanh", ArcTanh)].

Section Reading.
Variables (inf : R) (sp : libfn -> R -> R) (rho : string -> R).

(** [sum_reads x s]: [s] is a formula with value [x], where [rho] gives the values of the names.
    Powers bind tighter than signs, signs tighter than products and quotients, these tighter than
    sums and differences; powers group to the right, the other operators to the left. *)
Inductive sum_reads : R -> string -> Prop :=
| sum_one x s : product_reads x s -> sum_reads x s
| sum_plus x s y t : sum_reads x s -> product_reads y t -> sum_reads (x + y) (s ++ " + " ++ t)
| sum_minus x s y t : sum_reads x s -> product_reads y t -> sum_reads (x - y) (s ++ " - " ++ t)
with product_reads : R -> string -> Prop :=
| product_one x s : signed_reads x s -> product_reads x s
| product_times o x s y t : In o [" ∘ "; " ⊗ "; " : "] ->
    product_reads x s -> signed_reads y t -> product_reads (x * y) (s ++ o ++ t)
| product_over o x s y t : In o [" / "; "/"] ->
    product_reads x s -> signed_reads y t -> product_reads (x / y) (s ++ o ++ t)
with signed_reads : R -> string -> Prop :=
| signed_power x s : power_reads x s -> signed_reads x s
| signed_minus x s : signed_reads x s -> signed_reads (- x) ("-" ++ s)
with power_reads : R -> string -> Prop :=
| power_atom x s : atom_reads x s -> power_reads x s
| power_raised x s y t : atom_reads x s -> signed_reads y t -> power_reads (R_pow x y) (s ++ "^" ++ t)
with atom_reads : R -> string -> Prop :=
| atom_name s : is_name s = true -> atom_reads (rho s) s
| atom_number s : is_number s = true -> atom_reads (decimal s) s
| atom_e : atom_reads (exp 1) "𝑒"
| atom_group x s : sum_reads x s -> atom_reads x ("(" ++ s ++ ")")
| atom_call f u x s : In (f, u) functions -> sum_reads x s ->
    atom_reads (real_un inf sp u x) (f ++ "(" ++ s ++ ")")
| atom_abs x s : sum_reads x s -> atom_reads (Rabs x) ("|" ++ s ++ "|")
| atom_inner x s y t : sum_reads x s -> sum_reads y t ->
    atom_reads (x * y) ("⟨" ++ s ++ ", " ++ t ++ "⟩").

(** Texts that need no brackets as the base, or as the exponent or divisor. *)
Definition an_atom (s : string) : Prop := exists x, atom_reads x s.
Definition a_signed (s : string) : Prop := exists x, signed_reads x s.

(** Trees rendered as formulas that mean what the tree means.  Left out:
    - [AddOne], [ArcSin] and [Sinh] where the text is that of another function;
    - operators at a pole, written with infinity, and functions of a [Zero], written as nothing;
    - bases of powers that are not atoms, and exponents and divisors with a product sign. *)
Variables (sym : ident -> string) (show : R -> string).
Fixpoint readable (n : node R) : Prop :=
  match n with
  | Var _ | VarAdj _ _ | ConstAdj _ _ | ConstSpec _ => True
  | Const (VScal x) => signed_reads x (show x)
  | Const _ => True
  | Cached m _ | Sum m => readable m
  | Un u m => readable m /\
      match u, to_expr sym show m with
      | (AddOne | ArcSin), Some (XText _) => False
      | Sinh, Some XOne => False
      | (Ln | Gamma | DiGamma | LogGamma | ArcCosh), Some XZero => False
      | ArcTanh, Some XOne => False
      | (Dirac | Sign), Some XZero => False
      | Exp, Some (XText p) => a_signed (safe p)
      | _, _ => True
      end
  | Power l r => readable l /\ readable r /\
      match to_expr sym show l, to_expr sym show r with
      | Some (XText p), Some (XText q) => an_atom (safe p) /\ a_signed (safe q)
      | _, _ => True
      end
  | Div l r => readable l /\ readable r /\
      match to_expr sym show l, to_expr sym show r with
      | Some (XOne | XText _), Some (XText q) => a_signed (safe q)
      | Some (XOne | XText _), Some XZero => False
      | _, _ => True
      end
  | Add l r | Sub l r | Mul l r | Contract _ l r => readable l /\ readable r
  end.

(** [Display] writes nothing for a [Zero] (fmt.rs:46-54); no part of the text is missing. *)
Fixpoint no_blank (n : node R) : Prop :=
  match n with
  | Contract 2 l r => no_blank l /\ no_blank r
  | ConstAdj _ _ => True
  | _ => to_expr sym show n <> Some XZero
  end.
End Reading.
