(** Model of aegir/src/fmt.rs, the [ToExpr] and [Display] impls of all nodes, and the [Display]
    impls of errors (errors.rs, meta/mod.rs, buffers/shapes).  Text is a string of UTF-8 bytes,
    as in Rust.  No proofs in this file. *)
From Coq Require Import List Arith Bool String Ascii DecimalString.
Import ListNotations.
From Verif Require Import Base Shapes Scalar Buffers Spec Contraction Node Eval.
Local Open Scope string_scope.

(** [struct PreWrap], fmt.rs:9-15. *)
Record prewrap : Type := PW { pw_text : string; pw_wrap : bool }.

(** [PreWrap::to_safe_string('(', ')')], fmt.rs:19-25; every caller passes these two brackets. *)
Definition safe (p : prewrap) : string :=
  if pw_wrap p then "(" ++ pw_text p ++ ")" else pw_text p.

(** [enum Expr], fmt.rs:35-44. *)
Inductive expr : Type := XZero | XOne | XText (p : prewrap).

(** [Display for Expr], fmt.rs:46-54: [Zero] prints nothing. *)
Definition expr_display (e : expr) : string :=
  match e with XZero => "" | XOne => "1" | XText p => pw_text p end.

(** [Text(PreWrap { text, needs_wrap: false })], e.g. arithmetic/unary.rs:30-33. *)
Definition plain (s : string) : expr := XText (PW s false).
(** [Text(PreWrap { text, needs_wrap: true })], e.g. arithmetic/unary.rs:35-38. *)
Definition wrap (s : string) : expr := XText (PW s true).

(** The [match self.0.to_expr()] of a unary node, e.g. arithmetic/unary.rs:29-39. *)
Definition on_expr (e z o : expr) (t : prewrap -> expr) : expr :=
  match e with XZero => z | XOne => o | XText p => t p end.

(** A unary operator written [name(..)], e.g. trig.rs:20-23. *)
Definition call (name : string) (p : prewrap) : expr := plain (name ++ "(" ++ pw_text p ++ ")").

(** [to_expr] of the unary operators: arithmetic/unary.rs:26-41 (SubOne), 66-78 (OneSub), 103-118
    (AddOne), 144-156 (Square), 183-198 (Double), 291-306 (Negate), 337-345 (Dirac), 363-371
    (Sign), 398-410 (Abs); logarithmic.rs:23-38 (Ln), 69-81 (XLnX), 108-123 (Exp); sigmoid.rs:18-29
    (Rabbit), 71-89 (Sigmoid); special.rs:19-34 (Gamma), 50-65 (DiGamma), 69-84 (LogGamma), 136-147
    (Erf); trig.rs:11-26 (Cos), 42-57 (Cosh), 61-76 (ArcCos), 80-95 (ArcCosh), 99-114 (Sin),
    130-145 (Sinh), 149-164 (ArcSin), 168-183 (ArcSinh), 187-202 (Tan), 206-221 (Tanh), 225-240
    (ArcTan), 244-259 (ArcTanh). *)
Definition un_expr (u : unop) (e : expr) : expr :=
  match u with
  | SubOne => on_expr e (plain "-1") XZero (fun p => wrap (safe p ++ " - 1"))
  | OneSub => on_expr e XOne XZero (fun p => wrap ("1 - " ++ safe p))
  | AddOne => on_expr e XOne (wrap "2") (fun p => wrap ("1 - " ++ safe p))
  | Square => on_expr e XZero XOne (fun p => plain ("(" ++ safe p ++ ")^2"))
  | Double => on_expr e XZero (plain "2") (fun p => plain ("2 ∘ " ++ safe p))
  | Negate => on_expr e XZero (plain "-1") (fun p => plain ("-" ++ safe p))
  | Dirac => plain ("δ(" ++ expr_display e ++ ")")
  | Sign => plain ("sgn(" ++ expr_display e ++ ")")
  | Abs => on_expr e XZero XOne (fun p => plain ("|" ++ pw_text p ++ "|"))
  | Ln => on_expr e (plain "-∞") XZero (call "ln")
  | XLnX => on_expr e XZero XZero (fun p => wrap (safe p ++ " ∘ ln(" ++ pw_text p ++ ")"))
  | Exp => on_expr e XOne (plain "𝑒") (fun p => plain ("𝑒^" ++ safe p))
  | Rabbit => on_expr e XZero XZero (fun p => wrap (safe p ++ " ∘ (1 - " ++ safe p ++ ")"))
  | Sigmoid => on_expr e (plain "½") (plain "σ(1)") (call "σ")
  | Gamma => on_expr e (plain "∞") XOne (call "Γ")
  | DiGamma => on_expr e (plain "∞") XOne (call "ψ")
  | LogGamma => on_expr e (plain "∞") XZero (call "lnΓ")
  | Erf => on_expr e XOne XOne (call "erf")
  | Cos => on_expr e XOne (plain "cos(1)") (call "cos")
  | Cosh => on_expr e XOne (plain "cosh(1)") (call "cosh")
  | ArcCos => on_expr e (plain "π/2") XZero (call "acos")
  | ArcCosh => on_expr e (plain "𝑖π/2") XZero (call "acosh")
  | Sin => on_expr e XZero (plain "sin(1)") (call "sin")
  | Sinh => on_expr e XZero (plain "sin(1)") (call "sinh")
  | ArcSin => on_expr e XZero (plain "π/2") (call "acos")
  | ArcSinh => on_expr e XZero (plain "asinh(1)") (call "asinh")
  | Tan => on_expr e XZero (plain "tan(1)") (call "tan")
  | Tanh => on_expr e XZero (plain "tanh(1)") (call "tanh")
  | ArcTan => on_expr e XZero (plain "π/4") (call "atan")
  | ArcTanh => on_expr e XZero (plain "∞") (call "atanh")
  end.

(** [ToExpr for Power], arithmetic/binary.rs:152-167. *)
Definition power_expr (l r : expr) : expr :=
  match l, r with
  | XZero, _ => XZero
  | _, XZero => XOne
  | XOne, _ => XOne
  | l, XOne => l
  | XText l, XText r => plain (safe l ++ "^" ++ safe r)
  end.

(** [ToExpr for Add], binary.rs:273-303. *)
Definition add_expr (l r : expr) : expr :=
  match l, r with
  | XZero, XZero => XZero
  | XZero, XOne | XOne, XZero => XOne
  | XOne, XOne => plain "2"
  | XText l, XZero => XText l
  | XZero, XText r => XText r
  | XText l, XOne => wrap (safe l ++ " + 1")
  | XOne, XText r => wrap ("1 + " ++ safe r)
  | XText l, XText r => wrap (safe l ++ " + " ++ safe r)
  end.

(** [ToExpr for Sub], binary.rs:405-439. *)
Definition sub_expr (l r : expr) : expr :=
  match l, r with
  | XZero, XZero => XZero
  | XOne, XOne => XZero
  | XOne, XZero => XOne
  | XZero, XOne => plain "-1"
  | XText l, XZero => XText l
  | XZero, XText r => plain ("-" ++ safe r)
  | XText l, XOne => wrap (safe l ++ " - 1")
  | XOne, XText r => wrap ("1 - " ++ safe r)
  | XText l, XText r => wrap (safe l ++ " - " ++ safe r)
  end.

(** The common part of the products: [ToExpr for Mul] (binary.rs:562-579) and [Contract]
    (linalg/mod.rs:104-121,146-163,174-191); [t] is the arm for two texts. *)
Definition prod_expr (t : prewrap -> prewrap -> expr) (l r : expr) : expr :=
  match l, r with
  | _, XZero | XZero, _ => XZero
  | XOne, XOne => XOne
  | l, XOne => l
  | XOne, r => r
  | XText l, XText r => t l r
  end.

(** The last arm of Mul, binary.rs:573-576. *)
Definition mul_text (l r : prewrap) : expr := wrap (safe l ++ " ∘ " ++ safe r).
(** The last arm for [Contract<0>], linalg/mod.rs:115-118. *)
Definition outer_text (l r : prewrap) : expr := wrap (safe l ++ " ⊗ " ++ safe r).
(** The last arm for [Contract<1>], linalg/mod.rs:157-160. *)
Definition dot_text (l r : prewrap) : expr := plain ("⟨" ++ safe l ++ ", " ++ safe r ++ "⟩").
(** The last arm for [Contract<2>], linalg/mod.rs:185-188. *)
Definition ddot_text (l r : prewrap) : expr := wrap (safe l ++ " : " ++ safe r).

(** [ToExpr for Div], binary.rs:644-668. *)
Definition div_expr (l r : expr) : expr :=
  match l, r with
  | XZero, _ => XZero
  | l, XOne => l
  | _, XZero => plain "∞"
  | XOne, XText r => wrap ("1 / " ++ safe r)
  | XText l, XText r => wrap (safe l ++ " / " ++ safe r)
  end.

(** Text of an index or dimension, [Display for usize] (std), used at
    shapes/compiled.rs:70. *)
Definition show_nat (n : nat) : string := NilEmpty.string_of_uint (Nat.to_uint n).

Section Nodes.
Context {F : Type}.
(** [Display] of identifiers (generated by ids.rs:33-46) and of scalars (std, not in /repo). *)
Variable sym : ident -> string.
Variable show : F -> string.

(** [ToExpr::to_expr]: meta/variable.rs:95-102 (Variable), 235-247 (VariableAdjoint); constant.rs:
    102-109 (Constant, for buffers with [ToString]: only scalars), 187-189 (ConstantAdjoint);
    operators as above.  [None]: no impl (Sum, Cached, other constants, [Contract<3>] and up). *)
Fixpoint to_expr (n : node F) : option expr :=
  match n with
  | Var i => Some (plain (sym i))
  | VarAdj i t => Some (if ident_eqb i t then XOne else XZero)
  | Const (VScal x) => Some (plain (show x))
  | Const _ => None
  | ConstSpec _ => None
  | ConstAdj _ _ => Some XZero
  | Cached _ _ => None
  | Un u m => option_map (un_expr u) (to_expr m)
  | Sum _ => None
  | Power l r => obind (to_expr l) (fun x => option_map (power_expr x) (to_expr r))
  | Add l r => obind (to_expr l) (fun x => option_map (add_expr x) (to_expr r))
  | Sub l r => obind (to_expr l) (fun x => option_map (sub_expr x) (to_expr r))
  | Mul l r => obind (to_expr l) (fun x => option_map (prod_expr mul_text x) (to_expr r))
  | Div l r => obind (to_expr l) (fun x => option_map (div_expr x) (to_expr r))
  | Contract 0 l r => obind (to_expr l) (fun x => option_map (prod_expr outer_text x) (to_expr r))
  | Contract 1 l r => obind (to_expr l) (fun x => option_map (prod_expr dot_text x) (to_expr r))
  | Contract 2 l r => obind (to_expr l) (fun x => option_map (prod_expr ddot_text x) (to_expr r))
  | Contract _ _ _ => None
  end.

(** [Display] of nodes: variable.rs:104-108,250-258; constant.rs:111-115,191-193; ops/mod.rs:51-57;
    unary.rs:273-277 (Sum); binary.rs:169-173,305-309,441-445,581-585,670-674; linalg/mod.rs:
    123-127,165-169,193-197. *)
Fixpoint display (n : node F) : option string :=
  match n with
  | Var i => Some (sym i)
  | ConstAdj _ _ => Some "0"
  | Sum m => option_map (fun s => "Σ_i (" ++ s ++ ")_i") (display m)
  | Contract 2 l r =>
      obind (display l) (fun x => option_map (fun y => "(" ++ x ++ ") : (" ++ y ++ ")") (display r))
  | _ => option_map expr_display (to_expr n)
  end.

End Nodes.

(** [Display for SourceError], meta/mod.rs:48-56; [dbg] is [Debug] of the identifier (the derived
    one, i.e. the name of the struct, ids.rs:22). *)
Definition source_display (dbg : ident -> string) (i : ident) : string :=
  "No variable found with identifier " ++ dbg i ++ ".".

(** The numbers of a list separated by [sep], used for both kinds of shape below:
    shapes/compiled.rs:74-84, shapes/runtime.rs:65-69. *)
Fixpoint show_list (sep : string) (l : list nat) : string :=
  match l with
  | [] => ""
  | [n] => show_nat n
  | n :: l' => show_nat n ++ sep ++ show_list sep l'
  end.

(** [Display] of shapes: shapes/compiled.rs:27-29 (S0), 69-71 (S1), 74-84,126-130 (S2..S5);
    shapes/runtime.rs:65-69 (SDynamic, with the std [Debug] of arrays). *)
Definition shape_display (s : shape) : string :=
  match s with
  | St [] => "S0"
  | St ds => show_list " × " ds
  | Dy ds => "SDynamic([" ++ show_list ", " ds ++ "])"
  end.

(** [Display for IncompatibleShapes], shapes/mod.rs:25-33. *)
Definition incompat_display (e : incompat) : string :=
  "Buffer shapes are incompatible: " ++ shape_display (inc_left e) ++ " vs " ++
  shape_display (inc_right e) ++ ".".

(** [enum UnaryError], errors.rs:28-34. *)
Inductive unary_error (I O : Type) : Type := UInner (e : I) | UOutput (e : O).
Arguments UInner {I O}. Arguments UOutput {I O}.
(** [Display for UnaryError], errors.rs:36-47. *)
Definition unary_display {I O} (di : I -> string) (d_o : O -> string) (e : unary_error I O) : string :=
  match e with UInner x => di x | UOutput x => d_o x end.

(** [enum BinaryError], errors.rs:64-73. *)
Inductive binary_error (L R O : Type) : Type := BLeft (e : L) | BRight (e : R) | BOutput (e : O).
Arguments BLeft {L R O}. Arguments BRight {L R O}. Arguments BOutput {L R O}.
(** [Display for BinaryError], errors.rs:75-89. *)
Definition binary_display {L R O} (dl : L -> string) (dr : R -> string) (d_o : O -> string)
           (e : binary_error L R O) : string :=
  match e with BLeft x => dl x | BRight x => dr x | BOutput x => d_o x end.

(** One layer of the merged error type of Eval.v as a [BinaryError] (errors.rs:64-73); [inl] is a
    [SourceError]. *)
Definition err_layer (e : err) : ident + binary_error err err incompat :=
  match e with
  | Undefined i => inl i
  | ELeft e => inr (BLeft e)
  | ERight e => inr (BRight e)
  | EOutput e => inr (BOutput e)
  end.

(** [Display] of evaluation errors: the impls above applied layer by layer (errors.rs:75-89,
    meta/mod.rs:48-56, shapes/mod.rs:25-33). *)
Fixpoint err_display (dbg : ident -> string) (e : err) : string :=
  match e with
  | Undefined i => source_display dbg i
  | ELeft e' => err_display dbg e'
  | ERight e' => err_display dbg e'
  | EOutput e' => incompat_display e'
  end.
