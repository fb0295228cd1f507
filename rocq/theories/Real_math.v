(** Meaning of the unary operators over the reals, written without looking at the code.
    Specification side; nothing here models code. *)
From Coq Require Import Reals.
From Verif Require Import Scalar Instances.
Local Open Scope R_scope.

(** [inf] stands for infinity, [sp] for the special functions. *)
Definition real_un (inf : R) (sp : libfn -> R -> R) (u : unop) (x : R) : R :=
  match u with
  | SubOne => x - 1
  | OneSub => 1 - x
  | AddOne => x + 1
  | Square => x * x
  | Double => x + x
  | Negate => - x
  | Dirac => if Req_EM_T x 0 then inf else 0
  | Sign => if Rlt_dec x 0 then -1 else if Rlt_dec 0 x then 1 else 0
  | Abs => Rmax x (- x)
  | Ln => ln x
  | XLnX => if Rlt_dec 0 x then x * ln x else 0
  | Exp => exp x
  | Rabbit => x - x * x
  | Sigmoid => / (1 + exp (- x))
  | Gamma => sp Lgamma x
  | DiGamma => sp Ldigamma x
  | LogGamma => sp Lloggamma x
  | Erf => sp Lerf x
  | Cos => cos x
  | Cosh => (exp x + exp (- x)) / 2
  | ArcCos => acos x
  | ArcCosh => ln (x + sqrt (x * x - 1))
  | Sin => sin x
  | Sinh => (exp x - exp (- x)) / 2
  | ArcSin => asin x
  | ArcSinh => ln (x + sqrt (x * x + 1))
  | Tan => sin x / cos x
  | Tanh => (exp x - exp (- x)) / (exp x + exp (- x))
  | ArcTan => atan x
  | ArcTanh => (ln ((1 + x) / (1 - x))) / 2
  end.

(** Real scalars with another exponential. *)
Definition with_exp (inf : R) (sp : libfn -> R -> R) (g : R -> R) : Scalar R := {|
  fzero := 0; fone := 1; finf := inf;
  fadd := Rplus; fsub := Rminus; fmul := Rmult; fdiv := Rdiv; fpow := R_pow;
  fneg := Ropp; fabs := Rabs; fsignum := R_sign;
  flib := fun l => match l with Lexp => g | _ => R_lib sp l end;
  feq := R_eqb; fle := R_leb;
  fof_usize := fun n => Some (INR n)
|}.
