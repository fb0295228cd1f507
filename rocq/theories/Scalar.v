(** Scalar fields and the scalar functions applied by the unary operators.  No proofs. *)
From Coq Require Import List Bool.

(** External numeric functions (num_traits [Real]/[Float], crate special_fun), called by the
    operators of ops/trig.rs:9-259, ops/logarithmic.rs:10-123, ops/sigmoid.rs:4-89 and
    ops/special.rs:5-174, which are not part of /repo.  They stay abstract: theorems quantify over them. *)
Inductive libfn : Type :=
| Lcos | Lcosh | Lacos | Lacosh | Lsin | Lsinh | Lasin | Lasinh
| Ltan | Ltanh | Latan | Latanh | Lln | Lexp
| Lgamma | Ldigamma | Lloggamma | Lerf.

(** [trait Scalar] (aegir/src/buffers/scalars.rs:36-39, i.e. num_traits [Num]) together with
    the optional bounds used by operators ([Pow], [Real], [Float], [FloatSpecial],
    [FromPrimitive], [Neg]).  Simplified: one record for all of them; a field that does not
    implement a bound simply never meets nodes that need it.  Overflow of integers is modelled by
    the instances in Machine.v. *)
Class Scalar (F : Type) : Type := {
  fzero : F; fone : F; finf : F;
  fadd : F -> F -> F; fsub : F -> F -> F; fmul : F -> F -> F; fdiv : F -> F -> F;
  fpow : F -> F -> F;
  fneg : F -> F; fabs : F -> F; fsignum : F -> F;
  flib : libfn -> F -> F;
  feq : F -> F -> bool; fle : F -> F -> bool;
  fof_usize : nat -> option F
}.

(** [num_traits::Zero::is_zero] (num_traits), e.g. binary.rs:233. *)
Definition is_zero {F} {S : Scalar F} (x : F) : bool := feq x fzero.

(** [F::one() + F::one()], aegir/src/ops/arithmetic/unary.rs:144,183. *)
Definition ftwo {F} {S : Scalar F} : F := fadd fone fone.

(** The unary operators defined with [impl_unary!] (aegir/src/ops/mod.rs:2-59). *)
Inductive unop : Type :=
| SubOne | OneSub | AddOne | Square | Double | Negate | Dirac | Sign | Abs
| Ln | XLnX | Exp
| Rabbit | Sigmoid
| Gamma | DiGamma | LogGamma | Erf
| Cos | Cosh | ArcCos | ArcCosh | Sin | Sinh | ArcSin | ArcSinh
| Tan | Tanh | ArcTan | ArcTanh.

(** [sigmoid], aegir/src/ops/sigmoid.rs:44-55. *)
Definition sigmoid {F} {S : Scalar F} (x : F) : F :=
  if fle fzero x then fdiv fone (fadd fone (flib Lexp (fneg x)))
  else let z := flib Lexp x in fdiv z (fadd fone z).

(** The closures passed to [impl_unary!]: unary.rs:26 (SubOne), 66 (OneSub), 103 (AddOne),
    144 (Square), 183 (Double), 291 (Negate), 332-337 (Dirac), 361-363 (Sign), 398 (Abs);
    logarithmic.rs:23 (Ln), 67-69 (XLnX), 108 (Exp); sigmoid.rs:18 (Rabbit), 71 (Sigmoid);
    special.rs:19,50,69,136; trig.rs:11,42,61,80,99,130,149,168,187,206,225,244. *)
Definition un_fn {F} {S : Scalar F} (u : unop) (x : F) : F :=
  match u with
  | SubOne => fsub x fone
  | OneSub => fsub fone x
  | AddOne => fadd x fone
  | Square => fpow x ftwo
  | Double => fmul ftwo x
  | Negate => fneg x
  | Dirac => if feq x fzero then finf else fzero
  | Sign => if is_zero x then x else fsignum x
  | Abs => fabs x
  | Ln => flib Lln x
  | XLnX => if fle x fzero then fzero else fmul x (flib Lln x)
  | Exp => flib Lexp x
  | Rabbit => fmul x (fsub fone x)
  | Sigmoid => sigmoid x
  | Gamma => flib Lgamma x
  | DiGamma => flib Ldigamma x
  | LogGamma => flib Lloggamma x
  | Erf => flib Lerf x
  | Cos => flib Lcos x
  | Cosh => flib Lcosh x
  | ArcCos => flib Lacos x
  | ArcCosh => flib Lacosh x
  | Sin => flib Lsin x
  | Sinh => flib Lsinh x
  | ArcSin => flib Lasin x
  | ArcSinh => flib Lasinh x
  | Tan => flib Ltan x
  | Tanh => flib Ltanh x
  | ArcTan => flib Latan x
  | ArcTanh => flib Latanh x
  end.
