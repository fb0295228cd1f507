(** Scalar types for examples, counterexamples and the theorems over the reals.  These stand
    for num_traits/std implementations, which are not part of /repo; buffers/scalars.rs:36-39
    accepts any [Num] type.  No proofs in this file. *)
From Coq Require Import ZArith Reals SpecFloat List Bool.
From Verif Require Import Scalar.

(** Integer powers for [Z_scalar].  num_traits has no [Pow<i64>] for i64, so [Power] and [Square]
    nodes over i64 do not compile (ops/arithmetic/unary.rs:144, binary.rs:88); the model only
    needs some function here, and takes the truncated [x^y]. *)
Definition Z_pow (x y : Z) : Z :=
  if (y <? 0)%Z then (if (x =? 1)%Z then 1%Z else 0%Z) else (x ^ y)%Z.

(** Unbounded integers: i64 (std) without overflow, a [Scalar] by scalars.rs:36-39.  [flib] is
    never used with integers. *)
Definition Z_scalar : Scalar Z := {|
  fzero := 0; fone := 1; finf := 0;
  fadd := Z.add; fsub := Z.sub; fmul := Z.mul; fdiv := Z.quot; fpow := Z_pow;
  fneg := Z.opp; fabs := Z.abs; fsignum := Z.sgn;
  flib := fun _ x => x;
  feq := Z.eqb; fle := Z.leb;
  fof_usize := fun n => Some (Z.of_nat n)
|}%Z.

(** IEEE-754 numbers (std f64 and f32, [Scalar]s by scalars.rs:36-39,106-107), from Coq's
    [SpecFloat]: one type for all formats, of which f64 uses the numbers with 53 bits and exponents
    below 1024, and f32 those with 24 bits and exponents below 128. *)
Definition f64 : Type := spec_float.
(** [f64::zero()], used as [F::zero()] at scalars.rs:36-39. *)
Definition f64_zero : f64 := S754_zero false.
(** Conversion of an integer (std), used for [F::one()] and [from_usize] (unary.rs:251). *)
Definition float_of_Z (prec emax : Z) (z : Z) : f64 := binary_normalize prec emax z 0 false.
(** f64 and f32 as [Scalar]s (scalars.rs:36-39); [powf] and the library functions are parameters. *)
Definition float_scalar (prec emax : Z) (pow : f64 -> f64 -> f64) (lib : libfn -> f64 -> f64)
  : Scalar f64 := {|
  fzero := f64_zero; fone := float_of_Z prec emax 1; finf := S754_infinity false;
  fadd := SFadd prec emax; fsub := SFsub prec emax; fmul := SFmul prec emax; fdiv := SFdiv prec emax;
  fpow := pow;
  fneg := SFopp; fabs := SFabs;
  fsignum := fun x => match x with
                      | S754_nan => S754_nan
                      | S754_zero s | S754_infinity s | S754_finite s _ _ =>
                          if s then float_of_Z prec emax (-1) else float_of_Z prec emax 1
                      end;
  flib := lib;
  feq := SFeqb; fle := SFleb;
  fof_usize := fun n => Some (float_of_Z prec emax (Z.of_nat n))
|}.
(** f64 (scalars.rs:107). *)
Definition f64_of_Z : Z -> f64 := float_of_Z 53 1024.
(** f64 as a [Scalar] (scalars.rs:36-39,107). *)
Definition f64_scalar : (f64 -> f64 -> f64) -> (libfn -> f64 -> f64) -> Scalar f64 :=
  float_scalar 53 1024.
(** f32 as a [Scalar] (scalars.rs:36-39,106). *)
Definition f32_scalar : (f64 -> f64 -> f64) -> (libfn -> f64 -> f64) -> Scalar f64 :=
  float_scalar 24 128.

(** Real numbers: exact arithmetic in place of f64 (scalars.rs:36-39).  Equality and order. *)
Definition R_eqb (x y : R) : bool := if Req_EM_T x y then true else false.
(** [<=] on the reals, for [F::zero() <= x] (sigmoid.rs:45) and [x <= zero] (logarithmic.rs:68). *)
Definition R_leb (x y : R) : bool := if Rle_dec x y then true else false.
(** [powf] (std; binary.rs:120, unary.rs:144): integer exponents at every base, zero at base zero,
    otherwise [exp (y ln x)].  Negative bases with non-integer exponents (NaN in Rust) get an
    arbitrary value. *)
Definition R_pow (x y : R) : R :=
  if Req_EM_T y (IZR (Int_part y)) then powerRZ x (Int_part y)
  else if Req_EM_T x 0 then 0%R else Rpower x y.
(** [signum] (num_traits; unary.rs:361-363): plus or minus one. *)
Definition R_sign (x : R) : R := if Rlt_dec x 0 then (-1)%R else 1%R.

(** Library functions on the reals: the elementary ones as in Coq's standard library, the special
    functions (special.rs:19,50,69,136, crate special_fun) given by [sp]. *)
Definition R_lib (sp : libfn -> R -> R) (l : libfn) : R -> R :=
  match l with
  | Lcos => cos | Lcosh => cosh | Lacos => acos
  | Lacosh => fun x => ln (x + sqrt (x * x - 1))%R
  | Lsin => sin | Lsinh => sinh | Lasin => asin | Lasinh => arcsinh
  | Ltan => tan | Ltanh => tanh | Latan => atan
  | Latanh => fun x => (ln ((1 + x) / (1 - x)) / 2)%R
  | Lln => ln | Lexp => exp
  | Lgamma | Ldigamma | Lloggamma | Lerf => sp l
  end.

(** Reals as a [Scalar] (scalars.rs:36-39), with infinity [inf] (a parameter: the reals have
    none; unary.rs:332-337) and special functions [sp]. *)
Definition R_scalar (inf : R) (sp : libfn -> R -> R) : Scalar R := {|
  fzero := 0; fone := 1; finf := inf;
  fadd := Rplus; fsub := Rminus; fmul := Rmult; fdiv := Rdiv; fpow := R_pow;
  fneg := Ropp; fabs := Rabs; fsignum := R_sign;
  flib := R_lib sp;
  feq := R_eqb; fle := R_leb;
  fof_usize := fun n => Some (INR n)
|}%R.
