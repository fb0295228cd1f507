(** Operators that decide by a comparison, at every floating-point number.  Specification side; nothing
    here models code. *)
From Coq Require Import ZArith Reals SpecFloat.
From Verif Require Import Base Scalar Instances Float_math.

(** The number with the given sign bit. *)
Definition with_sign (s : bool) (x : f64) : f64 :=
  match x with
  | S754_zero _ => S754_zero s
  | S754_infinity _ => S754_infinity s
  | S754_finite _ m e => S754_finite s m e
  | S754_nan => S754_nan
  end.
Definition sign_bit (x : f64) : bool :=
  match x with S754_zero s | S754_infinity s | S754_finite s _ _ => s | S754_nan => false end.
Definition unit_of_sign (s : bool) (y : f64) : Prop :=
  finite y /\ f64_real y = (if s then -1 else 1)%R.

(** [decided prec emax lib u x y]: [y] is what the operator [u] makes of [x]. *)
Definition decided (prec emax : Z) (lib : libfn -> f64 -> f64) (u : unop) (x y : f64) : Prop :=
  match u with
  | Abs => y = with_sign false x
  | Negate => y = with_sign (negb (sign_bit x)) x
  | Dirac => match x with S754_zero _ => y = S754_infinity false | _ => y = S754_zero false end
  | Sign =>
      match x with
      | S754_zero _ | S754_nan => y = x
      | S754_infinity s | S754_finite s _ _ => unit_of_sign s y
      end
  | XLnX =>
      match x with
      | S754_zero _ | S754_infinity true | S754_finite true _ _ => y = S754_zero false
      | _ => y = SFmul prec emax x (lib Lln x)
      end
  | _ => True
  end.
