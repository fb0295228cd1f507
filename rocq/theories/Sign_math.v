(** Floating-point numbers up to sign, and expressions that are even or odd.  Specification side;
    nothing here models code. *)
From Coq Require Import List Arith ZArith Bool SpecFloat.
Import ListNotations.
From Verif Require Import Base Shapes Scalar Buffers Spec Contraction Node Eval Instances Vocab Math Code_math
  Float_math.

(** One of the two zeros. *)
Definition a_zero (x : f64) : Prop := match x with S754_zero _ => True | _ => False end.

(** The second number is the first, negated if [p]: bit for bit, except that zeros may have any sign. *)
Definition mirrored (p : bool) (x y : f64) : Prop :=
  y = (if p then SFopp x else x) \/ a_zero x /\ a_zero y.

(** Functions of the maths library that are odd, and even. *)
Definition odd_fn (f : libfn) : bool :=
  match f with Lsin | Lsinh | Lasin | Lasinh | Ltan | Ltanh | Latan | Latanh | Lerf => true | _ => false end.
Definition even_fn (f : libfn) : bool := match f with Lcos | Lcosh => true | _ => false end.

(** The maths library respects signs: squares and even functions do not depend on the sign of their
    argument, odd functions follow it. *)
Record respects_signs (prec emax : Z) (pow : f64 -> f64 -> f64) (lib : libfn -> f64 -> f64) : Prop := {
  sign_square : forall p x y, mirrored p x y ->
    let two := SFadd prec emax (float_of_Z prec emax 1) (float_of_Z prec emax 1) in
    mirrored false (pow x two) (pow y two);
  sign_odd : forall f p x y, odd_fn f = true -> mirrored p x y -> mirrored p (lib f x) (lib f y);
  sign_even : forall f p x y, even_fn f = true -> mirrored p x y -> mirrored false (lib f x) (lib f y)
}.

Section Parity.
Context {S : Scalar f64}.
Variables (w : ident -> bool) (c : ctx f64).

(** The context [d] holds the numbers of [c], those of the variables in [w] negated. *)
Definition mirrored_inputs (d : ctx f64) : Prop :=
  forall i, match c i, d i with
            | Some v, Some u =>
                dims (vshape v) = dims (vshape u) /\
                forall ix, in_box (dims (vshape v)) ix -> mirrored (w i) (vat f64_zero v ix) (vat f64_zero u ix)
            | None, None => True
            | _, _ => False
            end.

(** The expression changes sign ([p = true]), or does not, when the variables in [w] do; its divisors
    are not zero. *)
Fixpoint parity (n : node f64) (p : bool) : Prop :=
  match n with
  | Var i => p = w i
  | Const _ => p = false
  | Un (Negate | Double | Sign | Sin | Sinh | ArcSin | ArcSinh | Tan | Tanh | ArcTan | ArcTanh | Erf) m | Sum m =>
      parity m p
  | Un (Abs | Square | Cos | Cosh | Dirac) m => p = false /\ exists q, parity m q
  | Un (AddOne | SubOne | OneSub | Rabbit) m => p = false /\ parity m false
  | Add l r | Sub l r => parity l p /\ parity r p
  | Mul l r | Contract _ l r => exists a b, parity l a /\ parity r b /\ p = xorb a b
  | Div l r =>
      (exists a b, parity l a /\ parity r b /\ p = xorb a b) /\
      forall ix, in_box (tdims (steps c n)) ix -> ~ a_zero (snd (dividend_divisor (steps c l) (steps c r) ix))
  | _ => False
  end.
End Parity.
