(** Running error bounds.  Every operation is performed on pairs of an exact real number and a bound on
    the distance of the computed number from it; no bound means that nothing is known.  Specification
    side; nothing here models code. *)
From Coq Require Import List ZArith Reals SpecFloat Bool.
Import ListNotations.
From Verif Require Import Base Shapes Scalar Buffers Spec Node Eval Instances Vocab Math Code_math Float_math.
Local Open Scope R_scope.

(** The largest relative error of a rounding, half the smallest positive number of the format, and the
    bound on all its numbers. *)
Definition half_ulp (prec : Z) : R := / 2 ^ Z.to_nat prec.
Definition half_tiny (prec emax : Z) : R := / 2 ^ Z.to_nat (emax + prec - 2).
Definition top (emax : Z) : R := 2 ^ Z.to_nat emax.

(** Library functions that are accurate: the result is off by at most the fraction [a] of the exact
    value, and [b], as long as it cannot overflow. *)
Definition known (f : libfn) : Prop := match f with Lexp | Lln | Lsin | Lcos => True | _ => False end.
Definition close (emax : Z) (a b : R) (x : f64) (y : R) : Prop :=
  (1 + a) * Rabs y + b < top emax -> finite x /\ Rabs (f64_real x - y) <= a * Rabs y + b.
Record accurate (prec emax : Z) (a b : R) (pow : f64 -> f64 -> f64) (lib : libfn -> f64 -> f64) : Prop := {
  ac_signs : 0 <= a /\ 0 <= b;
  ac_pow : forall x y, float_valid prec emax x -> float_valid prec emax y -> float_valid prec emax (pow x y);
  ac_lib : forall f x, float_valid prec emax x -> float_valid prec emax (lib f x);
  ac_square : forall x, float_valid prec emax x -> finite x ->
    close emax a b (pow x (float_of_Z prec emax 2)) (f64_real x * f64_real x);
  ac_known : forall f x, known f -> float_valid prec emax x -> finite x -> (f = Lln -> 0 < f64_real x) ->
    close emax a b (lib f x) (R_lib (fun _ y => y) f (f64_real x))
}.

Section Bounds.
Variables (prec emax : Z) (a b : R) (inf : R) (sp : libfn -> R -> R).

(** An error bound is only kept while the numbers it allows are in the range of the format. *)
Definition capped (m e : R) : option R := if Rlt_dec (Rabs m + e) (top emax) then Some e else None.

(** Whole numbers that the format represents exactly. *)
Definition small_whole (m : R) : bool :=
  if Req_EM_T m (IZR (Int_part m)) then (Z.abs (Int_part m) <=? 2 ^ prec)%Z else false.

(** The bound after rounding: [m] is the exact result, [e] the error carried over, [t] the error of an
    underflow. *)
Definition after_rounding (t m e : R) : option R :=
  if Req_EM_T e 0 then if small_whole m then Some 0 else capped m (e + half_ulp prec * (Rabs m + e) + t)
  else capped m (e + half_ulp prec * (Rabs m + e) + t).

(** The bound after a library function. *)
Definition after_library (m e : R) : option R := capped m (e + a * (Rabs m + e) + b).

Definition exactly_zero (m : R) (e : R) : bool := R_eqb m 0 && R_eqb e 0.
Definition both_bounds (x y : option R) (f : R -> R -> option R) : option R :=
  match x, y with Some e, Some e' => f e e' | _, _ => None end.

Definition added (x y : R * option R) : option R :=
  both_bounds (snd x) (snd y) (fun e e' =>
    if exactly_zero (fst x) e then Some e' else if exactly_zero (fst y) e' then Some e
    else after_rounding 0 (fst x + fst y) (e + e')).
Definition subtracted (x y : R * option R) : option R :=
  both_bounds (snd x) (snd y) (fun e e' =>
    if exactly_zero (fst x) e then Some e' else if exactly_zero (fst y) e' then Some e
    else after_rounding 0 (fst x - fst y) (e + e')).
Definition multiplied (x y : R * option R) : option R :=
  both_bounds (snd x) (snd y) (fun e e' =>
    after_rounding (half_tiny prec emax) (fst x * fst y) (Rabs (fst x) * e' + Rabs (fst y) * e + e * e')).
Definition divided (x y : R * option R) : option R :=
  both_bounds (snd x) (snd y) (fun e e' =>
    if Rlt_dec e' (Rabs (fst y)) then
      after_rounding (half_tiny prec emax) (fst x / fst y)
        ((e * Rabs (fst y) + Rabs (fst x) * e') / ((Rabs (fst y) - e') * Rabs (fst y)))
    else None).
(** Squares are the only powers bounded. *)
Definition raised (x y : R * option R) : option R :=
  both_bounds (snd x) (snd y) (fun e e' =>
    if R_eqb (fst y) 2 && R_eqb e' 0 then after_library (fst x * fst x) (2 * Rabs (fst x) * e + e * e) else None).
Definition applied (f : libfn) (x : R * option R) : option R :=
  match f, snd x with
  | Lexp, Some e => after_library (exp (fst x)) (exp (fst x + e) - exp (fst x))
  | Lln, Some e => if Rlt_dec e (fst x) then after_library (ln (fst x)) (ln (fst x) - ln (fst x - e)) else None
  | Lsin, Some e => after_library (sin (fst x)) e
  | Lcos, Some e => after_library (cos (fst x)) e
  | _, _ => None
  end.

(** The exact value goes along unrounded. *)
Definition bounds_scalar : Scalar (R * option R) := {|
  fzero := (0, Some 0); fone := (1, Some 0); finf := (inf, None);
  fadd := fun x y => (fst x + fst y, added x y);
  fsub := fun x y => (fst x - fst y, subtracted x y);
  fmul := fun x y => (fst x * fst y, multiplied x y);
  fdiv := fun x y => (fst x / fst y, divided x y);
  fpow := fun x y => (R_pow (fst x) (fst y), raised x y);
  fneg := fun x => (- fst x, snd x); fabs := fun x => (Rabs (fst x), snd x);
  fsignum := fun x => (R_sign (fst x), None);
  flib := fun f x => (R_lib sp f (fst x), applied f x);
  feq := fun x y => R_eqb (fst x) (fst y); fle := fun x y => R_leb (fst x) (fst y);
  fof_usize := fun n => Some (INR n, None)
|}.

(** The bounds for an expression with exact inputs. *)
Definition error_bounds (c : ctx f64) (n : node f64) : tensor (R * option R) :=
  let g := fun x => (f64_real x, Some 0) in
  @steps (R * option R) bounds_scalar (ctx_through g c) (node_through g n).

End Bounds.

(** Expressions without operators that decide by a comparison. *)
Fixpoint branch_free {F} (n : node F) : Prop :=
  match n with
  | Un (Dirac | Sign | XLnX | Sigmoid) _ => False
  | Un _ m | Sum m | Cached m _ | ConstAdj m _ => branch_free m
  | Power l r | Add l r | Sub l r | Mul l r | Div l r | Contract _ l r => branch_free l /\ branch_free r
  | Var _ | VarAdj _ _ | Const _ | ConstSpec _ => True
  end.

(** Of those, the ones that call no library function. *)
Fixpoint library_free {F} (n : node F) : Prop :=
  match n with
  | Un (SubOne | OneSub | AddOne | Double | Negate | Abs | Rabbit) m | Sum m => library_free m
  | Add l r | Sub l r | Mul l r | Div l r | Contract _ l r => library_free l /\ library_free r
  | Var _ | Const _ => True
  | _ => False
  end.
