(** The logistic regression example in floats.  Specification side; nothing here models code. *)
From Coq Require Import List Reals SpecFloat ZArith.
Import ListNotations.
From Verif Require Import Instances Float_math Program_math.
Local Open Scope R_scope.

(** [0.0005]: the nearest number of f64. *)
Definition small_rate : f64 := S754_finite false 4611686018427388 (-63).

(** Along exact gradient ascent no draw is predicted with a logit beyond [B] when it is seen. *)
Fixpoint calm (B rate : R) (ws : list R) (draws : list (list R * bool)) : Prop :=
  match draws with
  | [] => True
  | (xs, b) :: rest => Rabs (ip xs ws) <= B /\ calm B rate (climb rate ws xs b) rest
  end.

(** The same draws with every number replaced by its real value. *)
Definition real_draws (draws : list (list f64 * bool)) : list (list R * bool) :=
  map (fun d => (map f64_real (fst d), snd d)) draws.

(** The exponential function of the library: valid results, off by at most eight units of rounding and a
    thousandth of one. *)
Definition good_exp (lib : f64 -> f64) : Prop :=
  forall x, f64_valid x -> finite x -> f64_real x <= 0 ->
    f64_valid (lib x) /\ finite (lib x) /\
    Rabs (f64_real (lib x) - exp (f64_real x)) <= / 2 ^ 53 * (8 * exp (f64_real x) + / 1000).
