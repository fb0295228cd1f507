(** Probabilities over what the logistic regression example draws.  Specification side; nothing here models
    code. *)
From Coq Require Import List Reals SpecFloat.
Import ListNotations.
From Verif Require Import Instances Float_math Program_math Mean_math.
Local Open Scope R_scope.

(** The mean of [f] over [n] draws: inputs from [pool], each equally likely, and for each input [a] the label one
    with probability [chance a].  An event has the mean of its indicator for probability. *)
Fixpoint mean_over {A} (chance : A -> R) (pool : list A) (n : nat) (f : list (A * bool) -> R) : R :=
  match n with
  | O => f []
  | S n' => average (fun a =>
      chance a * mean_over chance pool n' (fun d => f ((a, true) :: d)) +
      (1 - chance a) * mean_over chance pool n' (fun d => f ((a, false) :: d))) pool
  end.
Definition probability {A} (chance : A -> R) (pool : list A) (n : nat) (event : list (A * bool) -> bool) : R :=
  mean_over chance pool n (fun d => if event d then 1 else 0).

(** [d] consists of [n] draws from [pool]. *)
Definition drawn_from {A} (pool : list A) (n : nat) (d : list (A * bool)) : Prop :=
  length d = n /\ Forall (fun p => In (fst p) pool) d.

(** [out d] are the floats learnt from the draws [d].  The squared errors of the probabilities they give to
    [rest], each from the weights learnt so far, summed. *)
Fixpoint float_error (out : list (list f64 * bool) -> list f64) (tw : list f64) (seen rest : list (list f64 * bool)) : R :=
  match rest with
  | [] => 0
  | (xs, b) :: rest' =>
      (logit (ip (map f64_real xs) (map f64_real (out seen))) - logit (ip (map f64_real xs) (map f64_real tw))) ^ 2 +
      float_error out tw (seen ++ [(xs, b)]) rest'
  end.

(** The exponential function of the library sends the numbers up to zero to numbers of [0, 1]. *)
Definition unit_exp (lib : f64 -> f64) : Prop :=
  forall x, f64_valid x -> SFleb x f64_zero = true -> f64_valid (lib x) /\ finite (lib x) /\ 0 <= f64_real (lib x) <= 1.
