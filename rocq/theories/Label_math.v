(** Averages over draws whose labels are themselves drawn.  Specification side; nothing here models code. *)
From Coq Require Import List Reals.
Import ListNotations.
From Verif Require Import Program_math Mean_math.
Local Open Scope R_scope.

(** The mean of [f] over [n] draws: inputs from [pool], each equally likely, and for each input [xs] the label
    one with probability [logit (ip xs tw)]. *)
Fixpoint expected (tw : list R) (pool : list (list R)) (n : nat) (f : list (list R * bool) -> R) : R :=
  match n with
  | O => f []
  | S n' => average (fun xs =>
      logit (ip xs tw) * expected tw pool n' (fun d => f ((xs, true) :: d)) +
      (1 - logit (ip xs tw)) * expected tw pool n' (fun d => f ((xs, false) :: d))) pool
  end.

(** [out d] are the weights learnt from the draws [d].  The squared errors of the probabilities predicted for
    [rest], each from the weights learnt so far, summed. *)
Fixpoint prediction_error (out : list (list R * bool) -> list R) (tw : list R) (seen rest : list (list R * bool)) : R :=
  match rest with
  | [] => 0
  | (xs, b) :: rest' =>
      (logit (ip xs (out seen)) - logit (ip xs tw)) ^ 2 + prediction_error out tw (seen ++ [(xs, b)]) rest'
  end.
