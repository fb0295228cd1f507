(** What the example programs should compute, over the reals.  Specification side; nothing here
    models code. *)
From Coq Require Import List Reals SpecFloat.
Import ListNotations.
Local Open Scope R_scope.

(** Inner product, squared distance. *)
Fixpoint ip (a b : list R) : R :=
  match a, b with x :: a', y :: b' => x * y + ip a' b' | _, _ => 0 end.
Fixpoint dist2 (a b : list R) : R :=
  match a, b with x :: a', y :: b' => (x - y) * (x - y) + dist2 a' b' | _, _ => 0 end.

(** [ws] moved by [k] times [xs]. *)
Fixpoint move (k : R) (ws xs : list R) : list R :=
  match ws, xs with w :: ws', x :: xs' => (w + k * x) :: move k ws' xs' | _, _ => [] end.

(** Least mean squares: one step of the textbook algorithm for the target weights [tw], the whole
    sequence, and the sum of its squared prediction errors. *)
Definition lms (rate : R) (tw ws xs : list R) : list R :=
  move (- (rate * (2 * (ip xs ws - ip xs tw)))) ws xs.
Definition lms_all (rate : R) (tw ws : list R) (draws : list (list R)) : list R :=
  fold_left (lms rate tw) draws ws.
Fixpoint lms_loss (rate : R) (tw ws : list R) (draws : list (list R)) : R :=
  match draws with
  | [] => 0
  | xs :: rest => (ip xs ws - ip xs tw) * (ip xs ws - ip xs tw) + lms_loss rate tw (lms rate tw ws xs) rest
  end.

(** The logistic function, the likelihood of a label, and one step of gradient ascent on its
    logarithm. *)
Definition logit (t : R) : R := / (1 + exp (- t)).
Definition label (b : bool) : R := if b then 1 else 0.
Definition lik (b : bool) (t : R) : R := if b then logit t else 1 - logit t.
Definition climb (rate : R) (ws xs : list R) (b : bool) : list R :=
  move (rate * (label b - logit (ip xs ws))) ws xs.
Definition climb_all (rate : R) (ws : list R) (draws : list (list R * bool)) : list R :=
  fold_left (fun w d => climb rate w (fst d) (snd d)) draws ws.

(** Surprise at the labels (minus the logarithm of their likelihood), summed: by the weights as they
    are when each label is seen, and by fixed weights. *)
Definition surprise (b : bool) (t : R) : R := - ln (lik b t).
Fixpoint climb_surprise (rate : R) (ws : list R) (draws : list (list R * bool)) : R :=
  match draws with
  | [] => 0
  | (xs, b) :: rest => surprise b (ip xs ws) + climb_surprise rate (climb rate ws xs b) rest
  end.
Fixpoint fixed_surprise (us : list R) (draws : list (list R * bool)) : R :=
  match draws with
  | [] => 0
  | (xs, b) :: rest => surprise b (ip xs us) + fixed_surprise us rest
  end.

(** How often the weights are wrong while they are learnt: least mean squares predicts a value off by
    [eps] or more, gradient ascent does not put the label on its side of one half. *)
Fixpoint lms_misses (eps rate : R) (tw ws : list R) (draws : list (list R)) : nat :=
  match draws with
  | [] => 0
  | xs :: rest => (if Rle_dec eps (Rabs (ip xs ws - ip xs tw)) then 1 else 0) +
                  lms_misses eps rate tw (lms rate tw ws xs) rest
  end.
Fixpoint climb_misses (rate : R) (ws : list R) (draws : list (list R * bool)) : nat :=
  match draws with
  | [] => 0
  | (xs, b) :: rest =>
      (if b then if Rlt_dec 0 (ip xs ws) then 0 else 1 else if Rlt_dec (ip xs ws) 0 then 0 else 1) +
      climb_misses rate (climb rate ws xs b) rest
  end.

(** Neither infinite nor NaN. *)
Definition finite_float (x : spec_float) : bool :=
  match x with S754_zero _ | S754_finite _ _ _ => true | _ => false end.
