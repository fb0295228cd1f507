(** How well the weights of the logistic regression example do while they are learnt: C92. *)
From Coq Require Import List Arith ZArith Reals Bool Lia Lra.
Import ListNotations.
From Verif Require Import Base Shapes Scalar Buffers Spec Contraction Node Eval Instances
  Real_math Program_math Programs Programs_claims Regret_claims.

(** * C92 Whatever it is shown, the logistic regression example does about as well as the best fixed weights *)

(** For inputs of squared length at most [B], and whatever the labels: the surprise met on the way,
    times [rate (2 - rate B)], exceeds the surprise any fixed weights would have met, times
    [2 rate], by at most the fall of the squared distance to those weights. *)
Theorem C92_regret : forall inf sp grad rate B us ws draws ws',
  let S := R_scalar inf sp in
  grad = logistic_auto \/ grad = logistic_by_hand ->
  (0 <= rate)%R -> length us = length ws ->
  Forall (fun d => length (fst d) = length ws /\ (ip (fst d) (fst d) <= B)%R) draws ->
  logistic_run grad rate ws draws = Ok ws' ->
  (dist2 ws' us + rate * (2 - rate * B) * climb_surprise rate ws draws <=
   dist2 ws us + 2 * rate * fixed_surprise us draws)%R.
Proof. exact logistic_regret. Qed.
Print Assumptions C92_regret.

(** In particular the number of labels it did not expect, having put them at one half or less, is bounded
    by what any fixed weights achieve. *)
Theorem C92_misses : forall inf sp grad rate B us ws draws ws',
  let S := R_scalar inf sp in
  grad = logistic_auto \/ grad = logistic_by_hand ->
  (0 <= rate)%R -> (rate * B <= 2)%R -> length us = length ws ->
  Forall (fun d => length (fst d) = length ws /\ (ip (fst d) (fst d) <= B)%R) draws ->
  logistic_run grad rate ws draws = Ok ws' ->
  (rate * (2 - rate * B) * (ln 2 * INR (climb_misses rate ws draws)) <=
   dist2 ws us + 2 * rate * fixed_surprise us draws)%R.
Proof. exact logistic_misses. Qed.
Print Assumptions C92_misses.

(** The program as it stands: rate 0.0005, inputs from the unit cube, weights starting at zero. *)
Theorem C92_example_program : forall inf sp us draws,
  let S := R_scalar inf sp in
  let w0 := repeat 0%R 5 in
  length us = 5 ->
  Forall (fun d => length (fst d) = 5 /\ Forall (fun x => 0 <= x <= 1)%R (fst d)) draws ->
  exists ws, logistic_run logistic_auto (5 / 10000)%R w0 draws = Ok ws /\
    (dist2 ws us <= dist2 w0 us + 1 / 1000 * fixed_surprise us draws)%R /\
    (799 / 800 * climb_surprise (5 / 10000) w0 draws <= fixed_surprise us draws + 1000 * ip us us)%R.
Proof. intros inf sp us draws S w0 Lu D; exact (logistic_example inf sp us draws Lu D). Qed.
Print Assumptions C92_example_program.

(** Two draws that contradict each other, and the bound for the weights (1, 2). *)
Example C92_example : forall inf sp,
  let S := R_scalar inf sp in
  let draws := [([1; 2]%R, true); ([1; 2]%R, false)] in
  Forall (fun d => length (fst d) = 2 /\ (ip (fst d) (fst d) <= 5)%R) draws /\
  (exists ws, logistic_run logistic_auto (1 / 10)%R [0; 0]%R draws = Ok ws) /\
  climb_surprise (1 / 10) [0; 0]%R [([1; 2]%R, true)] = ln 2 /\
  (15 / 100 * climb_surprise (1 / 10) [0; 0]%R draws <= 5 + 2 / 10 * fixed_surprise [1; 2]%R draws)%R /\
  climb_misses (1 / 10) [0; 0]%R draws = 2.
Proof.
  intros inf sp S draws.
  assert (D : Forall (fun d => length (fst d) = 2 /\ (ip (fst d) (fst d) <= 5)%R) draws).
  { repeat constructor; cbn [fst ip]; lra. }
  assert (X : logistic_run logistic_auto (1 / 10)%R [0; 0]%R draws = Ok (climb_all (1 / 10) [0; 0]%R draws)).
  { apply logistic_run_climb; [left; reflexivity|]; repeat constructor. }
  split; [exact D|split; [eexists; exact X|split; [|split]]].
  - cbn [climb_surprise ip]; unfold surprise, lik, logit.
    replace (- (1 * 0 + (2 * 0 + 0)))%R with 0%R by ring; rewrite exp_0.
    rewrite ln_Rinv by lra; replace (1 + 1)%R with 2%R by ring; ring.
  - assert (H := C92_regret inf sp logistic_auto (1 / 10) 5 [1; 2]%R [0; 0]%R draws _
                   (or_introl eq_refl) ltac:(lra) eq_refl D X).
    assert (P := dist_nonneg (climb_all (1 / 10) [0; 0]%R draws) [1; 2]%R).
    assert (Z : dist2 [0; 0]%R [1; 2]%R = 5%R) by (cbn [dist2]; ring).
    lra.
  - cbn -[Rmult Rplus Ropp Rminus Rdiv Rinv logit]; unfold climb; cbn [move label ip].
    assert (L : (0 < logit (1 * 0 + (2 * 0 + 0)) < 1)%R) by apply (logit_range inf sp).
    destruct (Rlt_dec 0 _) as [H|H]; [lra|]; destruct (Rlt_dec _ 0) as [H'|H']; [lra|reflexivity].
Qed.
