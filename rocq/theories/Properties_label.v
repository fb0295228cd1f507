(** The logistic regression example on labels drawn with the true probabilities: C98. *)
From Coq Require Import List Arith ZArith Reals Bool Lia Lra.
Import ListNotations.
From Verif Require Import Base Shapes Scalar Buffers Spec Contraction Node Eval Instances
  Real_math Program_math Mean_math Label_math Programs Programs_claims Mean_claims Label_claims.
Local Open Scope R_scope.

(** * C98 On average the logistic regression example learns the true probabilities, in exact arithmetic *)

(** Inputs drawn from any finite pool, labels with the probabilities of the true weights: on average over all
    that may be drawn the weights do not move away from the true ones but for a term of second order in the
    rate, and the squared errors of the predicted probabilities have a bounded sum but for such a term. *)
Theorem C98_learns : forall (inf : R) (sp : libfn -> R -> R) (tw ws : list R) (pool : list (list R)) (rate m : R) (n : nat),
  let RS := R_scalar inf sp in
  pool <> [] -> 0 <= rate -> rate * m <= 8 -> length ws = length tw ->
  Forall (fun xs => length xs = length tw /\ ip xs xs <= m) pool ->
  exists out : list (list R * bool) -> list R,
    (forall d, Forall (fun p => In (fst p) pool) d ->
       @logistic_run R RS (@logistic_auto R RS) rate ws d = Ok (out d)) /\
    expected tw pool n (fun d => dist2 (out d) tw) <= dist2 ws tw + INR n * (rate ^ 2 * m / 4) /\
    rate * (8 - rate * m) * expected tw pool n (prediction_error out tw []) <= dist2 ws tw + INR n * (rate ^ 2 * m / 4).
Proof. exact label_all. Qed.
Print Assumptions C98_learns.

(** The program as it stands, with inputs that are multiples of [1/k] in [0, 1), any [k]: over the million draws
    the mean squared error of the predicted probabilities is at most 0.00133. *)
Theorem C98_example_program : forall (inf : R) (sp : libfn -> R -> R) (tw : list R) (k n : nat),
  let RS := R_scalar inf sp in
  length tw = 5%nat -> Forall (fun x => 0 <= x <= 1) tw -> (1 <= k)%nat -> Z.of_nat n = 1000000%Z ->
  exists out : list (list R * bool) -> list R,
    (forall d, Forall (fun p => In (fst p) (points 5 k)) d ->
       @logistic_run R RS (@logistic_auto R RS) (5 / 10000) (repeat 0 5) d = Ok (out d)) /\
    expected tw (points 5 k) n (fun d => dist2 (out d) tw) <= ip tw tw + 4 / 10 /\
    expected tw (points 5 k) n (fun d => prediction_error out tw [] d / INR n) <= 133 / 100000.
Proof. exact label_example. Qed.
Print Assumptions C98_example_program.

(** [expected] is a mean. *)
Theorem C98_mean : forall (tw : list R) (pool : list (list R)) (n : nat), pool <> [] ->
  (forall k, expected tw pool n (fun _ => k) = k) /\
  (forall f g k, expected tw pool n (fun d => f d + k * g d) = expected tw pool n f + k * expected tw pool n g) /\
  (forall f g, (forall d, length d = n -> Forall (fun p => In (fst p) pool) d -> f d <= g d) ->
     expected tw pool n f <= expected tw pool n g).
Proof. exact expected_mean. Qed.
Print Assumptions C98_mean.

(** Two inputs, true weights zero: half of the labels are ones. *)
Example C98_example :
  let pool := [[1; 0]; [1; 1]] in
  Forall (fun xs => length xs = 2%nat /\ ip xs xs <= 2) pool /\
  expected [0; 0] pool 2 (fun d => total (fun p : list R * bool => label (snd p)) d) = 1 /\
  expected [0; 0] pool 1 (prediction_error (fun _ => [0; 0]) [0; 0] []) = 0 /\ (exists n, Z.of_nat n = 1000000%Z).
Proof.
  intro pool; split; [repeat constructor; cbn; lra|].
  assert (Z : forall xs, In xs pool -> logit (ip xs [0; 0]) = 1 / 2).
  { intros xs [<-|[<-|[]]]; unfold logit; cbn [ip].
    - replace (- (1 * 0 + (0 * 0 + 0))) with 0 by ring; rewrite exp_0; lra.
    - replace (- (1 * 0 + (1 * 0 + 0))) with 0 by ring; rewrite exp_0; lra. }
  assert (Z1 := Z [1; 0] (or_introl eq_refl)); assert (Z2 := Z [1; 1] (or_intror (or_introl eq_refl))).
  unfold pool in *; split; [|split].
  - cbn [expected]; unfold average; rewrite !total_cons, !total_nil, !Z1, !Z2; cbn; field.
  - cbn [expected prediction_error]; unfold average; rewrite !total_cons, !total_nil, !Z1, !Z2; cbn; field.
  - exists (Z.to_nat 1000000); rewrite Z2Nat.id; lia.
Qed.

(** The term of second order is there: even from the true weights, one draw moves the weights away. *)
Example C98_noise_refuted : ~ (forall tw ws pool rate m, pool <> [] -> 0 <= rate -> rate * m <= 8 ->
  expected tw pool 1 (fun d => dist2 (climb_all rate ws d) tw) <= dist2 ws tw).
Proof.
  intro H; specialize (H [0] [0] [[1]] 1 1 ltac:(discriminate) ltac:(lra) ltac:(lra)).
  assert (Z : logit (ip [1] [0]) = 1 / 2).
  { unfold logit; cbn [ip]; replace (- (1 * 0 + 0)) with 0 by ring; rewrite exp_0; lra. }
  revert H; cbn [expected]; unfold average, climb_all; rewrite !total_cons, !total_nil; cbn [fold_left fst snd].
  unfold climb; rewrite Z; cbn [move dist2 label length INR]; lra.
Qed.
