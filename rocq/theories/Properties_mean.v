(** The linear regression example on average: C95. *)
From Coq Require Import List Arith ZArith Reals Bool Lia Lra.
Import ListNotations.
From Verif Require Import Base Shapes Scalar Buffers Spec Contraction Node Eval Instances
  Real_math Program_math Mean_math Programs Programs_claims Mean_claims.

(** * C95 On average the linear regression example converges geometrically *)

(** If the inputs are drawn independently and uniformly from any finite collection, of squared length at
    most [B] and, on average, extending at least [lam] in every direction, then the mean squared distance to
    the true weights falls by the factor [1 - 4 rate (1 - rate B) lam] with every draw; no run fails. *)
Theorem C95_mean : forall inf sp rate B lam tw ws pool n,
  let S := R_scalar inf sp in
  (0 <= rate)%R -> (rate * B <= 1)%R -> length ws = length tw -> pool <> [] ->
  Forall (fun xs => length xs = length tw /\ (ip xs xs <= B)%R) pool ->
  (forall v, length v = length tw -> (lam * ip v v <= average (fun xs => ip xs v * ip xs v)%R pool)%R) ->
  exists out : list (list R) -> list R,
    (forall d, In d (sequences n pool) -> linear_run linear_auto rate tw ws d = Ok (out d)) /\
    (average (fun d => dist2 (out d) tw) (sequences n pool) <= (1 - 4 * rate * (1 - rate * B) * lam) ^ n * dist2 ws tw)%R.
Proof. exact mean_all. Qed.
Print Assumptions C95_mean.

(** The program as it stands (30 weights, rate 0.01, weights starting at zero), with coordinates drawn from
    the multiples of [1/k] below one ([k] is 2^53 in rand): the mean squared distance, and the probability of
    a squared distance of [e] or more. *)
Theorem C95_example_program : forall inf sp tw k n,
  let S := R_scalar inf sp in
  length tw = 30 -> 2 <= k ->
  exists out : list (list R) -> list R,
    (forall d, In d (sequences n (points 30 k)) -> linear_main (1 / 100)%R tw d = Ok (out d)) /\
    (average (fun d => dist2 (out d) tw) (sequences n (points 30 k)) <= (1 - 7 / 4000) ^ n * ip tw tw)%R /\
    forall e, (share (fun d => dist2 (out d) tw) e (sequences n (points 30 k)) * e <= (1 - 7 / 4000) ^ n * ip tw tw)%R.
Proof. exact mean_example. Qed.
Print Assumptions C95_example_program.

(** Two directions: the bound is attained by the first draw.  One direction: the distance stays. *)
Example C95_example : forall rate n,
  let pool := [[1; 0]; [0; 1]]%R in
  Forall (fun xs => length xs = 2 /\ (ip xs xs <= 1)%R) pool /\
  (forall v, length v = 2 -> (1 / 2 * ip v v <= average (fun xs => ip xs v * ip xs v)%R pool)%R) /\
  sequences 2 pool = [[[1; 0]; [1; 0]]; [[1; 0]; [0; 1]]; [[0; 1]; [1; 0]]; [[0; 1]; [0; 1]]]%R /\
  average (fun d => dist2 (lms_all (1 / 4) [1; 1]%R [0; 0]%R d) [1; 1]%R) (sequences 1 pool) =
    ((1 - 4 * (1 / 4) * (1 - 1 / 4 * 1) * (1 / 2)) ^ 1 * dist2 [0; 0]%R [1; 1]%R)%R /\
  (1 <= average (fun d => dist2 (lms_all rate [1; 1]%R [0; 0]%R d) [1; 1]%R) (sequences n [[1; 0]]%R))%R.
Proof.
  intros rate n pool; split; [|split; [|split; [reflexivity|split]]].
  - repeat constructor; cbn; lra.
  - intros [|a [|b [|]]] L; try discriminate L; unfold average, total; cbn; lra.
  - unfold average, total, lms_all, lms; cbn; lra.
  - assert (N : length (sequences n [[1; 0]]%R) = 1).
    { induction n as [|n IH]; [reflexivity|]; cbn [sequences flat_map]; rewrite app_nil_r, map_length; exact IH. }
    unfold average; destruct (sequences n [[1; 0]]%R) as [|d [|]] eqn:E; try discriminate N.
    assert (H := no_spread n rate 0 d); rewrite E in H; specialize (H (or_introl eq_refl)).
    rewrite total_cons, total_nil; cbn [length INR]; lra.
Qed.
