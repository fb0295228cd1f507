(** The logistic regression example in f64, on draws as likely as they are: C99. *)
From Coq Require Import List Arith ZArith Reals SpecFloat Bool Lia Lra.
Import ListNotations.
From Verif Require Import Base Shapes Scalar Buffers Spec Contraction Node Eval Instances
  Real_math Program_math Float_math Mean_math Drift_math Ascent_math Chance_math Programs Programs_claims Mean_claims
  Enclosure_claims Drift_claims Ascent_claims Chance_claims.
Local Open Scope R_scope.

(** * C99 The logistic regression example in f64 very likely tracks its exact run and on average learns the true probabilities *)

(** The probability handed to [gen_bool] is a number of [0, 1], so that call does not panic, and is within
    [262 2^-53] of the true one. *)
Theorem C99_chance : forall (pow : f64 -> f64 -> f64) (lib : libfn -> f64 -> f64) (tw xs : list f64),
  let FS := f64_scalar pow lib in
  good_exp (lib Lexp) -> unit_exp (lib Lexp) ->
  length xs = length tw -> (length tw <= 30)%nat -> Forall unit_float tw -> Forall unit_float xs ->
  let p := @logistic_chance f64 FS tw xs in
  f64_valid p /\ finite p /\ 0 <= f64_real p <= 1 /\
  Rabs (f64_real p - logit (ip (map f64_real xs) (map f64_real tw))) <= 262 * / 2 ^ 53.
Proof. intros pow lib tw xs FS G U; exact (chance_near pow lib G U tw xs). Qed.
Print Assumptions C99_chance.

(** Inputs from any pool, labels with the probabilities the program computes.  But for draws of a probability
    bounded here, at no time of the run does anything panic or a weight become NaN or infinite, and after
    [k] draws the weights are within [k 2^-41] of those the same program finds over the reals.  The squared errors of
    the probabilities the computed weights predict have, on the remaining draws, a mean sum bounded as in exact
    arithmetic. *)
Theorem C99_probable : forall (pow : f64 -> f64 -> f64) (lib : libfn -> f64 -> f64) (rate : f64) (ws tw : list f64)
    (pool : list (list f64)) (n : nat) (m l b : R),
  let FS := f64_scalar pow lib in
  let chance := fun xs => f64_real (@logistic_chance f64 FS tw xs) in
  let bound := dist2 (map f64_real ws) (map f64_real tw) + INR n * (f64_real rate ^ 2 * m / 4 + f64_real rate / 2 ^ 36) in
  good_exp (lib Lexp) -> unit_exp (lib Lexp) ->
  f64_valid rate -> finite rate -> 0 <= f64_real rate <= / 1000 ->
  (length ws <= 30)%nat -> Forall unit_float ws -> length tw = length ws -> Forall unit_float tw -> pool <> [] ->
  Forall (fun xs => length xs = length ws /\ Forall unit_float xs /\ ip (map f64_real xs) (map f64_real xs) <= m) pool ->
  Forall (fun xs => Rabs (ip (map f64_real xs) (map f64_real tw)) <= b) pool ->
  m <= 30 -> INR n <= 10 ^ 10 -> INR n * f64_real rate <= 510 ->
  0 <= b <= 29 -> 0 <= l -> m * l <= (29 - b) * (29 - b) ->
  exists (out : list (list f64 * bool) -> list f64) (rare : list (list f64 * bool) -> bool),
    (forall inf sp d rest, drawn_from pool n (d ++ rest) -> rare (d ++ rest) = false ->
       @logistic_run f64 FS (@logistic_auto f64 FS) rate ws d = Ok (out d) /\ Forall finite (out d) /\
       exists exact,
         @logistic_run R (R_scalar inf sp) (@logistic_auto R (R_scalar inf sp)) (f64_real rate) (map f64_real ws) (real_draws d) = Ok exact /\
         dist2 (map f64_real (out d)) exact <= (INR (length d) / 2 ^ 41) ^ 2) /\
    l * probability chance pool n rare <= bound /\
    f64_real rate * (8 - f64_real rate * m) *
      (mean_over chance pool n (fun d => if rare d then 0 else float_error out tw [] d) - INR n ^ 2 / 2 ^ 36) <= bound.
Proof.
  intros pow lib rate ws tw pool n m l b FS chance bound G U Vr Fr Br N Hw Lt Ht NE Hp Hb Hm Hn Hr B L ML.
  destruct (chance_general pow lib false rate ws tw pool n m l b G U Vr Fr Br N Hw Lt Ht NE Hp Hm Hn Hr
    (or_intror (conj B (conj L (conj ML Hb)))) L) as (out & rare & _ & H); exists out, rare; exact H.
Qed.
Print Assumptions C99_probable.

(** With the gradient written by hand there are no exceptions. *)
Theorem C99_by_hand : forall (pow : f64 -> f64 -> f64) (lib : libfn -> f64 -> f64) (rate : f64) (ws tw : list f64)
    (pool : list (list f64)) (n : nat) (m : R),
  let FS := f64_scalar pow lib in
  let chance := fun xs => f64_real (@logistic_chance f64 FS tw xs) in
  good_exp (lib Lexp) -> unit_exp (lib Lexp) ->
  f64_valid rate -> finite rate -> 0 <= f64_real rate <= / 1000 ->
  (length ws <= 30)%nat -> Forall unit_float ws -> length tw = length ws -> Forall unit_float tw -> pool <> [] ->
  Forall (fun xs => length xs = length ws /\ Forall unit_float xs /\ ip (map f64_real xs) (map f64_real xs) <= m) pool ->
  m <= 30 -> INR n <= 10 ^ 10 -> INR n * f64_real rate <= 510 ->
  exists out : list (list f64 * bool) -> list f64,
    (forall d rest, drawn_from pool n (d ++ rest) ->
       @logistic_run f64 FS (@logistic_by_hand f64 FS) rate ws d = Ok (out d) /\ Forall finite (out d)) /\
    f64_real rate * (8 - f64_real rate * m) * (mean_over chance pool n (float_error out tw []) - INR n ^ 2 / 2 ^ 36) <=
      dist2 (map f64_real ws) (map f64_real tw) + INR n * (f64_real rate ^ 2 * m / 4 + f64_real rate / 2 ^ 36).
Proof.
  intros pow lib rate ws tw pool n m FS chance G U Vr Fr Br N Hw Lt Ht NE Hp Hm Hn Hr.
  destruct (chance_general pow lib true rate ws tw pool n m 0 0 G U Vr Fr Br N Hw Lt Ht NE Hp Hm Hn Hr
    (or_introl eq_refl) (Rle_refl 0)) as (out & rare & F & H & _ & M); specialize (F eq_refl); exists out; split.
  - intros d rest D; destruct (H 0 (fun _ _ => 0) d rest D (F _)) as (E & Fi & _); split; assumption.
  - rewrite (mean_ext _ pool (chance_range pow lib G U ws tw pool m N Lt Ht Hp) n _
      (fun d => if rare d then 0 else float_error out tw [] d)); [exact M|intros d _; rewrite F; reflexivity].
Qed.
Print Assumptions C99_by_hand.

(** The program as it stands: 5 weights starting at zero, true weights in [-1, 1], rate 0.0005, a million draws as [rand]
    makes them.  With probability at least 95% every weight is, at all times, within [4.6e-7] of what exact arithmetic
    gives; on these draws the mean squared error of the predicted probabilities averages at most 0.00135. *)
Theorem C99_example_program : forall (pow : f64 -> f64 -> f64) (lib : libfn -> f64 -> f64) (tw : list f64) (n : nat),
  let FS := f64_scalar pow lib in
  let chance := fun xs => f64_real (@logistic_chance f64 FS tw xs) in
  good_exp (lib Lexp) -> unit_exp (lib Lexp) -> length tw = 5%nat -> Forall unit_float tw -> Z.of_nat n = 1000000%Z ->
  exists (out : list (list f64 * bool) -> list f64) (rare : list (list f64 * bool) -> bool),
    (forall inf sp d rest, drawn_from (float_points 5 53) n (d ++ rest) -> rare (d ++ rest) = false ->
       @logistic_run f64 FS (@logistic_auto f64 FS) small_rate (repeat f64_zero 5) d = Ok (out d) /\ Forall finite (out d) /\
       exists exact,
         @logistic_run R (R_scalar inf sp) (@logistic_auto R (R_scalar inf sp)) (f64_real small_rate) (repeat 0 5) (real_draws d) = Ok exact /\
         Forall2 (fun x r => Rabs (f64_real x - r) <= 46 / 10 ^ 8) (out d) exact) /\
    probability chance (float_points 5 53) n rare <= 5 / 100 /\
    mean_over chance (float_points 5 53) n (fun d => if rare d then 0 else float_error out tw [] d / INR n) <= 135 / 100000.
Proof.
  intros pow lib tw n FS chance G U L Ht Hn.
  destruct (chance_program pow lib G U false tw n L Ht Hn) as (out & rare & _ & H); exists out, rare; exact H.
Qed.
Print Assumptions C99_example_program.

(** [mean_over] is a mean. *)
Theorem C99_mean : forall (A : Type) (chance : A -> R) (pool : list A) (n : nat), pool <> [] ->
  Forall (fun a => 0 <= chance a <= 1) pool ->
  (forall k, mean_over chance pool n (fun _ => k) = k) /\
  (forall f g k, mean_over chance pool n (fun d => f d + k * g d) = mean_over chance pool n f + k * mean_over chance pool n g) /\
  (forall f g, (forall d, drawn_from pool n d -> f d <= g d) -> mean_over chance pool n f <= mean_over chance pool n g).
Proof.
  intros A chance pool n NE Hc; split; [|split]; intros; [apply mean_const, NE|apply mean_linear|apply mean_le; assumption].
Qed.
Print Assumptions C99_mean.

(** There are such exponentials; two inputs of two coordinates meet the conditions with [m = 2], [b = 2], [l = 364];
    a label is one with its chance. *)
Example C99_example :
  let lib := fun x => @nearest 53 1024 (exp (f64_real x)) in
  let one := f64_of_Z 1 in
  let pool := [[one; power_of_half 1]; [power_of_half 2; one]] in
  good_exp lib /\ unit_exp lib /\
  Forall (fun xs => length xs = 2%nat /\ Forall unit_float xs /\ ip (map f64_real xs) (map f64_real xs) <= 2) pool /\
  Forall (fun xs => Rabs (ip (map f64_real xs) (map f64_real [one; one])) <= 2) pool /\ 2 * 364 <= (29 - 2) * (29 - 2) /\
  drawn_from pool 1 [([one; power_of_half 1], true)] /\
  probability (fun _ : list f64 => 3 / 4) pool 1 (fun d => match d with (_, y) :: _ => y | [] => false end) = 3 / 4 /\
  (exists n, Z.of_nat n = 1000000%Z).
Proof.
  intros lib one pool.
  assert (H : forall j, (j <= 53)%nat -> unit_float (power_of_half j)).
  { intros j Hj; split; [apply half_valid, Hj|split; [exact Logic.I|]]; rewrite half_real.
    assert (P : 1 <= 2 ^ j) by (apply pow_R1_Rle; lra).
    rewrite Rabs_pos_eq by (left; apply Rinv_0_lt_compat; lra); rewrite <- Rinv_1; apply Rinv_le_contravar; lra. }
  assert (H0 : unit_float one) by exact (H 0%nat ltac:(lia)).
  assert (H1 := H 1%nat ltac:(lia)); assert (H2 := H 2%nat ltac:(lia)).
  assert (E0 : f64_real one = 1) by (assert (E := half_real 0); cbn [pow] in E; rewrite Rinv_1 in E; exact E).
  assert (E1 := half_real 1); assert (E2 := half_real 2).
  assert (F2 : forall x y, unit_float x -> unit_float y -> Forall unit_float [x; y]) by (intros; do 2 (constructor; [assumption|]); constructor).
  split; [exact nearest_exp|split; [exact nearest_unit|split; [|split; [|split; [lra|split; [|split]]]]]].
  - apply Forall_cons; [|apply Forall_cons; [|apply Forall_nil]]; (split; [reflexivity|split; [apply F2; assumption|]]);
      cbn [map ip]; rewrite E0, ?E1, ?E2; cbn [pow]; lra.
  - apply Forall_cons; [|apply Forall_cons; [|apply Forall_nil]]; cbn [map ip]; rewrite E0, ?E1, ?E2; cbn [pow]; apply Rabs_le; lra.
  - split; [reflexivity|]; apply Forall_cons; [left; reflexivity|apply Forall_nil].
  - unfold probability; cbn [mean_over]; unfold average, pool; rewrite !total_cons, total_nil; cbn [length INR]; field.
  - exists (Z.to_nat 1000000); rewrite Z2Nat.id; lia.
Qed.
