(** The logistic regression example in f64: C97. *)
From Coq Require Import List Arith ZArith Reals SpecFloat Bool Lia Lra.
Import ListNotations.
From Verif Require Import Base Shapes Scalar Buffers Spec Contraction Node Eval Instances
  Real_math Program_math Float_math Drift_math Ascent_math Programs Programs_claims Enclosure_claims Drift_claims Ascent_claims.

(** * C97 Rounding keeps the logistic regression example close to its exact run while logits stay below 29 *)

(** Up to 30 weights, numbers in [-1, 1], a rate up to 0.001, an accurate [exp]: as long as no draw is predicted
    with a logit beyond 29 by the exact run, in f64 nothing panics and no weight becomes NaN or infinite, and the
    weights found are within [n 2^-41] of those the same program finds over the reals after the same [n] draws. *)
Theorem C97_tracks : forall (pow : f64 -> f64 -> f64) (lib : libfn -> f64 -> f64) (inf : R) (sp : libfn -> R -> R)
    (rate : f64) (ws : list f64) (draws : list (list f64 * bool)),
  let FS := f64_scalar pow lib in let RS := R_scalar inf sp in
  good_exp (lib Lexp) ->
  f64_valid rate -> finite rate -> (0 <= f64_real rate <= / 1000)%R ->
  length ws <= 30 -> Forall unit_float ws ->
  Forall (fun d => length (fst d) = length ws /\ Forall unit_float (fst d)) draws ->
  (INR (length draws) <= 10 ^ 10)%R -> (INR (length draws) * f64_real rate <= 510)%R ->
  calm 29 (f64_real rate) (map f64_real ws) (real_draws draws) ->
  exists out exact,
    @logistic_run f64 FS (@logistic_auto f64 FS) rate ws draws = Ok out /\
    @logistic_run R RS (@logistic_auto R RS) (f64_real rate) (map f64_real ws) (real_draws draws) = Ok exact /\
    Forall finite out /\ length out = length ws /\ length exact = length ws /\
    (dist2 (map f64_real out) exact <= (INR (length draws) / 2 ^ 41) ^ 2)%R.
Proof.
  intros pow lib inf sp rate ws draws FS RS G V Fi B N W D Hn Hr C.
  exact (ascent_runs pow lib inf sp G false rate ws draws V Fi B N W D Hn Hr (or_intror C)).
Qed.
Print Assumptions C97_tracks.

(** The gradient written by hand in the benchmark needs no bound on the logits. *)
Theorem C97_by_hand : forall (pow : f64 -> f64 -> f64) (lib : libfn -> f64 -> f64) (inf : R) (sp : libfn -> R -> R)
    (rate : f64) (ws : list f64) (draws : list (list f64 * bool)),
  let FS := f64_scalar pow lib in let RS := R_scalar inf sp in
  good_exp (lib Lexp) ->
  f64_valid rate -> finite rate -> (0 <= f64_real rate <= / 1000)%R ->
  length ws <= 30 -> Forall unit_float ws ->
  Forall (fun d => length (fst d) = length ws /\ Forall unit_float (fst d)) draws ->
  (INR (length draws) <= 10 ^ 10)%R -> (INR (length draws) * f64_real rate <= 510)%R ->
  exists out exact,
    @logistic_run f64 FS (@logistic_by_hand f64 FS) rate ws draws = Ok out /\
    @logistic_run R RS (@logistic_auto R RS) (f64_real rate) (map f64_real ws) (real_draws draws) = Ok exact /\
    Forall finite out /\ length out = length ws /\ length exact = length ws /\
    (dist2 (map f64_real out) exact <= (INR (length draws) / 2 ^ 41) ^ 2)%R.
Proof.
  intros pow lib inf sp rate ws draws FS RS G V Fi B N W D Hn Hr.
  exact (ascent_runs pow lib inf sp G true rate ws draws V Fi B N W D Hn Hr (or_introl eq_refl)).
Qed.
Print Assumptions C97_by_hand.

(** Exact weights started at zero grow like the square root of the number of draws, whatever is drawn. *)
Theorem C97_growth : forall (rate B : R) (n : nat) (draws : list (list R * bool)),
  (0 <= rate)%R -> (0 <= B)%R ->
  Forall (fun d => length (fst d) = n /\ Forall (fun x => Rabs x <= 1)%R (fst d)) draws ->
  (INR n * (INR (length draws) * (rate * (6 / 10 + rate * INR n))) <= B ^ 2)%R ->
  calm B rate (repeat 0%R n) draws.
Proof. exact calm_start. Qed.
Print Assumptions C97_growth.

(** The program as it stands, 5 weights starting at zero and rate 0.0005, up to 550,000 of its million draws:
    whatever is drawn, every weight is within [2.6e-7] of what exact arithmetic gives. *)
Theorem C97_example_program : forall (pow : f64 -> f64 -> f64) (lib : libfn -> f64 -> f64) (inf : R) (sp : libfn -> R -> R)
    (draws : list (list f64 * bool)),
  let FS := f64_scalar pow lib in let RS := R_scalar inf sp in
  good_exp (lib Lexp) -> (Z.of_nat (length draws) <= 550000)%Z ->
  Forall (fun d => length (fst d) = 5 /\ Forall unit_float (fst d)) draws ->
  exists out exact,
    @logistic_run f64 FS (@logistic_auto f64 FS) small_rate (repeat f64_zero 5) draws = Ok out /\
    @logistic_run R RS (@logistic_auto R RS) (f64_real small_rate) (repeat 0%R 5) (real_draws draws) = Ok exact /\
    Forall finite out /\ Forall2 (fun x r => (Rabs (f64_real x - r) <= 26 / 10 ^ 8)%R) out exact.
Proof. intros pow lib inf sp draws FS RS G; exact (ascent_program pow lib inf sp G false draws). Qed.
Print Assumptions C97_example_program.

(** All million draws, with the gradient written by hand. *)
Theorem C97_by_hand_program : forall (pow : f64 -> f64 -> f64) (lib : libfn -> f64 -> f64) (inf : R) (sp : libfn -> R -> R)
    (draws : list (list f64 * bool)),
  let FS := f64_scalar pow lib in let RS := R_scalar inf sp in
  good_exp (lib Lexp) -> (Z.of_nat (length draws) <= 1000000)%Z ->
  Forall (fun d => length (fst d) = 5 /\ Forall unit_float (fst d)) draws ->
  exists out exact,
    @logistic_run f64 FS (@logistic_by_hand f64 FS) small_rate (repeat f64_zero 5) draws = Ok out /\
    @logistic_run R RS (@logistic_auto R RS) (f64_real small_rate) (repeat 0%R 5) (real_draws draws) = Ok exact /\
    Forall finite out /\ Forall2 (fun x r => (Rabs (f64_real x - r) <= 46 / 10 ^ 8)%R) out exact.
Proof. intros pow lib inf sp draws FS RS G; exact (ascent_program pow lib inf sp G true draws). Qed.
Print Assumptions C97_by_hand_program.

(** There are accurate exponentials, and draws that meet the hypotheses. *)
Example C97_example :
  let draws := [([power_of_half 1; f64_of_Z 1], true); ([f64_of_Z 1; power_of_half 2], false)] in
  good_exp (fun x => @nearest 53 1024 (exp (f64_real x))) /\
  f64_valid small_rate /\ finite small_rate /\ (0 <= f64_real small_rate <= / 1000)%R /\
  Forall (fun d : list f64 * bool => length (fst d) = 2 /\ Forall unit_float (fst d)) draws /\
  calm 29 (f64_real small_rate) (repeat 0%R 2) (real_draws draws) /\
  (exists n, Z.of_nat n = 550000%Z).
Proof.
  intros draws; destruct small_rate_real as (V & Fi & B).
  assert (H : forall j, j <= 53 -> unit_float (power_of_half j)).
  { intros j Hj; split; [apply half_valid, Hj|split; [exact Logic.I|]]; rewrite half_real.
    assert (P : (1 <= 2 ^ j)%R) by (apply pow_R1_Rle; lra).
    rewrite Rabs_pos_eq by (left; apply Rinv_0_lt_compat; lra); rewrite <- Rinv_1; apply Rinv_le_contravar; lra. }
  assert (H0 : unit_float (f64_of_Z 1)) by exact (H 0 ltac:(lia)).
  assert (H1 := H 1 ltac:(lia)); assert (H2 := H 2 ltac:(lia)).
  assert (F2 : forall x y, unit_float x -> unit_float y -> Forall unit_float [x; y]) by (intros; do 2 (constructor; [assumption|]); constructor).
  assert (D : Forall (fun d : list f64 * bool => length (fst d) = 2 /\ Forall unit_float (fst d)) draws).
  { do 2 (constructor; [split; [reflexivity|apply F2; assumption]|]); constructor. }
  split; [exact nearest_exp|split; [exact V|split; [exact Fi|split; [lra|split; [exact D|split]]]]].
  - apply calm_start; [lra|lra| |].
    + apply Forall_forall; intros d I; apply in_map_iff in I as (d' & <- & I); rewrite Forall_forall in D.
      cbn [fst]; destruct (D d' I) as [L U]; rewrite map_length; split; [exact L|].
      apply Forall_forall; intros r J; apply in_map_iff in J as (x & <- & J); rewrite Forall_forall in U; apply (U x J).
    + change (length (real_draws draws)) with 2; simpl INR; nra.
  - exists (Z.to_nat 550000); rewrite Z2Nat.id; lia.
Qed.

(** Without the bound: where [1 + exp(-40)] rounds to one, a draw predicted with a logit of 40 and labelled
    otherwise turns the weight into NaN, though not with the gradient written by hand. *)
Example C97_calm_refuted : forall (pow : f64 -> f64 -> f64) (lib : libfn -> f64 -> f64),
  let FS := f64_scalar pow lib in
  lib Lexp (f64_of_Z (-40)) = S754_finite false 5514679113423396 (-110) ->
  @logistic_run f64 FS (@logistic_auto f64 FS) small_rate [f64_of_Z 40] [([f64_of_Z 1], false)] = Ok [S754_nan] /\
  exists v, @logistic_run f64 FS (@logistic_by_hand f64 FS) small_rate [f64_of_Z 40] [([f64_of_Z 1], false)] = Ok [v] /\
    finite v.
Proof.
  intros pow lib FS E.
  assert (Em : SFopp (SFadd 53 1024 f64_zero (SFmul 53 1024 (f64_of_Z 1) (f64_of_Z 40))) = f64_of_Z (-40)) by (vm_compute; reflexivity).
  assert (S1 : @sigmoid f64 FS (@dotted f64 FS [f64_of_Z 1] [f64_of_Z 40]) = f64_of_Z 1).
  { unfold sigmoid, dotted; cbn [combine fold_left fst snd].
    change (@fle f64 FS fzero (fadd fzero (fmul (f64_of_Z 1) (f64_of_Z 40)))) with true; cbv iota.
    change (@fneg f64 FS (fadd fzero (fmul (f64_of_Z 1) (f64_of_Z 40))))
      with (SFopp (SFadd 53 1024 f64_zero (SFmul 53 1024 (f64_of_Z 1) (f64_of_Z 40)))).
    rewrite Em; change (@flib f64 FS Lexp (f64_of_Z (-40))) with (lib Lexp (f64_of_Z (-40))); rewrite E; vm_compute; reflexivity. }
  cbn [logistic_run]; split; [|eexists; split].
  - erewrite Programs_facts.logistic_step_by; [|apply Programs_facts.auto_logistic; reflexivity|reflexivity].
    rewrite S1; vm_compute; reflexivity.
  - erewrite Programs_facts.logistic_step_by; [|apply Programs_facts.hand_logistic; reflexivity|reflexivity].
    rewrite S1; cbn [res_bind]; reflexivity.
  - vm_compute; exact Logic.I.
Qed.
