(** The linear regression example in f64: C96. *)
From Coq Require Import List Arith ZArith Reals SpecFloat Bool Lia Lra.
Import ListNotations.
From Verif Require Import Base Shapes Scalar Buffers Spec Contraction Node Eval Instances
  Real_math Program_math Float_math Mean_math Drift_math Programs Programs_claims Drift_claims.

(** * C96 Rounding does not keep the linear regression example from the true weights *)

(** Up to 30 weights, numbers in [-1, 1], rate 0.01, starting no further than [sqrt 30] from the true weights,
    up to [2^42] draws: in f64 nothing panics and nothing overflows, and the weights found are within [n 2^-42]
    of those the same program finds over the reals after the same [n] draws. *)
Theorem C96_tracks : forall (pow : f64 -> f64 -> f64) (lib : libfn -> f64 -> f64) (inf : R) (sp : libfn -> R -> R)
    (tw ws : list f64) (draws : list (list f64)),
  let FS := f64_scalar pow lib in let RS := R_scalar inf sp in
  length tw <= 30 -> Forall unit_float tw -> length ws = length tw ->
  Forall (fun x => f64_valid x /\ finite x) ws -> (dist2 (map f64_real ws) (map f64_real tw) <= 30)%R ->
  Forall (fun xs => length xs = length tw /\ Forall unit_float xs) draws -> (INR (length draws) <= 2 ^ 42)%R ->
  exists out exact,
    @linear_run f64 FS (@linear_auto f64 FS) hundredth tw ws draws = Ok out /\
    @linear_run R RS (@linear_auto R RS) (f64_real hundredth) (map f64_real tw) (map f64_real ws)
      (map (map f64_real) draws) = Ok exact /\
    Forall finite out /\ length out = length tw /\
    (dist2 (map f64_real out) exact <= (INR (length draws) / 2 ^ 42) ^ 2)%R.
Proof. intros; eapply drift_runs; eauto. Qed.
Print Assumptions C96_tracks.

(** The computed weights are never further from the true ones than the first, but for [2^-42] with each draw. *)
Theorem C96_distance : forall (pow : f64 -> f64 -> f64) (lib : libfn -> f64 -> f64)
    (tw ws : list f64) (draws : list (list f64)) (out : list f64) (D : R),
  let FS := f64_scalar pow lib in
  length tw <= 30 -> Forall unit_float tw -> length ws = length tw ->
  Forall (fun x => f64_valid x /\ finite x) ws -> (0 <= D)%R -> (D ^ 2 <= 30)%R ->
  (dist2 (map f64_real ws) (map f64_real tw) <= D ^ 2)%R ->
  Forall (fun xs => length xs = length tw /\ Forall unit_float xs) draws -> (INR (length draws) <= 2 ^ 42)%R ->
  @linear_run f64 FS (@linear_auto f64 FS) hundredth tw ws draws = Ok out ->
  (dist2 (map f64_real out) (map f64_real tw) <= (D + INR (length draws) / 2 ^ 42) ^ 2)%R.
Proof. intros pow lib tw ws draws out D FS; apply (drift_distance pow lib 0 (fun _ _ => 0%R)). Qed.
Print Assumptions C96_distance.

(** The program as it stands: 30 weights starting at zero, ten million draws.  Every weight printed is within
    [2.3e-6] of what exact arithmetic gives. *)
Theorem C96_example_program : forall (pow : f64 -> f64 -> f64) (lib : libfn -> f64 -> f64) (inf : R) (sp : libfn -> R -> R)
    (tw : list f64) (draws : list (list f64)),
  let FS := f64_scalar pow lib in let RS := R_scalar inf sp in
  length tw = 30 -> Forall unit_float tw -> Z.of_nat (length draws) = 10000000%Z ->
  Forall (fun xs => length xs = 30 /\ Forall unit_float xs) draws ->
  exists out exact,
    @linear_main f64 FS hundredth tw draws = Ok out /\
    @linear_main R RS (f64_real hundredth) (map f64_real tw) (map (map f64_real) draws) = Ok exact /\
    Forall finite out /\ Forall2 (fun x r => (Rabs (f64_real x - r) <= 23 / 10 ^ 7)%R) out exact.
Proof. exact drift_program. Qed.
Print Assumptions C96_example_program.

(** The numbers drawn are the multiples of [2^-j] in [0, 1), exactly. *)
Theorem C96_draws : forall n j, j <= 53 -> map (map f64_real) (float_points n j) = points n (2 ^ j).
Proof. exact real_points. Qed.
Print Assumptions C96_draws.

(** On average over the draws the computed weights converge geometrically, down to the effect of rounding. *)
Theorem C96_average : forall (pow : f64 -> f64 -> f64) (lib : libfn -> f64 -> f64) (tw : list f64) (j n : nat),
  let FS := f64_scalar pow lib in
  length tw = 30 -> Forall unit_float tw -> 1 <= j <= 53 -> (INR n <= 2 ^ 42)%R ->
  exists out : list (list f64) -> list f64,
    (forall d, In d (sequences n (float_points 30 j)) ->
       @linear_main f64 FS hundredth tw d = Ok (out d) /\ Forall finite (out d)) /\
    (average (fun d => dist2 (map f64_real (out d)) (map f64_real tw)) (sequences n (float_points 30 j)) <=
      2 * ((1 - 7 / 4000) ^ n * ip (map f64_real tw) (map f64_real tw)) + 2 * (INR n / 2 ^ 42) ^ 2)%R.
Proof. exact drift_average. Qed.
Print Assumptions C96_average.

(** The program as it stands: the mean squared distance of what is printed from the true weights, and the
    probability that the distance is [1e-4] or more. *)
Theorem C96_average_program : forall (pow : f64 -> f64 -> f64) (lib : libfn -> f64 -> f64) (tw : list f64) (n : nat),
  let FS := f64_scalar pow lib in
  length tw = 30 -> Forall unit_float tw -> Z.of_nat n = 10000000%Z ->
  exists out : list (list f64) -> list f64,
    (forall d, In d (sequences n (float_points 30 53)) ->
       @linear_main f64 FS hundredth tw d = Ok (out d) /\ Forall finite (out d)) /\
    (average (fun d => dist2 (map f64_real (out d)) (map f64_real tw)) (sequences n (float_points 30 53)) <= 11 / 10 ^ 12)%R /\
    (share (fun d => dist2 (map f64_real (out d)) (map f64_real tw)) (/ 10 ^ 8) (sequences n (float_points 30 53))
       <= 11 / 10 ^ 4)%R.
Proof. exact drift_average_program. Qed.
Print Assumptions C96_average_program.

(** Two weights, two draws: [0.5, 0.25] sought, [1, 0.5] and [0.5, 1] drawn.  They lead to [0.017375, 0.016]. *)
Example C96_example : forall (pow : f64 -> f64 -> f64) (lib : libfn -> f64 -> f64),
  let FS := f64_scalar pow lib in
  let tw := [power_of_half 1; power_of_half 2] in
  let draws := [[f64_of_Z 1; power_of_half 1]; [power_of_half 1; f64_of_Z 1]] in
  Forall unit_float tw /\ Forall (fun xs => length xs = length tw /\ Forall unit_float xs) draws /\
  (dist2 (map f64_real [f64_zero; f64_zero]) (map f64_real tw) <= 30)%R /\
  @linear_run f64 FS (@linear_auto f64 FS) hundredth tw [f64_zero; f64_zero] draws =
    Ok [S754_finite false 5008002785635992 (-58); S754_finite false 4611686018427388 (-58)] /\
  (exists n, Z.of_nat n = 10000000%Z).
Proof.
  intros pow lib FS tw draws.
  assert (H : forall j, j <= 53 -> unit_float (power_of_half j)).
  { intros j Hj; split; [apply half_valid, Hj|split; [exact Logic.I|]]; rewrite half_real.
    assert (P : (1 <= 2 ^ j)%R) by (apply pow_R1_Rle; lra).
    rewrite Rabs_pos_eq by (left; apply Rinv_0_lt_compat; lra); rewrite <- Rinv_1; apply Rinv_le_contravar; lra. }
  assert (H0 : unit_float (f64_of_Z 1)) by exact (H 0 ltac:(lia)).
  assert (H1 := H 1 ltac:(lia)); assert (H2 := H 2 ltac:(lia)).
  assert (F2 : forall x y, unit_float x -> unit_float y -> Forall unit_float [x; y]) by (intros; do 2 (constructor; [assumption|]); constructor).
  split; [apply F2; assumption|].
  split; [do 2 (constructor; [split; [reflexivity|apply F2; assumption]|]); constructor|].
  split; [unfold tw; cbn [map dist2]; rewrite !half_real; cbn; lra|].
  split; [vm_compute; reflexivity|exists (Z.to_nat 10000000); rewrite Z2Nat.id; lia].
Qed.

(** At a rate of [2^600] two draws lead to infinity. *)
Example C96_rate_refuted : forall (pow : f64 -> f64 -> f64) (lib : libfn -> f64 -> f64),
  let FS := f64_scalar pow lib in
  @linear_run f64 FS (@linear_auto f64 FS) (S754_finite false (2 ^ 52) 548) [f64_of_Z 1] [f64_zero]
    [[f64_of_Z 1]; [f64_of_Z 1]] = Ok [S754_infinity true].
Proof. intros; vm_compute; reflexivity. Qed.
