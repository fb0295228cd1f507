(** The programs in aegir/examples and aegir/benches: C46, C47, C48, C49. *)
From Coq Require Import List Arith ZArith Reals Bool SpecFloat Lia Lra.
Import ListNotations.
From Verif Require Import Base Shapes Scalar Buffers Spec Contraction Node Eval Instances
  Float_math Real_math Program_math Programs Programs_claims.

(** * C46 The linear regression example is least mean squares and approaches the true weights *)

(** The loop never panics and computes the textbook algorithm. *)
Theorem C46_lms : forall inf sp rate tw ws draws,
  let S := R_scalar inf sp in
  Forall (fun xs => length xs = length ws) draws ->
  linear_run linear_auto rate tw ws draws = Ok (lms_all rate tw ws draws).
Proof. intros; apply linear_run_lms; assumption. Qed.
Print Assumptions C46_lms.

(** For inputs of squared length at most [B] the squared distance to the true weights falls by at
    least [4 rate (1 - rate B)] times the squared prediction errors met on the way. *)
Theorem C46_progress : forall inf sp rate B tw ws draws ws',
  let S := R_scalar inf sp in
  (0 <= rate)%R -> length tw = length ws ->
  Forall (fun xs => length xs = length ws /\ (ip xs xs <= B)%R) draws ->
  linear_run linear_auto rate tw ws draws = Ok ws' ->
  (dist2 ws' tw + 4 * rate * (1 - rate * B) * lms_loss rate tw ws draws <= dist2 ws tw)%R.
Proof. exact linear_progress. Qed.
Print Assumptions C46_progress.

(** So, however long it runs, only so many predictions are off by [eps] or more. *)
Theorem C46_misses : forall inf sp eps rate B tw ws draws ws',
  let S := R_scalar inf sp in
  (0 <= eps)%R -> (0 <= rate)%R -> (rate * B <= 1)%R -> length tw = length ws ->
  Forall (fun xs => length xs = length ws /\ (ip xs xs <= B)%R) draws ->
  linear_run linear_auto rate tw ws draws = Ok ws' ->
  (4 * rate * (1 - rate * B) * (eps * eps) * INR (lms_misses eps rate tw ws draws) <= dist2 ws tw)%R.
Proof. exact linear_misses. Qed.
Print Assumptions C46_misses.

(** The program as it stands: rate 0.01, inputs from the unit cube, weights starting at zero. *)
Theorem C46_example_program : forall inf sp tw draws,
  let S := R_scalar inf sp in
  (length tw <= 100)%nat ->
  Forall (fun xs => length xs = length tw /\ Forall (fun x => (0 <= x <= 1)%R) xs) draws ->
  let w0 := repeat 0%R (length tw) in
  exists ws, linear_main (1 / 100)%R tw draws = Ok ws /\ length ws = length tw /\
    (dist2 ws tw <= dist2 w0 tw)%R /\
    ((1 - INR (length tw) / 100) * lms_loss (1 / 100) tw w0 draws <= 25 * dist2 w0 tw)%R.
Proof. exact linear_example. Qed.
Print Assumptions C46_example_program.

Example C46_example :
  Forall (fun xs => length xs = length [1%R; 1%R] /\ Forall (fun x => (0 <= x <= 1)%R) xs) [[1; 0]; [0; 1]]%R /\
  lms_all (1 / 4) [1; 1]%R [0; 0]%R [[1; 0]; [0; 1]]%R = [1 / 2; 1 / 2]%R /\
  Forall (fun xs => length xs = 2 /\ (ip xs xs <= 1)%R) [[1; 0]; [0; 1]]%R /\
  dist2 [0; 0]%R [1; 1]%R = 2%R /\ dist2 [1 / 2; 1 / 2]%R [1; 1]%R = (1 / 2)%R /\
  lms_misses (1 / 2) (1 / 4) [1; 1]%R [0; 0]%R [[1; 0]; [0; 1]]%R = 2.
Proof.
  split; [|split; [|split; [|split; [|split]]]].
  - repeat constructor; lra.
  - unfold lms_all; cbn -[Rmult Rplus Ropp Rminus Rdiv]; f_equal; [field|f_equal; field].
  - repeat constructor; cbn; lra.
  - cbn; lra.
  - cbn; lra.
  - cbn -[Rmult Rplus Ropp Rminus Rdiv]; unfold lms, move, ip.
    destruct (Rle_dec _ _) as [H|H]; [|exfalso; apply H; rewrite Rabs_left; lra].
    destruct (Rle_dec _ _) as [H'|H']; [reflexivity|exfalso; apply H'; rewrite Rabs_left; lra].
Qed.

(** * C47 The three linear regression benchmarks compute the same floats *)

(** For any scalars with a commutative product and a unit for the inputs. *)
Theorem C47_same : forall F (S : Scalar F) (good : F -> Prop) rate tw ws draws,
  is_zero fzero = true -> (forall x y : F, fmul x y = fmul y x) ->
  (forall x : F, good x -> fmul fone x = x) ->
  Forall (fun xs => length xs = length ws /\ Forall good xs) draws ->
  exists ws', linear_run linear_auto rate tw ws draws = Ok ws' /\
              linear_run linear_by_hand rate tw ws draws = Ok ws' /\
              linear_run linear_raw rate tw ws draws = Ok ws' /\ length ws' = length ws.
Proof. intros; eapply runs_same; eassumption. Qed.
Print Assumptions C47_same.

(** One gradient, in 64-bit floats. *)
Theorem C47_gradient : forall pow lib xs ws y,
  let S := f64_scalar pow lib in
  length xs = length ws -> Forall (fun x => valid_binary 53 1024 x = true) xs ->
  exists g, linear_auto (xyw xs y ws) = Ok (array1 g) /\ linear_by_hand (xyw xs y ws) = Ok (array1 g) /\
            linear_raw (xyw xs y ws) = Ok (array1 g) /\ length g = length ws.
Proof. exact float_gradients_same. Qed.
Print Assumptions C47_gradient.

(** Whole runs, in 64-bit floats: any rate, weights and inputs, including infinities and NaN. *)
Theorem C47_runs : forall pow lib rate tw ws draws,
  let S := f64_scalar pow lib in
  Forall (fun xs => length xs = length ws /\ Forall (fun x => valid_binary 53 1024 x = true) xs) draws ->
  exists ws', linear_run linear_auto rate tw ws draws = Ok ws' /\
              linear_run linear_by_hand rate tw ws draws = Ok ws' /\
              linear_run linear_raw rate tw ws draws = Ok ws' /\ length ws' = length ws.
Proof. exact float_runs_same. Qed.
Print Assumptions C47_runs.

(** The gradient without aegir panics exactly if a variable is missing. *)
Theorem C47_missing : forall F (S : Scalar F) (c : ctx F),
  linear_raw c = Panic <-> c idX = None \/ c idW = None \/ c idY = None.
Proof. exact @raw_missing. Qed.
Print Assumptions C47_missing.

(** Whatever computes the gradient, an error or a panic there ends the loops, here and in the logistic
    regression, in a panic. *)
Theorem C47_failing : forall F (S : Scalar F) (grad : ctx F -> res err (value F)) rate tw ws xs (b : bool) rest draws,
  ((exists e, grad (xyw xs (dotted xs tw) ws) = Err e) \/ grad (xyw xs (dotted xs tw) ws) = Panic ->
   linear_run grad rate tw ws (xs :: rest) = Panic) /\
  ((exists e, grad (xyw xs (if b then fone else fzero) ws) = Err e) \/
   grad (xyw xs (if b then fone else fzero) ws) = Panic ->
   logistic_run grad rate ws ((xs, b) :: draws) = Panic).
Proof. exact @failing_gradient. Qed.
Print Assumptions C47_failing.

(** An expression of a missing variable. *)
Example C47_failing_example :
  let S := Z_scalar in
  let grad := fun c : ctx Z => snd (evaluate (Var 7) c) in
  let raw := fun c : ctx Z => linear_raw (fun i => if i =? idX then None else c i) in
  grad (xyw [1]%Z (dotted [1] [2])%Z [3]%Z) = Err (Undefined 7) /\
  linear_run grad 1%Z [2]%Z [3]%Z [[1]%Z] = Panic /\ raw (xyw [1]%Z 2%Z [3]%Z) = Panic.
Proof. repeat split. Qed.

Example C47_example : forall pow lib,
  let S := f64_scalar pow lib in
  let draws := [[f64_of_Z 3; f64_of_Z 1]; [S754_infinity true; f64_zero]] in
  Forall (fun xs => length xs = 2 /\ Forall (fun x => valid_binary 53 1024 x = true) xs) draws /\
  linear_run linear_raw (f64_of_Z 1) [f64_of_Z 1; f64_of_Z 2] [f64_zero; f64_of_Z 1] [[f64_of_Z 3; f64_of_Z 1]] =
  Ok [f64_of_Z 24; f64_of_Z 9].
Proof. intros; split; [repeat constructor|reflexivity]. Qed.

(** * C48 The logistic regression example is gradient ascent on the likelihood *)

(** The derived gradient and the one written by hand are both the textbook one. *)
Theorem C48_gradient : forall inf sp grad ws xs b,
  let S := R_scalar inf sp in
  grad = logistic_auto \/ grad = logistic_by_hand ->
  length xs = length ws ->
  grad (xyw xs (label b) ws) =
  Ok (array1 (map (fun x => ((label b - logit (ip xs ws)) * x)%R) xs)).
Proof. exact logistic_gradients. Qed.
Print Assumptions C48_gradient.

Theorem C48_run : forall inf sp grad rate ws draws,
  let S := R_scalar inf sp in
  grad = logistic_auto \/ grad = logistic_by_hand ->
  Forall (fun d => length (fst d) = length ws) draws ->
  logistic_run grad rate ws draws = Ok (climb_all rate ws draws).
Proof. intros inf sp grad rate ws draws S G; apply logistic_run_climb; exact G. Qed.
Print Assumptions C48_run.

(** A step with any non-negative rate never makes the label just seen less likely. *)
Theorem C48_improves : forall inf sp grad rate ws xs b ws',
  let S := R_scalar inf sp in
  grad = logistic_auto \/ grad = logistic_by_hand ->
  (0 <= rate)%R -> length xs = length ws ->
  logistic_step grad rate ws xs b = Ok ws' ->
  (lik b (ip xs ws) <= lik b (ip xs ws'))%R.
Proof. exact logistic_improves. Qed.
Print Assumptions C48_improves.

(** In 64-bit floats, where exp(-800) is 0, the derived gradient is NaN and the one written by
    hand is 1. *)
Theorem C48_floats_differ : forall pow lib,
  let S := f64_scalar pow lib in
  lib Lexp (f64_of_Z (-800)) = f64_zero ->
  exists xs ws y v, logistic_auto (xyw xs y ws) = Ok (array1 [S754_nan]) /\
    logistic_by_hand (xyw xs y ws) = Ok (array1 [v]) /\ v = f64_of_Z 1 /\
    Forall (fun x => finite_float x = true) (y :: xs ++ ws).
Proof. exact logistic_floats. Qed.
Print Assumptions C48_floats_differ.

Example C48_example :
  (label true = 1 /\ logit 0 = 1 / 2 /\
   climb_all 2 [0; 0]%R [([1; 2]%R, true); ([0; 0]%R, false)] = [1; 2]%R /\
   lik true (ip [1; 2]%R [0; 0]%R) = 1 / 2 /\ lik true 5 > 1 / 2)%R.
Proof.
  assert (L : logit 0 = (1 / 2)%R) by (unfold logit; rewrite Ropp_0, exp_0; lra).
  split; [reflexivity|split; [exact L|split; [|split]]].
  - unfold climb_all; cbn [fold_left fst snd]; unfold climb; cbn [ip move label].
    replace (1 * 0 + (2 * 0 + 0))%R with 0%R by ring; rewrite L.
    f_equal; [field|f_equal; field].
  - cbn [ip lik]; replace (1 * 0 + (2 * 0 + 0))%R with 0%R by ring; exact L.
  - unfold lik; rewrite <- L; apply (logit_lt 0%R (fun _ x => x)); lra.
Qed.

(** * C49 Caching does not change the result of the caching example *)

(** For every vector and scalar type; afterwards the cache holds the value of the cached node. *)
Theorem C49_same : forall F (S : Scalar F) (x : list F),
  exists s v,
    snd (evaluate basic (cache_ctx x)) = Ok (VScal s) /\
    evaluate (repeated basic) (cache_ctx x) = (cache_ctx x, Ok v) /\
    evaluate (repeated cached) (cache_ctx x) = (write (cache_ctx x) idC (VScal s), Ok v).
Proof. exact @caching_example. Qed.
Print Assumptions C49_same.

Theorem C49_real : forall inf sp (x : list R),
  let S := R_scalar inf sp in
  snd (evaluate (repeated basic) (cache_ctx x)) = Ok (VScal (- 16 * fold_right Rplus 0 x)%R) /\
  snd (evaluate (repeated cached) (cache_ctx x)) = Ok (VScal (- 16 * fold_right Rplus 0 x)%R).
Proof. exact caching_real. Qed.
Print Assumptions C49_real.

Example C49_example : forall pow lib,
  let S := f64_scalar pow lib in
  snd (evaluate (repeated cached) (cache_ctx [f64_of_Z 1; f64_of_Z 2; f64_of_Z 3])) =
  Ok (VScal (f64_of_Z (-96))).
Proof. reflexivity. Qed.
