(** Floats as the example programs draw them.  Specification side; nothing here models code. *)
From Coq Require Import List Reals SpecFloat ZArith.
From Verif Require Import Instances Float_math Mean_math.
Local Open Scope R_scope.

(** A number of f64 in [-1, 1]. *)
Definition unit_float (x : f64) : Prop := f64_valid x /\ finite x /\ Rabs (f64_real x) <= 1.

(** [0.01]: the nearest number of f64. *)
Definition hundredth : f64 := S754_finite false 5764607523034235 (-59).

(** The numbers [0, 2^-j, .., 1 - 2^-j] in f64, computed as an integer times [2^-j], and the points with [n]
    such coordinates; [rand] draws them with [j = 53]. *)
Definition power_of_half (j : nat) : f64 := S754_finite false (2 ^ 52) (- Z.of_nat j - 52).
Definition float_grid (j : nat) : list f64 :=
  map (fun i => SFmul 53 1024 (f64_of_Z (Z.of_nat i)) (power_of_half j)) (seq 0 (2 ^ j)).
Definition float_points (n j : nat) : list (list f64) := sequences n (float_grid j).
