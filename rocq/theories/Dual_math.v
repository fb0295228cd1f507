(** What a dual number stands for.  Specification side; nothing here models code. *)
From Coq Require Import Reals.
From Verif Require Import Dual.

(** The element [a + b*e] denoted by a dual number, for a given [e]. *)
Definition reading {R : Type} (add mul : R -> R -> R) (e : R) (d : dual R R) : R :=
  add (d_value d) (mul (d_adjoint d) e).

(** [tracks f t d]: the dual holds the value of [f] at [t] and its derivative there. *)
Definition tracks (f : R -> R) (t : R) (d : dual R R) : Prop :=
  f t = d_value d /\ derivable_pt_lim f t (d_adjoint d).
