(** Averages over everything that may be drawn.  Specification side; nothing here models code. *)
From Coq Require Import List Reals.
Import ListNotations.
Local Open Scope R_scope.

Definition total {A} (f : A -> R) (l : list A) : R := fold_right (fun a s => f a + s) 0 l.
Definition average {A} (f : A -> R) (l : list A) : R := total f l / INR (length l).

(** The part of [l] where [f] is at least [d]. *)
Definition share {A} (f : A -> R) (d : R) (l : list A) : R :=
  average (fun a => if Rle_dec d (f a) then 1 else 0) l.

(** All sequences of [n] draws from [pool], each as often as it is equally likely. *)
Fixpoint sequences {A} (n : nat) (pool : list A) : list (list A) :=
  match n with
  | O => [[]]
  | S n' => flat_map (fun a => map (cons a) (sequences n' pool)) pool
  end.

(** The numbers [0, 1/k, .., (k-1)/k], and the points with [n] such coordinates. *)
Definition grid (k : nat) : list R := map (fun i => INR i / INR k) (seq 0 k).
Definition points (n k : nat) : list (list R) := sequences n (grid k).
