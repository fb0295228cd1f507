(** Dot products that fit the target of a derivative.  Specification side; nothing here models code. *)
From Coq Require Import List.
Import ListNotations.
From Verif Require Import Base Shapes Scalar Buffers Spec Contraction Node Eval Types Vocab Diff_math.

(** If the target is a vector, the vectors in every dot product of [n] are as long as the target. *)
Definition fits {F} (G : tenv) (T : list nat) (n : node F) : Prop :=
  forall d l r, T = [d] -> part (Contract 1 l r) n -> typeof G l = Some (KA [d]) /\ typeof G r = Some (KA [d]).
