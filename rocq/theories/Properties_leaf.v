(** Which gradients compile, whatever the buffers are (properties C101, C36). *)
From Coq Require Import List Arith ZArith Lia.
Import ListNotations.
From Verif Require Import Base Shapes Scalar Buffers Spec Contraction Node Eval Types Instances Vocab
  Diff_math Typed_math Leaf_math Leaf_claims.

(** Every leaf must have a derivative by the target. *)
Theorem C101_leaves : forall F G (n n' m : node F) t,
  adjoint n t = Some n' -> typeof G n' <> None -> leaf m -> part m n ->
  exists k kt k', typeof G m = Some k /\ G t = Some kt /\ derives k kt k'.
Proof. exact @leaves_derive. Qed.
Print Assumptions C101_leaves.

(** So nothing with a vector on the heap has a gradient, nor anything by one. *)
Theorem C101_no_vecs : forall F G (n n' : node F) t,
  adjoint n t = Some n' -> typeof G n' <> None ->
  G t <> Some KV /\ forall m, leaf m -> part m n -> typeof G m <> Some KV.
Proof. exact @no_heap. Qed.
Print Assumptions C101_no_vecs.

(** Nor do pairs by a pair. *)
Theorem C101_no_pairs : forall F G (n n' : node F) t,
  adjoint n t = Some n' -> typeof G n' <> None -> G t = Some KT ->
  forall m, leaf m -> part m n -> typeof G m <> Some KT.
Proof. exact @no_pairs. Qed.
Print Assumptions C101_no_pairs.

(** By a scalar nothing else is needed. *)
Theorem C101_scalar : forall F G (n n' : node F) t k,
  scalar_sums G n -> typeof G n = Some k -> G t = Some KS -> adjoint n t = Some n' ->
  (typeof G n' <> None <->
   forall m km, leaf m -> part m n -> typeof G m = Some km ->
     few_axes (match m with Var _ => 3 | _ => 5 end) km).
Proof. exact @by_scalar. Qed.
Print Assumptions C101_scalar.

Theorem C101_scalar_type : forall F G (n n' : node F) t k k',
  scalar_sums G n -> typeof G n = Some k -> G t = Some KS -> adjoint n t = Some n' ->
  typeof G n' = Some k' -> k' = k.
Proof. exact @by_scalar_same. Qed.
Print Assumptions C101_scalar_type.

(** Over scalars, only sums and the like have a gradient by a pair. *)
Theorem C101_pair : forall F G (n n' : node F) t k,
  typeof G n = Some k -> G t = Some KT -> adjoint n t = Some n' ->
  (forall m, leaf m -> part m n -> typeof G m = Some KS) ->
  (typeof G n' <> None <-> forall m, part m n -> plain_rule m).
Proof. exact @by_pair. Qed.
Print Assumptions C101_pair.

(** C36.  Between [Vec]s and arrays the left operand wins, but no derivative that compiles involves
    [Vec]s: the order never matters where precedence is used. *)
Theorem C36_compiled_partial : forall l r k, adj_sty l r = Some k ->
  precedence (sty_cls l) (sty_cls r) = precedence (sty_cls r) (sty_cls l) /\
  exists k', adj_sty r l = Some k' /\ sty_cls k' = sty_cls k.
Proof. exact order_used. Qed.
Print Assumptions C36_compiled_partial.

Example C36_compiled_example :
  adj_sty KT (KA [3]) = Some (KA [2; 3]) /\ adj_sty (KA [3]) KT = Some (KA [3; 2]) /\ adj_sty KV (KA [3]) = None.
Proof. repeat split. Qed.

(** * Cases *)

(** Fields: a scalar, a pair, a vector on the heap, two arrays. *)
Definition fields : tenv := fun i => match i with
  | 0 => Some KS | 1 => Some KT | 2 => Some KV | 3 => Some (KA [3]) | 4 => Some (KA [1; 1; 1; 1]) | _ => None end.

Ltac leaf_cases := let P := fresh in let L := fresh in intros L P;
  repeat match goal with P : part _ _ |- _ => inversion P; subst; clear P end;
  try (destruct L as [[? L]|[[? [? L]]|[? L]]]; discriminate L).

(** A product of pairs by a scalar: meets C101_scalar, and has a gradient. *)
Example C101_example_scalar :
  let n : node Z := Mul (Var 1) (Un Exp (Var 1)) in
  scalar_sums fields n /\ typeof fields n = Some KT /\
  (forall m km, leaf m -> part m n -> typeof fields m = Some km -> few_axes (match m with Var _ => 3 | _ => 5 end) km) /\
  exists n', adjoint n 0 = Some n' /\ typeof fields n' = Some KT.
Proof.
  intro n; split; [repeat split|]; split; [reflexivity|]; split; [|eexists; split; reflexivity].
  intros m km; leaf_cases; intro E; injection E as <-; exact Logic.I.
Qed.

(** The same product with vectors on the heap compiles, but its gradient does not; nor does that of a
    variable with four axes, though a constant with four axes has one. *)
Example C101_example_vecs :
  let n : node Z := Mul (Var 2) (Un Exp (Var 2)) in
  let c : node Z := Const (VArr [1; 1; 1; 1] (AN [AN [AN [AN [AF 5%Z]]]])) in
  typeof fields n = Some KV /\ typeof fields (Var 4 : node Z) = Some (KA [1; 1; 1; 1]) /\
  typeof fields c = Some (KA [1; 1; 1; 1]) /\
  (exists n', adjoint n 0 = Some n' /\ typeof fields n' = None) /\
  (exists n', adjoint (Var 4 : node Z) 0 = Some n' /\ typeof fields n' = None) /\
  exists n', adjoint c 0 = Some n' /\ typeof fields n' = Some (KA [1; 1; 1; 1]).
Proof. repeat split; eexists; split; reflexivity. Qed.

(** By a pair: a sum of scalars has a gradient, a square has none. *)
Example C101_example_pair :
  let n : node Z := Sub (Var 0) (Un Double (Var 0)) in
  let q : node Z := Un Square (Var 0) in
  (forall m, leaf m -> part m q -> typeof fields m = Some KS) /\ typeof fields q = Some KS /\
  (exists n', adjoint n 1 = Some n' /\ typeof fields n' = Some KT) /\
  exists q', adjoint q 1 = Some q' /\ typeof fields q' = None.
Proof.
  intros n q; split; [intro m; leaf_cases; reflexivity|]; split; [reflexivity|]; split; eexists; split; reflexivity.
Qed.

(** Over arrays more is possible by a pair: a dot product has a gradient, and so does its square. *)
Example C101_pair_arrays_refuted :
  let d : node Z := Un Square (Contract 1 (Var 3) (Var 3)) in
  ~ plain_rule d /\ exists d', adjoint d 1 = Some d' /\ typeof fields d' = Some (KA [2]).
Proof.
  intro d; split; [unfold d, plain_rule, affine; cbn; intuition discriminate|eexists; split; reflexivity].
Qed.
