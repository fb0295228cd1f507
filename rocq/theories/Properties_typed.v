(** Which expressions compile, by rules (property C100). *)
From Coq Require Import List Arith ZArith Lia.
Import ListNotations.
From Verif Require Import Base Shapes Scalar Buffers Spec Contraction Node Eval Types Instances Vocab
  Diff_math Typed_math Typed_claims.

(** The trait bounds hold exactly as the typing rules say. *)
Theorem C100_rules : forall F G (n : node F) k, typeof G n = Some k <-> has_type G n k.
Proof. exact @rules. Qed.
Print Assumptions C100_rules.

(** By the rules an expression has at most one type. *)
Theorem C100_unique : forall F G (n : node F) k k', has_type G n k -> has_type G n k' -> k = k'.
Proof. exact @one_type. Qed.
Print Assumptions C100_unique.

(** The rules reject nothing for which there is code: whatever the implementations evaluate has the
    type of its value. *)
Theorem C100_evaluates : forall F (S : Scalar F) G (n : node F) c c' v,
  node_wf n -> undifferentiated n -> ctx_ok G c ->
  evaluate n c = (c', Ok v) -> has_type G n (sty_of (bty_of v)).
Proof. exact @evaluates_typed. Qed.
Print Assumptions C100_evaluates.

(** * Cases *)

(** Pairs are added to pairs, and summed; a matrix with two rows and three columns times a vector of
    two entries has three. *)
Definition shapes : tenv := fun i => match i with
  | 0 => Some KT | 1 => Some (KA [2; 3]) | 2 => Some (KA [2]) | 3 => Some KV | 4 => Some (KA [1; 1; 1; 1]) | _ => None end.
Definition pair_sum : node Z := Sum (Mul (Var 0) (Add (Var 0) (Const (VTup 1%Z 2%Z)))).
Definition buffers : ctx Z := fun i => match i with 0 => Some (VTup 3%Z 4%Z) | _ => None end.

Example C100_example :
  let S := Z_scalar in
  node_wf pair_sum /\ undifferentiated pair_sum /\ ctx_ok shapes buffers /\
  evaluate pair_sum buffers = (buffers, Ok (VScal 36%Z)) /\ has_type shapes pair_sum KS /\
  has_type shapes (Contract 1 (Var 1) (Var 2) : node Z) (KA [3]) /\
  (forall k, ~ has_type shapes (Add (Var 0) (Contract 1 (Var 2) (Var 2)) : node Z) k) /\
  (forall k, ~ has_type shapes (VarAdj 3 3 : node Z) k).
Proof.
  cbn zeta; split; [cbn; auto|]. split; [cbn; auto|].
  split. { intros [|i] v E; [|discriminate]; injection E as <-; split; [exact Logic.I|reflexivity]. }
  split; [vm_compute; reflexivity|].
  split. { apply type_sum with KT, (type_mul _ _ _ KT KT); [constructor; reflexivity| |constructor].
           apply (type_add _ _ _ KT KT); [constructor; reflexivity|apply (type_const _ (VTup 1%Z 2%Z))|constructor]. }
  split. { apply (type_contract _ 1 _ _ [2; 3] [2] [3]); constructor; reflexivity. }
  split; intros k H; apply C100_rules in H; discriminate H.
Qed.

(** The derivative of a variable with four axes by a scalar could be evaluated, but a bound on the
    variable itself (variable.rs:143) rejects it: the last theorem needs expressions built from
    variables and constants. *)
Example C100_adjoint_refuted : exists G c v, let S := Z_scalar in
  ctx_ok G c /\ evaluate (VarAdj 0 1) c = (c, Ok v) /\ forall k, ~ has_type G (VarAdj 0 1 : node Z) k.
Proof.
  pose (a := VArr [1; 1; 1; 1] (AN [AN [AN [AN [AF 5%Z]]]])).
  exists (fun i => match i with 0 => Some (KA [1; 1; 1; 1]) | 1 => Some KS | _ => None end),
    (fun i => match i with 0 => Some a | 1 => Some (VScal 1%Z) | _ => None end).
  eexists; cbn zeta; split; [|split; [vm_compute; reflexivity|intros k H; apply C100_rules in H; discriminate H]].
  intros [|[|i]] v E; [| |discriminate]; injection E as <-; (split; [|reflexivity]); [|exact Logic.I].
  cbn; repeat split; auto; repeat constructor.
Qed.
