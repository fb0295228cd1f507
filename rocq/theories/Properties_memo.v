(** What evaluation leaves in the caches (property C84), in the terms of Memo_math.v. *)
From Coq Require Import List Arith ZArith.
Import ListNotations.
From Verif Require Import Base Shapes Scalar Buffers Spec Contraction Node Eval Types Instances
  Vocab Memo_math Memo_claims.

(** C84: after a successful evaluation exactly the caches that were reached have a value. *)
Theorem C84_filled : forall {F} {S : Scalar F} (n : node F) (c c' : ctx F),
  (forall v, evaluate n c = (c', Ok v) -> forall j, has c' j = filled false n (has c) j) /\
  (forall s, evaluate_spec n c = (c', Ok s) -> forall j, has c' j = filled false n (has c) j) /\
  (forall s, evaluate_shape n c = (c', Ok s) -> forall j, has c' j = filled true n (has c) j).
Proof. exact @caches_filled. Qed.
Print Assumptions C84_filled.

(** After an error or a panic, no others. *)
Theorem C84_reached : forall {F} {S : Scalar F} (n : node F) (c : ctx F) j,
  (has (fst (evaluate n c)) j = true -> filled false n (has c) j = true) /\
  (has (fst (evaluate_spec n c)) j = true -> filled false n (has c) j = true) /\
  (has (fst (evaluate_shape n c)) j = true -> filled true n (has c) j = true).
Proof. exact @caches_reached. Qed.
Print Assumptions C84_reached.

(** A second evaluation, in the context left by the first or in any with more entries, has the same
    result and changes nothing. *)
Theorem C84_again : forall {F} {S : Scalar F} (n : node F) (c c' d : ctx F), extends c' d ->
  (forall v, evaluate n c = (c', Ok v) -> evaluate n d = (d, Ok v)) /\
  (forall s, evaluate_spec n c = (c', Ok s) -> evaluate_spec n d = (d, Ok s)) /\
  (forall s, evaluate_shape n c = (c', Ok s) -> evaluate_shape n d = (d, Ok s)).
Proof. exact @caches_again. Qed.
Print Assumptions C84_again.

(** What a cache was filled with, by a successful or a failed evaluation, is the value that an expression
    under this cache has in the context left behind. *)
Theorem C84_stored : forall {F} {S : Scalar F} (n : node F) (c : ctx F) k w, keys_apart n -> c k = None ->
  forall c', c' = fst (evaluate n c) \/ c' = fst (evaluate_spec n c) \/ c' = fst (evaluate_shape n c) ->
  c' k = Some w -> exists m, stores m k n /\ forall d, extends c' d -> evaluate m d = (d, Ok w).
Proof. exact @caches_stored. Qed.
Print Assumptions C84_stored.

(** Witnesses. *)
(** [(cached₁(2 x0) + constadj(cached₂(x0)))]: both caches are filled, the second by the shape query. *)
Example C84_example :
  let S := Z_scalar in
  let n := Add (Cached (Un Double (Var 0)) 1) (ConstAdj (Cached (Var 0) 2) 0) in
  let c : ctx Z := fun j => match j with 0 => Some (VScal 5%Z) | _ => None end in
  let c' := fst (evaluate n c) in
  keys_apart n /\ snd (evaluate n c) = Ok (VScal 10%Z) /\
  map c' [0; 1; 2; 3] = [Some (VScal 5%Z); Some (VScal 10%Z); Some (VScal 5%Z); None] /\
  map (filled false n (has c)) [0; 1; 2; 3] = [true; true; true; false] /\
  stores (Un Double (Var 0)) 1 n /\ stores (Var 0) 2 n /\ extends c' c' /\ c 1 = None.
Proof.
  cbn; repeat split; auto; try (intros l []; fail); intros j x H; exact H.
Qed.

(** A sum is not entered when asked for its shape; nor is what stands under a filled cache. *)
Example C84_not_entered :
  let S := Z_scalar in
  let n := Sum (Cached (Var 0) 1) in
  let m := Cached (Un Double (Cached (Var 0) 1)) 2 in
  let c : ctx Z := fun j => match j with 0 => Some (VScal 5%Z) | _ => None end in
  let d : ctx Z := fun j => match j with 0 => Some (VScal 5%Z) | 2 => Some (VScal 7%Z) | _ => None end in
  fst (evaluate_shape n c) 1 = None /\ filled true n (has c) 1 = false /\
  fst (evaluate n c) 1 = Some (VScal 5%Z) /\
  snd (evaluate m d) = Ok (VScal 7%Z) /\ fst (evaluate m d) 1 = None.
Proof. cbn; repeat split. Qed.

(** With a cache under a cache of the same key, another cache can hold a value that its expression no
    longer has. *)
Example C84_nested_refuted : exists (n : node Z) (c : ctx Z),
  let S := Z_scalar in
  exists w m, c 2 = None /\ fst (evaluate n c) 2 = Some w /\ (forall l, stores l 2 n -> l = m) /\
  snd (evaluate m (fst (evaluate n c))) <> Ok w.
Proof.
  exists (Cached (Un Double (Cached (Cached (Var 0) 1) 2)) 1), (fun j => match j with 0 => Some (VScal 5%Z) | _ => None end).
  exists (VScal 5%Z), (Cached (Var 0) 1); cbn; repeat split; try discriminate.
  intros l H; intuition; congruence.
Qed.
