(** Second derivatives do not depend on the order of differentiation (property C86). *)
From Coq Require Import List Arith ZArith Reals Bool Lia Lra.
Import ListNotations.
From Verif Require Import Base Shapes Scalar Buffers Spec Contraction Node Eval Types Instances
  Vocab Math Real_math Calculus Hessian_claims.

(** C86: differentiating by [t] and then by [u] gives, at entry [i ++ j ++ k], what differentiating by
    [u] and then by [t] gives at [i ++ k ++ j].  Over the reals, under the conditions of C05 for
    both orders.  With [u = t]: the Hessian is symmetric. *)
Theorem C86_symmetric : forall inf sp G (c : ctx R) t u (n n1 n12 n2 n21 : node R) e,
  let S := R_scalar inf sp in
  posed G c t n n1 -> adjoint n1 u = Some n12 -> typeof G n12 <> None -> square G n12 ->
  posed G c u n n2 -> adjoint n2 t = Some n21 -> typeof G n21 <> None -> square G n21 ->
  (0 < e)%R ->
  (forall k h, (Rabs h < e)%R -> regular (real_un inf sp) (bump c u k h) n /\ smooth inf sp (bump c u k h) t n) ->
  (forall k h, (Rabs h < e)%R -> regular (real_un inf sp) (bump c t k h) n /\ smooth inf sp (bump c t k h) u n) ->
  smooth inf sp c u n1 -> smooth inf sp c t n2 ->
  exists v w12 w21 x y,
    evaluate n c = (c, Ok v) /\ evaluate_adjoint n1 u c = Some (c, Ok w12) /\
    evaluate_adjoint n2 t c = Some (c, Ok w21) /\ c t = Some x /\ c u = Some y /\
    dims (vshape w12) = dims (vshape v) ++ dims (vshape x) ++ dims (vshape y) /\
    dims (vshape w21) = dims (vshape v) ++ dims (vshape y) ++ dims (vshape x) /\
    forall i j k, in_box (dims (vshape v)) i -> in_box (dims (vshape x)) j -> in_box (dims (vshape y)) k ->
      vat 0%R w12 (i ++ j ++ k) = vat 0%R w21 (i ++ k ++ j).
Proof. exact hessian_symmetric. Qed.
Print Assumptions C86_symmetric.

(** A vector [z sin(x y)] with [x^y] added to each entry, differentiated by [x] and [y]. *)
Example C86_example : forall inf sp (x y : R) (z : value R), (0 < x)%R -> vwf z -> bty_of z = TA [2] ->
  let S := R_scalar inf sp in
  let G : tenv := fun i => match i with 0 | 1 => Some KS | 2 => Some (KA [2]) | _ => None end in
  let c : ctx R := fun i => match i with 0 => Some (VScal x) | 1 => Some (VScal y) | 2 => Some z | _ => None end in
  let n := Add (Mul (Var 2) (Un Sin (Mul (Var 0) (Var 1)))) (Power (Var 0) (Var 1)) in
  exists n1 n12 n2 n21 e,
    posed G c 0 n n1 /\ adjoint n1 1 = Some n12 /\ typeof G n12 <> None /\ square G n12 /\
    posed G c 1 n n2 /\ adjoint n2 0 = Some n21 /\ typeof G n21 <> None /\ square G n21 /\
    (0 < e)%R /\
    (forall k h, (Rabs h < e)%R -> regular (real_un inf sp) (bump c 1 k h) n /\ smooth inf sp (bump c 1 k h) 0 n) /\
    (forall k h, (Rabs h < e)%R -> regular (real_un inf sp) (bump c 0 k h) n /\ smooth inf sp (bump c 0 k h) 1 n) /\
    smooth inf sp c 1 n1 /\ smooth inf sp c 0 n2.
Proof.
  intros inf sp x y z Px Wz Bz S G c n.
  assert (P : forall t, t = 0 \/ t = 1 -> exists n', posed G c t n n').
  { intros t Ht; eexists; constructor; try reflexivity.
    - intros [|[|[|i]]] v E; inversion E; subst; simpl; rewrite ?Bz; auto.
    - intros i; cbn [uses n]; intros [[[-> | [-> | ->]] | [-> | ->]] | ->]; try discriminate; destruct Ht as [-> | ->]; discriminate.
    - cbn; auto.
    - cbn; auto 20.
    - discriminate.
    - destruct Ht as [-> | ->]; discriminate.
    - cbn; auto 20.
    - destruct Ht as [-> | ->]; cbn; auto 40. }
  destruct (P 0 (or_introl eq_refl)) as [n1 P1], (P 1 (or_intror eq_refl)) as [n2 P2].
  assert (A1 := p_adj _ _ _ _ _ P1); assert (A2 := p_adj _ _ _ _ _ P2); cbn in A1, A2.
  injection A1 as <-; injection A2 as <-.
  do 5 eexists; split; [exact P1|split; [reflexivity|split; [discriminate|split; [cbn; auto 60|]]]].
  split; [exact P2|split; [reflexivity|split; [discriminate|split; [cbn; auto 60|]]]].
  split; [exact Px|].
  assert (Q : forall (c' : ctx R) (t : ident), (0 < tat (rden inf sp c' (Var 0%nat)) [])%R -> regular (real_un inf sp) c' n /\ smooth inf sp c' t n).
  { intros c' t Pc; split.
    - cbn [regular n]; repeat split; auto; intro Z; exfalso.
      change (tat (rden inf sp c' (Var 0)) [] = 0%R) in Z; rewrite Z in Pc; lra.
    - cbn [smooth n]; repeat split; auto. }
  split; [|split; [|split]].
  - intros k h _; apply Q; exact Px.
  - intros k h Hh; apply Q; apply Rabs_def2 in Hh; cbn; destruct k; cbn; lra.
  - cbn [smooth]; repeat split; auto; intros; exact Px.
  - cbn [smooth]; repeat split; auto; intros; exact Px.
Qed.
