(** Steps against the gradient, over the reals: C104. *)
From Coq Require Import List Arith ZArith Reals Bool Lia Lra.
Import ListNotations.
From Verif Require Import Base Shapes Scalar Buffers Spec Contraction Node Eval Types Instances
  Vocab Math Real_math Calculus Properties_calculus Descent_claims Descent_second.

(** C104 The gradient points uphill.  Wherever the adjoint is the Jacobian ([posed], [regular] and
    [smooth], as in C04), take entry [i] of the value, entry [j] of the target and let [g] be
    entry [i ++ j] of the evaluated gradient.  If [g] is not zero then every sufficiently small
    step [- h * g] of entry [j] makes entry [i] of the value strictly smaller, and the step
    [h * g] makes it strictly larger. *)
Theorem C104_downhill : forall inf sp G (c : ctx R) t (n n' : node R),
  let S := R_scalar inf sp in
  posed G c t n n' -> regular (real_un inf sp) c n -> smooth inf sp c t n ->
  exists v w x,
    evaluate n c = (c, Ok v) /\ evaluate_adjoint n t c = Some (c, Ok w) /\ c t = Some x /\
    dims (vshape w) = dims (vshape v) ++ dims (vshape x) /\
    forall i j, in_box (dims (vshape v)) i -> in_box (dims (vshape x)) j ->
      let g := vat 0%R w (i ++ j) in
      g <> 0%R ->
      exists e, (0 < e)%R /\ forall h, (0 < h < e)%R ->
        exists lo hi,
          snd (evaluate n (bump c t j (- (h * g))%R)) = Ok lo /\
          snd (evaluate n (bump c t j (h * g)%R)) = Ok hi /\
          (vat 0 lo i < vat 0 v i < vat 0 hi i)%R.
Proof. exact downhill. Qed.
Print Assumptions C104_downhill.

(** At a local minimum or maximum of entry [i] of the value along entry [j] of the target, the
    gradient entry is zero. *)
Theorem C104_stationary : forall inf sp G (c : ctx R) t (n n' : node R),
  let S := R_scalar inf sp in
  posed G c t n n' -> regular (real_un inf sp) c n -> smooth inf sp c t n ->
  exists v w x,
    evaluate n c = (c, Ok v) /\ evaluate_adjoint n t c = Some (c, Ok w) /\ c t = Some x /\
    forall i j e, in_box (dims (vshape v)) i -> in_box (dims (vshape x)) j -> (0 < e)%R ->
      (forall h u, (Rabs h < e)%R -> snd (evaluate n (bump c t j h)) = Ok u -> (vat 0 v i <= vat 0 u i)%R) \/
      (forall h u, (Rabs h < e)%R -> snd (evaluate n (bump c t j h)) = Ok u -> (vat 0 u i <= vat 0 v i)%R) ->
      vat 0%R w (i ++ j) = 0%R.
Proof. exact stationary. Qed.
Print Assumptions C104_stationary.

(** Second derivatives decide (as C05, for the same target twice): where the gradient entry is zero
    and the second derivative along entry [j] is positive, every small step of entry [j], either
    way, makes entry [i] of the value strictly larger; where it is negative, strictly smaller. *)
Theorem C104_second : forall inf sp G (c : ctx R) t (n n' n'' : node R) e,
  let S := R_scalar inf sp in
  posed G c t n n' -> adjoint n' t = Some n'' -> typeof G n'' <> None -> square G n'' -> (0 < e)%R ->
  (forall k h, (Rabs h < e)%R ->
     regular (real_un inf sp) (bump c t k h) n /\ smooth inf sp (bump c t k h) t n) ->
  smooth inf sp c t n' ->
  exists v w w2 x,
    evaluate n c = (c, Ok v) /\ evaluate_adjoint n t c = Some (c, Ok w) /\
    evaluate_adjoint n' t c = Some (c, Ok w2) /\ c t = Some x /\
    forall i j, in_box (dims (vshape v)) i -> in_box (dims (vshape x)) j ->
      vat 0%R w (i ++ j) = 0%R ->
      let q := vat 0%R w2 (i ++ j ++ j) in
      q <> 0%R ->
      exists d, (0 < d)%R /\ forall h, h <> 0%R -> (Rabs h < d)%R ->
        exists u, snd (evaluate n (bump c t j h)) = Ok u /\
          ((0 < q)%R -> (vat 0 v i < vat 0 u i)%R) /\ ((q < 0)%R -> (vat 0 u i < vat 0 v i)%R).
Proof. exact second_test. Qed.
Print Assumptions C104_second.

(** Along a whole step, not only a small one: if the conditions hold at every point between, the
    change of entry [i] of the value is the step times the gradient evaluated at some point
    between. *)
Theorem C104_mean_value : forall inf sp G (c : ctx R) t (n n' : node R) j s x,
  let S := R_scalar inf sp in
  posed G c t n n' -> (0 < s)%R ->
  (forall h, (0 <= h <= s)%R ->
     regular (real_un inf sp) (bump c t j h) n /\ smooth inf sp (bump c t j h) t n) ->
  c t = Some x -> in_box (dims (vshape x)) j ->
  exists v u,
    evaluate n c = (c, Ok v) /\ snd (evaluate n (bump c t j s)) = Ok u /\
    forall i, in_box (dims (vshape v)) i ->
      exists r w, (0 < r < s)%R /\
        evaluate_adjoint n t (bump c t j r) = Some (bump c t j r, Ok w) /\
        (vat 0 u i - vat 0 v i = vat 0 w (i ++ j) * s)%R.
Proof. exact mean_value. Qed.
Print Assumptions C104_mean_value.

(** So the sign of the evaluated gradient along the step decides whether the value grows, a zero
    gradient leaves it unchanged, and a bound on the gradient bounds the change. *)
Theorem C104_monotone : forall inf sp G (c : ctx R) t (n n' : node R) j s x,
  let S := R_scalar inf sp in
  posed G c t n n' -> (0 < s)%R ->
  (forall h, (0 <= h <= s)%R ->
     regular (real_un inf sp) (bump c t j h) n /\ smooth inf sp (bump c t j h) t n) ->
  c t = Some x -> in_box (dims (vshape x)) j ->
  exists v u,
    evaluate n c = (c, Ok v) /\ snd (evaluate n (bump c t j s)) = Ok u /\
    forall i, in_box (dims (vshape v)) i ->
      let along (Q : R -> Prop) := forall r w, (0 < r < s)%R ->
        evaluate_adjoint n t (bump c t j r) = Some (bump c t j r, Ok w) -> Q (vat 0%R w (i ++ j)) in
      (along (fun g => 0 < g)%R -> (vat 0 v i < vat 0 u i)%R) /\
      (along (fun g => 0 <= g)%R -> (vat 0 v i <= vat 0 u i)%R) /\
      (along (fun g => g = 0%R) -> vat 0%R u i = vat 0%R v i) /\
      (forall b, along (fun g => Rabs g <= b)%R -> (Rabs (vat 0 u i - vat 0 v i) <= b * s)%R).
Proof. exact monotone. Qed.
Print Assumptions C104_monotone.

(** Where the second derivative is not negative along the way, the value lies above its tangent, at
    steps of any size; in particular a point with zero gradient is then a minimum. *)
Theorem C104_tangent : forall inf sp G (c : ctx R) t (n n' n'' : node R) j b x,
  let S := R_scalar inf sp in
  posed G c t n n' -> adjoint n' t = Some n'' -> typeof G n'' <> None -> square G n'' -> (0 <= b)%R ->
  (forall h, (Rabs h <= b)%R ->
     regular (real_un inf sp) (bump c t j h) n /\ smooth inf sp (bump c t j h) t n /\
     smooth inf sp (bump c t j h) t n') ->
  c t = Some x -> in_box (dims (vshape x)) j ->
  exists v w,
    evaluate n c = (c, Ok v) /\ evaluate_adjoint n t c = Some (c, Ok w) /\
    forall i, in_box (dims (vshape v)) i ->
      (forall h w2, (Rabs h <= b)%R ->
         evaluate_adjoint n' t (bump c t j h) = Some (bump c t j h, Ok w2) ->
         (0 <= vat 0 w2 (i ++ j ++ j))%R) ->
      forall s, (Rabs s <= b)%R ->
        exists u, snd (evaluate n (bump c t j s)) = Ok u /\
                  (vat 0 v i + vat 0 w (i ++ j) * s <= vat 0 u i)%R.
Proof. exact tangent. Qed.
Print Assumptions C104_tangent.

(** The hypotheses hold for the squared error of a linear prediction (README.md:51-56), whatever
    the data. *)
Example C104_example_regression : forall inf sp (x w : value R) (y : R),
  let S := R_scalar inf sp in
  let G : tenv := fun i => match i with 0 | 1 => Some (KA [2]) | 2 => Some KS | _ => None end in
  let c : ctx R := fun i => match i with 0 => Some x | 1 => Some w | 2 => Some (VScal y) | _ => None end in
  vwf x -> vwf w -> bty_of x = TA [2] -> bty_of w = TA [2] ->
  exists n', posed G c 1 (sse 0 1 2) n' /\ regular (real_un inf sp) c (sse 0 1 2) /\
             smooth inf sp c 1 (sse 0 1 2).
Proof. exact C04_example_regression. Qed.

(** [x * x] at 3: the gradient is 6, not zero. *)
Definition sq : node R := Mul (Var 0) (Var 0).
Definition at_three : ctx R := fun i => match i with 0 => Some (VScal 3%R) | _ => None end.

Example C104_example_square : forall inf sp, let S := R_scalar inf sp in
  let G : tenv := fun i => match i with 0 => Some KS | _ => None end in
  (exists n', posed G at_three 0 sq n' /\ regular (real_un inf sp) at_three sq /\
              smooth inf sp at_three 0 sq) /\
  exists w, evaluate_adjoint sq 0 at_three = Some (at_three, Ok (VScal w)) /\ w = 6%R.
Proof.
  intros inf sp S G; split.
  - eexists; split; [constructor; try reflexivity|split].
    + intros [|i] v E; inversion E; subst; simpl; auto.
    + intros i; cbn [uses sq]; intros [[-> | ->] | ->]; discriminate.
    + cbn; auto.
    + cbn; auto.
    + discriminate.
    + discriminate.
    + cbn; auto.
    + cbn; auto 9.
    + cbn; unfold keeps_order; cbn; auto.
    + cbn; auto.
  - eexists; split; [reflexivity|cbn; lra].
Qed.

(** The conditions hold along every step from there, and the gradient stays positive. *)
Example C104_example_monotone : forall inf sp h, let S := R_scalar inf sp in
  regular (real_un inf sp) (bump at_three 0 [] h) sq /\ smooth inf sp (bump at_three 0 [] h) 0 sq /\
  exists w, evaluate_adjoint sq 0 (bump at_three 0 [] h) = Some (bump at_three 0 [] h, Ok (VScal w)) /\
            ((0 < h)%R -> (0 < w)%R).
Proof.
  intros inf sp h S; split; [cbn; unfold keeps_order; cbn; auto 20|split; [cbn; auto|]].
  eexists; split; [reflexivity|cbn; intro; lra].
Qed.

(** The step must be small: with [h = 1] the step of [x * x] at 3 lands on [-3]. *)
Example C104_large_step_refuted : forall inf sp, let S := R_scalar inf sp in
  exists lo, snd (evaluate sq (bump at_three 0 [] (- (1 * 6))%R)) = Ok (VScal lo) /\ lo = 9%R.
Proof. intros inf sp S; eexists; split; [reflexivity|cbn; lra]. Qed.

(** [x * x] at 0: the gradient is 0 and the second derivative is 2. *)
Example C104_example_second : forall inf sp, let S := R_scalar inf sp in
  let G : tenv := fun i => match i with 0 => Some KS | _ => None end in
  let c : ctx R := fun i => match i with 0 => Some (VScal 0%R) | _ => None end in
  exists n' n'', posed G c 0 sq n' /\ adjoint n' 0 = Some n'' /\ typeof G n'' <> None /\ square G n'' /\
    (forall k h, regular (real_un inf sp) (bump c 0 k h) sq /\ smooth inf sp (bump c 0 k h) 0 sq) /\
    smooth inf sp c 0 n' /\
    exists w w2, evaluate_adjoint sq 0 c = Some (c, Ok (VScal w)) /\ w = 0%R /\
                 evaluate_adjoint n' 0 c = Some (c, Ok (VScal w2)) /\ w2 = 2%R.
Proof.
  intros inf sp S G c; do 2 eexists.
  split; [constructor; try reflexivity|split; [reflexivity|split; [|split; [|split; [|split]]]]].
  - intros [|i] v E; inversion E; subst; simpl; auto.
  - intros i; cbn [uses sq]; intros [[-> | ->] | ->]; discriminate.
  - cbn; auto.
  - cbn; auto.
  - discriminate.
  - discriminate.
  - cbn; auto.
  - cbn; auto 9.
  - discriminate.
  - cbn; auto 20.
  - intros k h; split; cbn; unfold keeps_order; cbn; auto 20.
  - cbn; auto 20.
  - do 2 eexists; split; [reflexivity|split; [cbn; lra|split]].
    { assert (E0 : R_eqb 0 0 = true) by (unfold R_eqb; destruct (Req_EM_T 0 0); congruence).
      assert (E1 : R_eqb 1 0 = false) by (unfold R_eqb; destruct (Req_EM_T 1 0); [lra|auto]).
      unfold evaluate_adjoint; cbn -[eval_by_spec].
      repeat (lazy -[Rplus Rmult IZR R_eqb]; rewrite ?E0, ?E1).
      reflexivity. }
    cbn; lra.
Qed.

(** With a second derivative of zero there may be neither: [x * (x * x)] at 0 has gradient and
    second derivative zero, and decreases on the left. *)
Example C104_inflection_refuted : forall inf sp, let S := R_scalar inf sp in
  let n : node R := Mul (Var 0) (Mul (Var 0) (Var 0)) in
  let c : ctx R := fun i => match i with 0 => Some (VScal 0%R) | _ => None end in
  forall h, (0 < h)%R -> exists lo hi,
    snd (evaluate n (bump c 0 [] (- h)%R)) = Ok (VScal lo) /\
    snd (evaluate n (bump c 0 [] h)) = Ok (VScal hi) /\ (lo < 0 < hi)%R.
Proof.
  intros inf sp S n c h Ph; do 2 eexists; split; [reflexivity|split; [reflexivity|]]; cbn.
  rewrite !Rplus_0_l; assert (0 < h * h)%R by nra; split; nra.
Qed.

(** [x * x] at 3: the conditions hold along every step, and the second derivative is 2 there. *)
Example C104_example_tangent : forall inf sp h, let S := R_scalar inf sp in
  exists n' n'', adjoint sq 0 = Some n' /\ adjoint n' 0 = Some n'' /\
    regular (real_un inf sp) (bump at_three 0 [] h) sq /\ smooth inf sp (bump at_three 0 [] h) 0 sq /\
    smooth inf sp (bump at_three 0 [] h) 0 n' /\
    exists w2, evaluate_adjoint n' 0 (bump at_three 0 [] h) = Some (bump at_three 0 [] h, Ok (VScal w2)) /\
               w2 = 2%R.
Proof.
  intros inf sp h S; do 2 eexists; split; [reflexivity|split; [reflexivity|]].
  split; [cbn; unfold keeps_order; cbn; auto 20|split; [cbn; auto|split; [cbn; auto 20|]]].
  eexists; split.
  - assert (E0 : R_eqb 0 0 = true) by (unfold R_eqb; destruct (Req_EM_T 0 0); congruence).
    assert (E1 : R_eqb 1 0 = false) by (unfold R_eqb; destruct (Req_EM_T 1 0); [lra|auto]).
    unfold evaluate_adjoint; cbn -[eval_by_spec].
    repeat (lazy -[Rplus Rmult IZR R_eqb]; rewrite ?E0, ?E1).
    reflexivity.
  - cbn; lra.
Qed.
