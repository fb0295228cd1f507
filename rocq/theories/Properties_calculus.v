(** Derivatives over the reals: C04, C05, C54, C63. *)
From Coq Require Import List Arith ZArith Reals Bool Lia Lra.
Import ListNotations.
From Verif Require Import Base Shapes Scalar Buffers Spec Contraction Node Eval Types Instances
  Vocab Math Real_math Calculus Instance_facts Math_claims Jacobian_facts Calculus_claims Contract_claims.

(** C04 The adjoint is the Jacobian.  Full statement: wherever the primitive operations are
    differentiable, entry [i ++ j] of the evaluated adjoint is the partial derivative of entry [i]
    of the value with respect to entry [j] of the target.  Proved for trees without [Cached],
    with [Sum] of scalars only, square matrix-vector products ([posed]), no
    scalar-by-matrix [Sub]/[Div] ([regular]), and contractions whose left operand does not depend
    on an array target, up to symmetry ([smooth]).  What is left out is false: see the
    [_refuted] theorems here and in Properties_math.v.  There are no [Vec]s in the tree since the
    adjoint would not compile ([C04_no_vec]). *)
Theorem C04_jacobian_partial : forall inf sp G (c : ctx R) t (n n' : node R),
  let S := R_scalar inf sp in
  posed G c t n n' -> regular (real_un inf sp) c n -> smooth inf sp c t n ->
  exists v w x,
    evaluate n c = (c, Ok v) /\ evaluate_adjoint n t c = Some (c, Ok w) /\ c t = Some x /\
    dims (vshape w) = dims (vshape v) ++ dims (vshape x) /\
    forall i j, in_box (dims (vshape v)) i -> in_box (dims (vshape x)) j ->
      derivable_pt_lim (fun h => entry inf sp n (bump c t j h) i) 0%R (vat 0%R w (i ++ j)).
Proof. exact jacobian_real. Qed.
Print Assumptions C04_jacobian_partial.

Theorem C04_no_vec : forall F G (n n' : node F) t, adjoint n t = Some n' -> typeof G n' <> None -> novec G n.
Proof. exact @gradient_novec. Qed.
Print Assumptions C04_no_vec.

(** README.md:51-56: squared error of a linear prediction with two weights, differentiated by the
    weights; and a scalar expression with a quotient, a power, a sigmoid and a logarithm. *)
Example C04_example_regression : forall inf sp (x w : value R) (y : R),
  let S := R_scalar inf sp in
  let G : tenv := fun i => match i with 0 | 1 => Some (KA [2]) | 2 => Some KS | _ => None end in
  let c : ctx R := fun i => match i with 0 => Some x | 1 => Some w | 2 => Some (VScal y) | _ => None end in
  vwf x -> vwf w -> bty_of x = TA [2] -> bty_of w = TA [2] ->
  exists n', posed G c 1 (sse 0 1 2) n' /\ regular (real_un inf sp) c (sse 0 1 2) /\
             smooth inf sp c 1 (sse 0 1 2).
Proof.
  intros inf sp x w y S G c Wx Ww Bx Bw; eexists; split; [constructor; try reflexivity|split].
  - intros [|[|[|i]]] v E; inversion E; subst; simpl; rewrite ?Bx, ?Bw; auto.
  - intros i; cbn [uses sse]; intros [[[-> | ->] | ->] | ->]; discriminate.
  - cbn; auto.
  - cbn; auto.
  - discriminate.
  - discriminate.
  - cbn; repeat split; auto; intros kl kr E1 E2; injection E1 as <-; injection E2 as <-; auto.
  - cbn; repeat split; auto; intros kl kr E1 E2; injection E1 as <-; injection E2 as <-; auto.
  - cbn; repeat split; auto.
    + destruct x as [| | |d xs]; try discriminate Bx; destruct w as [| | |d1 ws]; try discriminate Bw.
      injection Bx as ->; injection Bw as ->; exact I.
    + unfold keeps_order; cbn; auto.
  - cbn [smooth sse]; split; [split; [split; [auto|split; [auto|]]|auto]|intros; exact I].
    right; apply symmetric_absent; reflexivity.
Qed.

Example C04_example_scalar : forall inf sp (x y : R), (0 < x)%R -> (y <> 0)%R ->
  let S := R_scalar inf sp in
  let G : tenv := fun i => match i with 0 | 1 => Some KS | _ => None end in
  let c : ctx R := fun i => match i with 0 => Some (VScal x) | 1 => Some (VScal y) | _ => None end in
  let n := Div (Mul (Power (Var 0) (Var 1)) (Un Sigmoid (Var 1))) (Power (Var 1) (Const (VScal 2%R))) in
  (exists n', posed G c 0 n n') /\ (exists n', posed G c 1 n n') /\ regular (real_un inf sp) c n /\
  smooth inf sp c 0 n /\ smooth inf sp c 1 n.
Proof.
  intros inf sp x y Hx Hy S G c n.
  assert (P : forall t, t = 0 \/ t = 1 -> exists n', posed G c t n n').
  { intros t Ht; eexists; constructor; try reflexivity.
    - intros [|[|i]] v E; inversion E; subst; simpl; auto.
    - intros i; cbn [uses n]; intros [[[[-> | ->] | ->] | [-> | []]] | ->]; try discriminate.
      destruct Ht as [-> | ->]; discriminate.
    - cbn; auto.
    - cbn; auto.
    - discriminate.
    - destruct Ht as [-> | ->]; discriminate.
    - cbn; auto.
    - cbn; auto 20. }
  split; [auto|split; [auto|]].
  assert (E2 : R_pow y 2 = (y * y)%R) by (replace 2%R with (1 + 1)%R by ring; apply R_pow_two).
  assert (NZ : R_pow y 2 <> 0%R) by (rewrite E2; intro Z; apply Rmult_integral in Z; tauto).
  assert (PW : forall t, (0 < y \/ contains (Const (VScal 2%R)) t = false /\
     (exists z, 2 = IZR z /\ (y <> 0 \/ (2 <= z)%Z)))%R).
  { intro t; right; split; auto; exists 2%Z; auto. }
  split; [|split].
  - cbn; repeat split; auto; unfold keeps_order; cbn; auto; intro Z; exfalso; lra.
  - cbn [smooth n]; repeat split; auto; try (left; exact Hx); try (intros; exact I); try apply PW; intros i _; exact NZ.
  - cbn [smooth n]; repeat split; auto; try (left; exact Hx); try (intros; exact I); try apply PW; intros i _; exact NZ.
Qed.

(** The adjoint of a [Sum] of an array is not summed: it does not even have the dimensions of the
    Jacobian. *)
Theorem C04_sum_refuted : exists (c : ctx R) (n : node R) t, forall inf sp,
  let S := R_scalar inf sp in
  exists v w x : value R,
    evaluate n c = (c, Ok v) /\ evaluate_adjoint n t c = Some (c, Ok w) /\ c t = Some x /\
    dims (vshape w) <> dims (vshape v) ++ dims (vshape x).
Proof.
  exists (ctx2 (rvec2 1%R 2%R) (rvec2 3%R 4%R)), (Sum (Var 0)), 0; exact sum_not_summed.
Qed.
Print Assumptions C04_sum_refuted.

(** A cache can be differentiated only by its own key (C68_only_key).  The value is then the entry of
    the cache, with derivative one; the adjoint of [x x] kept under the key is zero. *)
Theorem C04_cached_refuted : exists G (c : ctx R) (n n' : node R) t,
  ctx_ok G c /\ (forall i, uses n i \/ i = t -> c i <> None) /\ adjoint n t = Some n' /\
  typeof G n <> None /\ typeof G n' <> None /\
  forall inf sp, let S := R_scalar inf sp in
    (exists w, evaluate_adjoint n t c = Some (c, Ok (VScal w)) /\ w = 0%R) /\
    derivable_pt_lim (fun h => entry inf sp n (bump c t [] h) []) 0%R 1%R.
Proof. exact cached_not_derivative. Qed.
Print Assumptions C04_cached_refuted.

(** The adjoint of [s ⊗ w] with a scalar [s] depending on the target comes out transposed. *)
Theorem C04_order_refuted : exists G (c : ctx R) (n n' : node R) t, posed G c t n n' /\
  forall inf sp, let S := R_scalar inf sp in regular (real_un inf sp) c n /\
  exists (v w x : value R) i j d,
    evaluate n c = (c, Ok v) /\ evaluate_adjoint n t c = Some (c, Ok w) /\ c t = Some x /\
    dims (vshape w) = dims (vshape v) ++ dims (vshape x) /\
    in_box (dims (vshape v)) i /\ in_box (dims (vshape x)) j /\
    derivable_pt_lim (fun h => entry inf sp n (bump c t j h) i) 0%R d /\ vat 0%R w (i ++ j) <> d.
Proof. exact order_refuted. Qed.
Print Assumptions C04_order_refuted.

(** C54 The gradient of a [Sum].  The code returns the adjoint of the summand unsummed; adding its
    entries over the indices of the summand gives the partial derivatives of the sum. *)
Theorem C54_sum_gradient : forall inf sp G (c : ctx R) t (m m' : node R),
  let S := R_scalar inf sp in
  posed G c t m m' -> regular (real_un inf sp) c m -> smooth inf sp c t m ->
  exists v w x,
    evaluate m c = (c, Ok v) /\ evaluate_adjoint (Sum m) t c = Some (c, Ok w) /\ c t = Some x /\
    dims (vshape w) = dims (vshape v) ++ dims (vshape x) /\
    forall j, in_box (dims (vshape x)) j ->
      derivable_pt_lim (fun h => entry inf sp (Sum m) (bump c t j h) []) 0%R
        (sum_over (all_ix (dims (vshape v))) (fun i => vat 0%R w (i ++ j))).
Proof. exact sum_gradient. Qed.
Print Assumptions C54_sum_gradient.

(** The sum of the squared errors of a line through the origin, by its slope. *)
Example C54_example : forall inf sp (x y : value R) (b : R),
  let S := R_scalar inf sp in
  let G : tenv := fun i => match i with 0 | 1 => Some (KA [2]) | 2 => Some KS | _ => None end in
  let c : ctx R := fun i => match i with 0 => Some x | 1 => Some y | 2 => Some (VScal b) | _ => None end in
  let m := Un Square (Sub (Mul (Var 0) (Var 2)) (Var 1)) in
  vwf x -> vwf y -> bty_of x = TA [2] -> bty_of y = TA [2] ->
  exists m', posed G c 2 m m' /\ regular (real_un inf sp) c m /\ smooth inf sp c 2 m.
Proof.
  intros inf sp x y b S G c m Wx Wy Bx By; eexists; split; [constructor; try reflexivity|split].
  - intros [|[|[|i]]] v E; inversion E; subst; simpl; rewrite ?Bx, ?By; auto.
  - intros i; cbn [uses m]; intros [[[-> | ->] | ->] | ->]; discriminate.
  - cbn; auto.
  - cbn; auto.
  - discriminate.
  - discriminate.
  - cbn; auto.
  - cbn; repeat split; auto.
  - cbn [regular m]; split; [auto|split; [auto|]].
    unfold keeps_order; destruct x as [| | |d xs]; try discriminate Bx; injection Bx as ->; discriminate.
  - cbn [smooth m]; split; [auto|intros; exact I].
Qed.

(** C63 The adjoint of a contraction, also where it is not the Jacobian.  With respect to an array,
    an inner product can only be differentiated if both operands and the target are vectors of one
    length.  The code then returns the first sum below, with the Jacobian of the left operand
    transposed; the derivative is the second. *)
Theorem C63_dot : forall inf sp G (c : ctx R) t axes (l r n' : node R) x,
  let Sc := R_scalar inf sp in
  posed G c t (Contract (S axes) l r) n' -> regular (real_un inf sp) c (Contract (S axes) l r) ->
  smooth inf sp c t l -> smooth inf sp c t r -> c t = Some x -> dims (vshape x) <> [] ->
  exists n vl vr wl wr w,
    evaluate l c = (c, Ok vl) /\ evaluate r c = (c, Ok vr) /\
    evaluate_adjoint l t c = Some (c, Ok wl) /\ evaluate_adjoint r t c = Some (c, Ok wr) /\
    evaluate_adjoint (Contract (S axes) l r) t c = Some (c, Ok w) /\
    dims (vshape vl) = [n] /\ dims (vshape vr) = [n] /\ dims (vshape x) = [n] /\ dims (vshape w) = [n] /\
    forall j, j < n ->
      (vat 0 w [j] = sum_over (seq 0 n) (fun k => vat 0 vl [k] * vat 0 wr [k; j])
                   + sum_over (seq 0 n) (fun k => vat 0 wl [j; k] * vat 0 vr [k]))%R /\
      derivable_pt_lim (fun h => entry inf sp (Contract (S axes) l r) (bump c t [j] h) []) 0%R
        (sum_over (seq 0 n) (fun k => vat 0 vl [k] * vat 0 wr [k; j])
         + sum_over (seq 0 n) (fun k => vat 0 wl [k; j] * vat 0 vr [k]))%R.
Proof. exact dot_adjoint. Qed.
Print Assumptions C63_dot.

(** So the result is right exactly where the transposition does not matter. *)
Theorem C63_dot_iff : forall inf sp G (c : ctx R) t axes (l r n' : node R) x,
  let Sc := R_scalar inf sp in
  posed G c t (Contract (S axes) l r) n' -> regular (real_un inf sp) c (Contract (S axes) l r) ->
  smooth inf sp c t l -> smooth inf sp c t r -> c t = Some x -> dims (vshape x) <> [] ->
  exists n vr wl w,
    evaluate r c = (c, Ok vr) /\ evaluate_adjoint l t c = Some (c, Ok wl) /\
    evaluate_adjoint (Contract (S axes) l r) t c = Some (c, Ok w) /\ dims (vshape x) = [n] /\
    forall j, j < n ->
      derivable_pt_lim (fun h => entry inf sp (Contract (S axes) l r) (bump c t [j] h) []) 0%R (vat 0%R w [j]) <->
      sum_over (seq 0 n) (fun k => vat 0 wl [j; k] * vat 0 vr [k])%R =
      sum_over (seq 0 n) (fun k => vat 0 wl [k; j] * vat 0 vr [k])%R.
Proof. exact dot_correct_iff. Qed.
Print Assumptions C63_dot_iff.

(** It is not always right: the gradient of a dot product is wrong for (y ⊗ (x . x)) . z. *)
Theorem C63_dot_refuted : exists G (c : ctx R) t l r n' x n, posed G c t (Contract 1 l r) n' /\ c t = Some x /\
  dims (vshape x) = [n] /\
  forall inf sp, let S := R_scalar inf sp in
    regular (real_un inf sp) c (Contract 1 l r) /\ smooth inf sp c t l /\ smooth inf sp c t r /\
    exists w j, evaluate_adjoint (Contract 1 l r) t c = Some (c, Ok w) /\ j < n /\
      ~ derivable_pt_lim (fun h => entry inf sp (Contract 1 l r) (bump c t [j] h) []) 0%R (vat 0%R w [j]).
Proof. exact dot_wrong. Qed.
Print Assumptions C63_dot_refuted.

(** Outer products, any target: the index of the target is taken from behind the index of the left
    operand. *)
Theorem C63_outer : forall inf sp G (c : ctx R) t (l r n' : node R),
  let S := R_scalar inf sp in
  posed G c t (Contract 0 l r) n' -> regular (real_un inf sp) c (Contract 0 l r) ->
  smooth inf sp c t l -> smooth inf sp c t r ->
  exists x vl vr wl wr w,
    c t = Some x /\ evaluate l c = (c, Ok vl) /\ evaluate r c = (c, Ok vr) /\
    evaluate_adjoint l t c = Some (c, Ok wl) /\ evaluate_adjoint r t c = Some (c, Ok wr) /\
    evaluate_adjoint (Contract 0 l r) t c = Some (c, Ok w) /\
    dims (vshape w) = dims (vshape vl) ++ dims (vshape vr) ++ dims (vshape x) /\
    forall i k j, in_box (dims (vshape vl)) i -> in_box (dims (vshape vr)) k -> in_box (dims (vshape x)) j ->
      (forall j' k', k ++ j = j' ++ k' -> length j' = length j ->
        vat 0 w (i ++ k ++ j) = vat 0 vl i * vat 0 wr (k ++ j) + vat 0 wl (i ++ j') * vat 0 vr k')%R /\
      derivable_pt_lim (fun h => entry inf sp (Contract 0 l r) (bump c t j h) (i ++ k)) 0%R
        (vat 0 vl i * vat 0 wr (k ++ j) + vat 0 wl (i ++ j) * vat 0 vr k)%R.
Proof. exact outer_adjoint. Qed.
Print Assumptions C63_outer.

(** (y ⊗ (x . x)) . z by x, for vectors of two entries, and its outer product. *)
Example C63_example : forall inf sp (x y z : value R),
  let S := R_scalar inf sp in
  let G : tenv := fun i => match i with 0 | 1 | 2 => Some (KA [2]) | _ => None end in
  let c : ctx R := fun i => match i with 0 => Some x | 1 => Some y | 2 => Some z | _ => None end in
  let l := Contract 0 (Var 1) (Contract 1 (Var 0) (Var 0)) in
  vwf x -> vwf y -> vwf z -> bty_of x = TA [2] -> bty_of y = TA [2] -> bty_of z = TA [2] ->
  exists n' m', posed G c 0 (Contract 1 l (Var 2)) n' /\ regular (real_un inf sp) c (Contract 1 l (Var 2)) /\
    posed G c 0 l m' /\ regular (real_un inf sp) c l /\
    smooth inf sp c 0 l /\ smooth inf sp c 0 (Var 2) /\
    smooth inf sp c 0 (Var 1) /\ smooth inf sp c 0 (Contract 1 (Var 0) (Var 0)) /\
    c 0 = Some x /\ dims (vshape x) <> [].
Proof.
  intros inf sp x y z S G c l Wx Wy Wz Bx By Bz.
  destruct (dot_posed inf sp x y z Wx Wy Wz Bx By Bz) as (n' & P & Rg & Sl & Sr).
  destruct (posed_parts _ _ _ _ _ _ _ P) as (l' & r' & _ & Pl & _).
  exists n', l'; split; [exact P|split; [exact Rg|split; [exact Pl|split; [apply Rg|split; [exact Sl|split; [exact Sr|]]]]]].
  split; [exact I|split; [apply Sl|split; [reflexivity|]]].
  destruct x; try discriminate Bx; injection Bx as ->; discriminate.
Qed.

(** C05 Differentiating twice gives the second derivatives.  Full statement: this can be repeated
    any number of times; it cannot (C05_repeat_refuted), so two is all there is.  [g h] stands for
    the first derivative at the point shifted by [h]. *)
Theorem C05_hessian_partial : forall inf sp G (c : ctx R) t u (n n' n'' : node R) e,
  let S := R_scalar inf sp in
  posed G c t n n' -> adjoint n' u = Some n'' -> typeof G n'' <> None -> square G n'' -> c u <> None ->
  (0 < e)%R ->
  (forall k h, (Rabs h < e)%R ->
     regular (real_un inf sp) (bump c u k h) n /\ smooth inf sp (bump c u k h) t n) ->
  smooth inf sp c u n' ->
  exists v w x y,
    evaluate n c = (c, Ok v) /\ evaluate_adjoint n' u c = Some (c, Ok w) /\
    c t = Some x /\ c u = Some y /\
    dims (vshape w) = dims (vshape v) ++ dims (vshape x) ++ dims (vshape y) /\
    forall i j k g, in_box (dims (vshape v)) i -> in_box (dims (vshape x)) j -> in_box (dims (vshape y)) k ->
      (forall h, (Rabs h < e)%R ->
         derivable_pt_lim (fun s => entry inf sp n (bump (bump c u k h) t j s) i) 0%R (g h)) ->
      derivable_pt_lim g 0%R (vat 0%R w (i ++ j ++ k)).
Proof. exact hessian_real. Qed.
Print Assumptions C05_hessian_partial.

Example C05_example : forall inf sp (x y : R),
  let S := R_scalar inf sp in
  let G : tenv := fun i => match i with 0 | 1 => Some KS | _ => None end in
  let c : ctx R := fun i => match i with 0 => Some (VScal x) | 1 => Some (VScal y) | _ => None end in
  let n := Mul (Un Exp (Var 0)) (Un Sin (Mul (Var 0) (Var 1))) in
  exists n' n'', posed G c 0 n n' /\ adjoint n' 1 = Some n'' /\ typeof G n'' <> None /\ square G n'' /\
    (forall k h, regular (real_un inf sp) (bump c 1 k h) n /\ smooth inf sp (bump c 1 k h) 0 n) /\
    smooth inf sp c 1 n'.
Proof.
  intros inf sp x y S G c n; do 2 eexists; split; [constructor; try reflexivity|split; [reflexivity|split; [|split; [|split]]]].
  - intros [|[|i]] v E; inversion E; subst; simpl; auto.
  - intros i; cbn [uses n]; intros [[-> | [-> | ->]] | ->]; discriminate.
  - cbn; auto.
  - cbn; auto.
  - discriminate.
  - discriminate.
  - cbn; auto.
  - cbn; auto 20.
  - discriminate.
  - cbn; auto 40.
  - intros k h; split; cbn; auto 20.
  - cbn; auto 40.
Qed.
