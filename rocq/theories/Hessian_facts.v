(** Functions of two real variables whose mixed second derivatives agree. *)
From Coq Require Import List Arith ZArith Reals Bool Lia Lra FunctionalExtensionality.
Import ListNotations.
From Verif Require Import Base Shapes Scalar Buffers Spec Contraction Node Eval Types Instances
  Vocab Math Real_math Calculus Index_facts Shapes_facts Buffers_facts Typing_facts Eval_facts
  Exact_facts Math_facts Instance_facts Eval_claims Math_claims Adjoint_facts Zero_facts Calculus_facts
  Jacobian_facts.
Local Open Scope R_scope.

Notation dpl := derivable_pt_lim.

(** Derivatives in each variable on the other axis, with equal derivatives at the origin. *)
Definition sym (f : R -> R -> R) : Prop :=
  exists ft fu d e, 0 < e /\
    (forall h, Rabs h < e -> dpl (fun s => f s h) 0 (ft h)) /\
    (forall s, Rabs s < e -> dpl (fun h => f s h) 0 (fu s)) /\
    dpl ft 0 d /\ dpl fu 0 d.

(** Twice differentiable at [x]. *)
Definition twice (p : R -> R) (x : R) : Prop :=
  exists p1 p2 e, 0 < e /\ (forall y, Rabs (y - x) < e -> dpl p y (p1 y)) /\ dpl p1 x p2.

Lemma dpl_plus (f g : R -> R) x a b : dpl f x a -> dpl g x b -> dpl (fun y => f y + g y) x (a + b).
Proof. exact (derivable_pt_lim_plus f g x a b). Qed.
Lemma dpl_mult (f g : R -> R) x a b : dpl f x a -> dpl g x b -> dpl (fun y => f y * g y) x (a * g x + f x * b).
Proof. exact (derivable_pt_lim_mult f g x a b). Qed.
Lemma dpl_opp (f : R -> R) x a : dpl f x a -> dpl (fun y => - f y) x (- a).
Proof. exact (derivable_pt_lim_opp f x a). Qed.

Lemma near_close (f : R -> R) x e : continuity_pt f x -> 0 < e ->
  exists d, 0 < d /\ forall y, Rabs (y - x) < d -> Rabs (f y - f x) < e.
Proof.
  intros C P; destruct (C e) as (d & D & H); [lra|]; exists d; split; [lra|]; intros y Y.
  destruct (Req_dec x y) as [->|N]; [rewrite Rminus_diag_eq, Rabs_R0; auto|].
  specialize (H y); simpl in H; unfold R_dist, D_x, no_cond in H; apply H; auto.
Qed.

Lemma abs0 e : 0 < e -> Rabs 0 < e.
Proof. rewrite Rabs_R0; auto. Qed.

Lemma sym_ext f g : (forall s h, f s h = g s h) -> sym f -> sym g.
Proof.
  intros E H; replace g with f; auto; extensionality s; extensionality h; auto.
Qed.

Lemma sym_near f g e : 0 < e ->
  (forall h, Rabs h < e -> exists d, 0 < d /\ forall s, Rabs s < d -> f s h = g s h) ->
  (forall s, Rabs s < e -> exists d, 0 < d /\ forall h, Rabs h < d -> f s h = g s h) ->
  sym f -> sym g.
Proof.
  intros Pe A B (ft & fu & d & e0 & P0 & T & U & DT & DU).
  exists ft, fu, d, (Rmin e e0); split; [apply Rmin_pos; auto|].
  assert (M1 := Rmin_l e e0); assert (M2 := Rmin_r e e0).
  split; [|split; [|auto]].
  - intros h Hh; destruct (A h) as (q & Q & E); [lra|].
    apply near_eq with (f := fun s => f s h) (d := q); auto.
    + intros y Y; rewrite Rminus_0_r in Y; auto.
    + apply T; lra.
  - intros s Hs; destruct (B s) as (q & Q & E); [lra|].
    apply near_eq with (f := fun h => f s h) (d := q); auto.
    + intros y Y; rewrite Rminus_0_r in Y; auto.
    + apply U; lra.
Qed.

Lemma sym_affine a p q : sym (fun s h => a + p * s + q * h).
Proof.
  exists (fun _ => p), (fun _ => q), 0, 1; split; [lra|].
  split; [|split; [|split]].
  - intros h _; apply lim_eq with (f := fun s => (a + q * h) + p * s) (l := 0 + p * 1); [intro; ring|ring|].
    apply dpl_plus; [apply derivable_pt_lim_const|]; apply (derivable_pt_lim_scal id); apply derivable_pt_lim_id.
  - intros s _; apply lim_eq with (f := fun h => (a + p * s) + q * h) (l := 0 + q * 1); [intro; ring|ring|].
    apply dpl_plus; [apply derivable_pt_lim_const|]; apply (derivable_pt_lim_scal id); apply derivable_pt_lim_id.
  - apply derivable_pt_lim_const.
  - apply derivable_pt_lim_const.
Qed.

Lemma sym_add f g : sym f -> sym g -> sym (fun s h => f s h + g s h).
Proof.
  intros (ft & fu & d & e & P & T & U & DT & DU) (gt & gu & d' & e' & P' & T' & U' & DT' & DU').
  exists (fun h => ft h + gt h), (fun s => fu s + gu s), (d + d'), (Rmin e e'); split; [apply Rmin_pos; auto|].
  assert (M1 := Rmin_l e e'); assert (M2 := Rmin_r e e').
  split; [|split; [|split]]; intros; apply dpl_plus; auto; try apply T; try apply T'; try apply U; try apply U'; lra.
Qed.

Lemma sym_mul f g : sym f -> sym g -> sym (fun s h => f s h * g s h).
Proof.
  intros (ft & fu & d & e & P & T & U & DT & DU) (gt & gu & d' & e' & P' & T' & U' & DT' & DU').
  exists (fun h => ft h * g 0 h + f 0 h * gt h), (fun s => fu s * g s 0 + f s 0 * gu s),
    ((d * g 0 0 + ft 0 * gu 0) + (fu 0 * gt 0 + f 0 0 * d')), (Rmin e e'); split; [apply Rmin_pos; auto|].
  assert (M1 := Rmin_l e e'); assert (M2 := Rmin_r e e').
  split; [|split; [|split]].
  - intros h H; apply (dpl_mult (fun s => f s h) (fun s => g s h)); [apply T|apply T']; lra.
  - intros s H; apply (dpl_mult (fun h => f s h) (fun h => g s h)); [apply U|apply U']; lra.
  - apply dpl_plus; [apply (dpl_mult ft (fun h => g 0 h))|apply (dpl_mult (fun h => f 0 h) gt)]; auto;
      [apply U'|apply U]; apply abs0; auto.
  - replace ((d * g 0 0 + ft 0 * gu 0) + (fu 0 * gt 0 + f 0 0 * d'))
      with ((d * g 0 0 + fu 0 * gt 0) + (ft 0 * gu 0 + f 0 0 * d')) by ring.
    apply dpl_plus; [apply (dpl_mult fu (fun s => g s 0))|apply (dpl_mult (fun s => f s 0) gu)]; auto;
      [apply T'|apply T]; apply abs0; auto.
Qed.

Lemma sym_comp p f : sym f -> twice p (f 0 0) -> sym (fun s h => p (f s h)).
Proof.
  intros (ft & fu & d & e & P & T & U & DT & DU) (p1 & p2 & e2 & P2 & D1 & D2).
  assert (T0 := T 0 (abs0 e P)); assert (U0 := U 0 (abs0 e P)).
  destruct (near_close (fun s => f s 0) 0 e2 (lim_cont _ _ _ T0) P2) as (a & Pa & Ha).
  destruct (near_close (fun h => f 0 h) 0 e2 (lim_cont _ _ _ U0) P2) as (b & Pb & Hb).
  exists (fun h => p1 (f 0 h) * ft h), (fun s => p1 (f s 0) * fu s),
    ((p2 * fu 0) * ft 0 + p1 (f 0 0) * d), (Rmin e (Rmin a b)).
  assert (M1 := Rmin_l e (Rmin a b)); assert (M2 := Rmin_r e (Rmin a b)).
  assert (M3 := Rmin_l a b); assert (M4 := Rmin_r a b).
  split; [repeat apply Rmin_pos; auto|split; [|split; [|split]]].
  - intros h H; apply (lim_chain p (fun s => f s h)); [apply T; lra|].
    apply D1, Hb; rewrite Rminus_0_r; lra.
  - intros s H; apply (lim_chain p (fun h => f s h)); [apply U; lra|].
    apply D1, Ha; rewrite Rminus_0_r; lra.
  - apply (dpl_mult (fun h => p1 (f 0 h)) ft); auto; apply (lim_chain p1 (fun h => f 0 h)); auto.
  - replace ((p2 * fu 0) * ft 0 + p1 (f 0 0) * d) with ((p2 * ft 0) * fu 0 + p1 (f 0 0) * d) by ring.
    apply (dpl_mult (fun s => p1 (f s 0)) fu); auto; apply (lim_chain p1 (fun s => f s 0)); auto.
Qed.

Lemma inv_lim (f : R -> R) x a : f x <> 0 -> dpl f x a -> dpl (fun y => / f y) x (- (a / (f x * f x))).
Proof.
  intros N H; apply lim_eq with (f := fun y => 1 / f y) (l := (0 * f x - a * 1) / Rsqr (f x)).
  - intro y; unfold Rdiv; ring.
  - unfold Rsqr; field; auto.
  - apply (derivable_pt_lim_div (fun _ => 1) f); auto; apply derivable_pt_lim_const.
Qed.

Lemma twice_inv x : x <> 0 -> twice Rinv x.
Proof.
  intro N; exists (fun y => - (1 / (y * y))), (- - ((1 * x + x * 1) / (x * x * (x * x)))), (Rabs x).
  split; [apply Rabs_pos_lt; auto|split].
  - intros y Y; assert (y <> 0).
    { intros ->; rewrite Rminus_0_l, Rabs_Ropp in Y; lra. }
    exact (inv_lim (fun y => y) y 1 H (derivable_pt_lim_id y)).
  - apply dpl_opp; apply lim_eq with (f := fun y => / (y * y)) (l := - ((1 * x + x * 1) / (x * x * (x * x)))).
    + intro y; unfold Rdiv; ring.
    + reflexivity.
    + apply (inv_lim (fun y => y * y)); [intro Z; apply Rmult_integral in Z; tauto|].
      apply (dpl_mult (fun y => y) (fun y => y)); apply derivable_pt_lim_id.
Qed.

Lemma sym_div f g : sym f -> sym g -> g 0 0 <> 0 -> sym (fun s h => f s h / g s h).
Proof. intros A B N; apply (sym_mul f (fun s h => / g s h)); auto; apply (sym_comp Rinv); auto; apply twice_inv; auto. Qed.

Lemma sym_opp f : sym f -> sym (fun s h => - f s h).
Proof.
  intro A; apply sym_ext with (f := fun s h => (-1 + 0 * s + 0 * h) * f s h); [intros; ring|].
  apply sym_mul; auto; apply sym_affine.
Qed.

Lemma sym_sub f g : sym f -> sym g -> sym (fun s h => f s h - g s h).
Proof. intros A B; apply (sym_add f (fun s h => - g s h)); auto; apply sym_opp; auto. Qed.

Lemma sym_sum (A : Type) inf sp (l : list A) (f : A -> R -> R -> R) :
  (forall a, In a l -> sym (f a)) ->
  sym (fun s h => @sum_over R (R_scalar inf sp) A l (fun a => f a s h)).
Proof.
  induction l as [|a l IH]; intro H.
  - apply sym_ext with (f := fun s h => 0 + 0 * s + 0 * h); [intros; cbn; ring|apply sym_affine].
  - apply sym_ext with (f := fun s h => f a s h + @sum_over R (R_scalar inf sp) A l (fun a => f a s h)).
    + intros s h; rewrite (sum_over_cons (R_exact inf sp)); reflexivity.
    + apply sym_add; [apply H; left; auto|apply IH; intros; apply H; right; auto].
Qed.

(** Unary operators that can be differentiated twice. *)
Definition twice_op (u : unop) : bool :=
  match u with
  | SubOne | OneSub | AddOne | Square | Double | Negate | Abs | Ln | XLnX | Exp | Rabbit | Sigmoid
  | Cos | Sin => true
  | _ => false
  end.

Lemma near_smooth sp u x : twice_op u = true -> smooth_at sp u x ->
  exists e, 0 < e /\ forall y, Rabs (y - x) < e -> smooth_at sp u y.
Proof.
  destruct u; simpl; intros H S; try discriminate; try (exists 1; split; [lra|auto]; fail).
  - exists (Rabs x); split; [apply Rabs_pos_lt; auto|]; intros y Y ->; rewrite Rminus_0_l, Rabs_Ropp in Y; lra.
  - exists x; split; auto; intros y Y; apply Rabs_def2 in Y; lra.
  - exists x; split; auto; intros y Y; apply Rabs_def2 in Y; lra.
Qed.

Lemma twice_un inf sp u x : twice_op u = true -> smooth_at sp u x -> twice (real_un inf sp u) x.
Proof.
  intros H S; destruct (near_smooth sp u x H S) as (e & P & N).
  assert (L : forall v y, twice_op v = true -> smooth_at sp v y -> dpl (real_un inf sp v) y (un_deriv inf sp v y)).
  { intros v y Hv Sv; destruct v; try discriminate Hv;
      eapply (un_lim inf sp (F := R)) with (m := Var 0%nat) (m' := Var 0%nat); try reflexivity; auto. }
  assert (X : exists p2, dpl (un_deriv inf sp u) x p2).
  { destruct u; try discriminate H; cbn [un_deriv] in *;
      try (exists 0; apply derivable_pt_lim_const).
    - eexists; apply (dpl_plus (fun y => y) (fun y => y)); apply derivable_pt_lim_id.
    - eexists; apply (un_lim inf sp (F := R) Sign x (Var 0%nat) (Var 0%nat) _ eq_refl S).
    - eexists; apply (inv_lim (fun y => y)); [simpl in S; lra|apply derivable_pt_lim_id].
    - eexists; apply (dpl_plus (real_un inf sp Ln) (fun _ => 1)); [apply (L Ln); auto|apply derivable_pt_lim_const].
    - eexists; apply derivable_pt_lim_exp.
    - eexists; apply (dpl_plus (fun _ => 1) (fun y => - (y + y))); [apply derivable_pt_lim_const|].
      apply dpl_opp, (dpl_plus (fun y => y) (fun y => y)); apply derivable_pt_lim_id.
    - eexists; apply (lim_chain (real_un inf sp Rabbit) (real_un inf sp Sigmoid)); [apply (L Sigmoid); auto|apply (L Rabbit); exact I || auto].
    - eexists; apply dpl_opp, (L Sin); simpl; auto.
    - eexists; apply (L Cos); simpl; auto. }
  destruct X as (p2 & D2); exists (un_deriv inf sp u), p2, e; auto.
Qed.

Lemma sym_pow f g : sym f -> sym g -> 0 < f 0 0 -> sym (fun s h => R_pow (f s h) (g s h)).
Proof.
  intros A B P.
  assert (TL : twice ln (f 0 0)).
  { destruct (twice_un 0 (fun _ x => x) Ln (f 0 0) eq_refl P) as (p1 & p2 & e & X); exists p1, p2, e; exact X. }
  assert (TE : forall x, twice exp x).
  { intro x; destruct (twice_un 0 (fun _ x => x) Exp x eq_refl I) as (p1 & p2 & e & X); exists p1, p2, e; exact X. }
  assert (Q : sym (fun s h => exp (g s h * ln (f s h)))).
  { apply (sym_comp exp); auto; apply sym_mul; auto; apply (sym_comp ln); auto. }
  destruct A as (ft & fu & d & e & Pe & T & U & _).
  destruct (near_pos (fun s => f s 0) 0) as (a & Pa & Ha); auto.
  { apply (lim_cont _ _ (ft 0)), T, abs0; auto. }
  destruct (near_pos (fun h => f 0 h) 0) as (b & Pb & Hb); auto.
  { apply (lim_cont _ _ (fu 0)), U, abs0; auto. }
  apply sym_near with (f := fun s h => exp (g s h * ln (f s h))) (e := Rmin e (Rmin a b)); auto.
  - repeat apply Rmin_pos; auto.
  - intros h H; destruct (near_pos (fun s => f s h) 0) as (q & Pq & Hq).
    + apply (lim_cont _ _ (ft h)), T; assert (M1 := Rmin_l e (Rmin a b)); lra.
    + apply Hb; rewrite Rminus_0_r; assert (M2 := Rmin_r e (Rmin a b)); assert (M4 := Rmin_r a b); lra.
    + exists q; split; auto; intros s Hs; rewrite R_pow_pos; [reflexivity|apply Hq; rewrite Rminus_0_r; auto].
  - intros s H; destruct (near_pos (fun h => f s h) 0) as (q & Pq & Hq).
    + apply (lim_cont _ _ (fu s)), U; assert (M1 := Rmin_l e (Rmin a b)); lra.
    + apply Ha; rewrite Rminus_0_r; assert (M2 := Rmin_r e (Rmin a b)); assert (M4 := Rmin_l a b); lra.
    + exists q; split; auto; intros h Hh; rewrite R_pow_pos; [reflexivity|apply Hq; rewrite Rminus_0_r; auto].
Qed.
