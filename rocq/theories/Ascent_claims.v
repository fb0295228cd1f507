(** Proofs of C97: the logistic regression example in f64 against the same program over the reals. *)
From Coq Require Import List Arith ZArith Reals SpecFloat Bool Lia Lra.
From Flocq Require Import Core.
Import ListNotations.
From Verif Require Import Base Shapes Scalar Buffers Spec Contraction Node Eval Instances
  Real_math Program_math Float_math Enclosure_math Programs Programs_facts Programs_claims
  Float_facts Float_claims Enclosure_claims Scalar_claims Drift_math Drift_claims Ascent_math.
Local Open Scope R_scope.

#[local] Notation rnd := (Float_facts.rnd 53 1024).
#[local] Notation u := (/ 2 ^ 53).
#[local] Notation eta := (half_tiny 53 1024).

Lemma eta_small : 0 < eta <= u * (u * u).
Proof.
  split; [apply (tiny_pos (prec := 53) (emax := 1024))|].
  unfold half_tiny; change (Z.to_nat (1024 + 53 - 2)) with 1075%nat.
  replace 1075%nat with (53 + (53 + (53 + 916)))%nat by reflexivity; rewrite !pow_add, !Rinv_mult.
  assert (A : 1 <= 2 ^ 916) by (apply pow_R1_Rle; lra).
  assert (B : / 2 ^ 916 <= 1) by (rewrite <- Rinv_1; apply Rinv_le_contravar; lra).
  assert (U : 0 < u) by (apply Rinv_0_lt_compat; lra).
  apply Rmult_le_compat_l; [lra|]; apply Rmult_le_compat_l; [lra|].
  rewrite <- (Rmult_1_r u) at 2; apply Rmult_le_compat_l; lra.
Qed.

(** A float of known value. *)
Definition holds (x : f64) (r : R) : Prop := f64_valid x /\ finite x /\ f64_real x = r.

Lemma holds_near x r : holds x r -> near x r 0.
Proof. intros (V & Fi & E); split; [exact V|split; [exact Fi|]]; rewrite E, Rminus_eq_0, Rabs_R0; lra. Qed.

Lemma near_holds x r e : near x r e -> exists v, holds x v /\ Rabs (v - r) <= e.
Proof. intros (V & Fi & E); exists (f64_real x); split; [split; [exact V|split; [exact Fi|reflexivity]]|exact E]. Qed.

Lemma fl_error z : Rabs z <= 1000 -> Rabs (rnd z - z) <= u * Rabs z + eta /\ Rabs (rnd z) < bpow radix2 1024.
Proof.
  intro H; assert (E := rnd_error (prec := 53) (emax := 1024) z); change (Float_facts.uro 53) with u in E.
  split; [exact E|].
  assert (Z : Rabs (z - z) <= 0) by (rewrite Rminus_eq_0, Rabs_R0; lra).
  apply (rounded z z 0 2000 Z); lra.
Qed.

Lemma fl_mul x r y s : holds x r -> holds y s -> Rabs (r * s) <= 1000 ->
  exists p, holds (SFmul 53 1024 x y) p /\ Rabs (p - r * s) <= u * Rabs (r * s) + eta.
Proof.
  intros (Vx & Fx & <-) (Vy & Fy & <-) H; destruct (mul_real x y Vx Vy) as (V & E & G).
  destruct (fl_error _ H) as [B L]; assert (Fi := G Fx Fy L).
  exists (f64_real (SFmul 53 1024 x y)); split; [split; [exact V|split; [exact Fi|reflexivity]]|].
  rewrite (E Fi); exact B.
Qed.

Lemma fl_div x r y s : holds x r -> holds y s -> s <> 0 -> Rabs (r / s) <= 1000 ->
  exists p, holds (SFdiv 53 1024 x y) p /\ Rabs (p - r / s) <= u * Rabs (r / s) + eta.
Proof.
  intros (Vx & Fx & <-) (Vy & Fy & <-) N H; destruct (div_real x y Vx Vy N) as (V & E & G).
  destruct (fl_error _ H) as [B L]; assert (Fi := G Fx L).
  exists (f64_real (SFdiv 53 1024 x y)); split; [split; [exact V|split; [exact Fi|reflexivity]]|].
  rewrite (E Fi); exact B.
Qed.

Lemma fl_sub x r y s : holds x r -> holds y s -> Rabs (r - s) <= 1000 ->
  exists p, holds (SFsub 53 1024 x y) p /\ Rabs (p - (r - s)) <= u * Rabs (r - s) + eta.
Proof.
  intros (Vx & Fx & <-) (Vy & Fy & <-) H; destruct (sub_real x y Vx Vy) as (V & E & G).
  destruct (fl_error _ H) as [B L]; assert (Fi := G Fx Fy L).
  exists (f64_real (SFsub 53 1024 x y)); split; [split; [exact V|split; [exact Fi|reflexivity]]|].
  rewrite (E Fi); exact B.
Qed.

(** Exact operations. *)
Lemma valid_small x : f64_valid x -> finite x -> Rabs (rnd (f64_real x)) < bpow radix2 1024 /\ rnd (f64_real x) = f64_real x.
Proof.
  intros V Fi; assert (E : rnd (f64_real x) = f64_real x).
  { apply round_generic; [apply valid_rnd_N|apply (valid_format (prec := 53) (emax := 1024)); exact V]. }
  split; [rewrite E|exact E].
  destruct (valid_B (prec := 53) (emax := 1024) x V) as [b ->]; rewrite f64_real_B; apply BinarySingleNaN.abs_B2R_lt_emax.
Qed.

Lemma add_null_r x r y : holds x r -> holds y 0 -> holds (SFadd 53 1024 x y) r.
Proof.
  intros (Vx & Fx & <-) (Vy & Fy & Ey); destruct (add_real x y Vx Vy) as (V & E & G).
  rewrite Ey, Rplus_0_r in E, G; destruct (valid_small x Vx Fx) as [L I].
  assert (Fi := G Fx Fy L); split; [exact V|split; [exact Fi|rewrite (E Fi); exact I]].
Qed.

Lemma add_null_l x y s : holds x 0 -> holds y s -> holds (SFadd 53 1024 x y) s.
Proof.
  intros (Vx & Fx & Ex) (Vy & Fy & <-); destruct (add_real x y Vx Vy) as (V & E & G).
  rewrite Ex, Rplus_0_l in E, G; destruct (valid_small y Vy Fy) as [L I].
  assert (Fi := G Fx Fy L); split; [exact V|split; [exact Fi|rewrite (E Fi); exact I]].
Qed.

Lemma mul_null x r y : holds x r -> holds y 0 -> holds (SFmul 53 1024 x y) 0.
Proof.
  intros Hx Hy; destruct (fl_mul x r y 0 Hx Hy) as (p & (V & Fi & E) & _); [rewrite Rmult_0_r, Rabs_R0; lra|].
  destruct Hx as (Vx & Fx & Ex), Hy as (Vy & Fy & Ey); destruct (mul_real x y Vx Vy) as (_ & K & _).
  split; [exact V|split; [exact Fi|]]; rewrite (K Fi), Ey, Rmult_0_r; apply round_0, valid_rnd_N.
Qed.

Lemma mul_unit x r y : holds x r -> holds y 1 -> holds (SFmul 53 1024 x y) r.
Proof.
  intros (Vx & Fx & <-) (Vy & Fy & Ey); destruct (mul_real x y Vx Vy) as (V & E & G).
  rewrite Ey, Rmult_1_r in E, G; destruct (valid_small x Vx Fx) as [L I].
  assert (Fi := G Fx Fy L); split; [exact V|split; [exact Fi|rewrite (E Fi); exact I]].
Qed.

Lemma opp_holds x r : holds x r -> holds (SFopp x) (- r).
Proof.
  intros (V & Fi & <-); split; [apply (opp_valid (prec := 53) (emax := 1024)), V|split; [apply opp_finite, Fi|apply opp_real]].
Qed.

Lemma one_holds : holds (f64_of_Z 1) 1.
Proof.
  split; [reflexivity|split; [vm_compute; exact Logic.I|]]; exact (Float_claims.one_real (prec := 53) (emax := 1024)).
Qed.

Lemma zero_holds : holds f64_zero 0.
Proof. split; [reflexivity|split; [exact Logic.I|reflexivity]]. Qed.

(** The gradient of one coordinate, once the model [s] is known. *)
Section Coordinate.
Variables (x s : f64) (xr sr : R).
Hypothesis Hx : holds x xr.
Hypothesis Hs : holds s sr.
Hypothesis Bx : Rabs xr <= 1.
Hypothesis Bs : 20 * u <= sr <= 1 - 20 * u.
Notation one := (f64_of_Z 1).
Notation t := (SFsub 53 1024 one s).
Notation mul := (SFmul 53 1024).
Notation g := (mul (mul x one) (mul s t)).

Lemma complement : exists tr, holds t tr /\ Rabs (tr - (1 - sr)) <= u * (1 - sr) + eta /\ 19 * u <= tr <= 1.
Proof.
  assert (U := u_val); assert (T := eta_small).
  destruct (fl_sub one 1 s sr one_holds Hs) as (tr & Ht & E); [rewrite Rabs_pos_eq; lra|].
  rewrite (Rabs_pos_eq (1 - sr)) in E by lra.
  exists tr; split; [exact Ht|split; [exact E|]]; apply Rabs_le_inv in E.
  assert (P : u * (1 - sr) <= u * 1) by (apply Rmult_le_compat_l; lra).
  assert (Q : u * (u * u) <= u * / 1000) by (apply Rmult_le_compat_l; [lra|nra]).
  split; nra.
Qed.

(** [x s t], relatively. *)
Lemma slope : exists tr gr, holds t tr /\ holds g gr /\ Rabs (tr - (1 - sr)) <= u * (1 - sr) + eta /\ 19 * u <= tr <= 1 /\
  Rabs (gr - xr * (sr * tr)) <= 3 * u * (sr * tr) + 3 * eta.
Proof.
  assert (U := u_val); assert (T := eta_small); destruct complement as (tr & Ht & E & B).
  assert (P1 : 0 <= sr * tr <= 1) by (split; nra).
  destruct (fl_mul s sr t tr Hs Ht) as (a & Ha & Ea); [rewrite Rabs_pos_eq; lra|].
  rewrite (Rabs_pos_eq (sr * tr)) in Ea by lra.
  assert (Ba : Rabs a <= 2 * (sr * tr) + eta).
  { assert (K := Rabs_triang (a - sr * tr) (sr * tr)); replace (a - sr * tr + sr * tr) with a in K by ring.
    rewrite (Rabs_pos_eq (sr * tr)) in K by lra; nra. }
  assert (Px := Rabs_pos xr); assert (Pa := Rabs_pos a).
  assert (Bxa : Rabs (xr * a) <= 2 * (sr * tr) + eta) by (rewrite Rabs_mult; nra).
  assert (Hx1 : holds (mul x one) xr) by (apply mul_unit; [exact Hx|apply one_holds]).
  destruct (fl_mul (mul x one) xr (mul s t) a Hx1 Ha) as (gr & Hg & Eg); [nra|].
  exists tr, gr; split; [exact Ht|split; [exact Hg|split; [exact E|split; [exact B|]]]].
  replace (gr - xr * (sr * tr)) with ((gr - xr * a) + xr * (a - sr * tr)) by ring.
  assert (K := Rabs_triang (gr - xr * a) (xr * (a - sr * tr))); rewrite Rabs_mult in K.
  assert (Q1 : Rabs xr * Rabs (a - sr * tr) <= u * (sr * tr) + eta) by (assert (Z := Rabs_pos (a - sr * tr)); nra).
  assert (Q2 : u * Rabs (xr * a) <= u * (2 * (sr * tr) + eta)) by (apply Rmult_le_compat_l; lra).
  nra.
Qed.

Lemma quotient gr v w q : 19 * u <= w <= 1 -> Rabs (gr - q * w) <= 3 * u * (v * w) + 3 * eta -> 0 <= v <= 1 -> Rabs q <= 1 ->
  Rabs (gr / w - q) <= 3 * u + u / 100 /\ Rabs (gr / w) <= 11 / 10.
Proof.
  intros Bw H Bv Bq; assert (U := u_val); assert (T := eta_small).
  assert (W : 0 < w) by nra; assert (Iw : 0 < / w) by (apply Rinv_0_lt_compat, W).
  assert (E : Rabs (gr / w - q) <= 3 * u + u / 100).
  { replace (gr / w - q) with ((gr - q * w) * / w) by (field; lra); rewrite Rabs_mult, (Rabs_pos_eq (/ w)) by lra.
    apply Rmult_le_reg_r with w; [exact W|]; rewrite Rmult_assoc, Rinv_l, Rmult_1_r by lra.
    assert (3 * u * (v * w) <= 3 * u * w) by nra.
    assert (3 * eta <= u / 100 * w).
    { apply Rle_trans with (u / 100 * (19 * u)); [|apply Rmult_le_compat_l; lra].
      assert (u * (u * u) <= u * u * / 1000) by nra; nra. }
    nra. }
  split; [exact E|].
  assert (K := Rabs_triang (gr / w - q) q); replace (gr / w - q + q) with (gr / w) in K by ring; lra.
Qed.

Lemma up_gradient :
  near (SFdiv 53 1024 (SFadd 53 1024 (mul g one) (mul (SFopp g) (SFsub 53 1024 one one)))
                      (SFadd 53 1024 (mul s one) (mul t (SFsub 53 1024 one one)))) ((1 - sr) * xr) (6 * u).
Proof.
  assert (U := u_val); assert (T := eta_small); destruct slope as (tr & gr & Ht & Hg & E & B & Eg).
  assert (Hz : holds (SFsub 53 1024 one one) 0) by (split; [reflexivity|split; [vm_compute; exact Logic.I|vm_compute; reflexivity]]).
  assert (Num : holds (SFadd 53 1024 (mul g one) (mul (SFopp g) (SFsub 53 1024 one one))) gr).
  { apply add_null_r; [apply mul_unit; [exact Hg|apply one_holds]|]; apply (mul_null _ (- gr)); [apply opp_holds, Hg|exact Hz]. }
  assert (Den : holds (SFadd 53 1024 (mul s one) (mul t (SFsub 53 1024 one one))) sr).
  { apply add_null_r; [apply mul_unit; [exact Hs|apply one_holds]|]; apply (mul_null _ tr); [exact Ht|exact Hz]. }
  assert (Bxt : Rabs (xr * tr) <= 1).
  { rewrite Rabs_mult, (Rabs_pos_eq tr) by lra; assert (P := Rabs_pos xr); nra. }
  destruct (quotient gr tr sr (xr * tr) ltac:(lra)) as [Q1 Q2].
  - replace (xr * tr * sr) with (xr * (sr * tr)) by ring; replace (tr * sr) with (sr * tr) by ring; exact Eg.
  - lra.
  - exact Bxt.
  - destruct (fl_div _ gr _ sr Num Den ltac:(lra) ltac:(lra)) as (p & Hp & Ep).
    destruct Hp as (V & Fi & Er); split; [exact V|split; [exact Fi|]]; rewrite Er.
    assert (K1 := Rabs_triang (p - gr / sr) (gr / sr - xr * tr)).
    replace (p - gr / sr + (gr / sr - xr * tr)) with (p - xr * tr) in K1 by ring.
    assert (K2 := Rabs_triang (p - xr * tr) (xr * (tr - (1 - sr)))).
    replace (p - xr * tr + xr * (tr - (1 - sr))) with (p - (1 - sr) * xr) in K2 by ring.
    rewrite (Rabs_mult xr) in K2; assert (P := Rabs_pos xr); assert (P' := Rabs_pos (tr - (1 - sr))).
    assert (u * (u * u) <= u / 100) by nra.
    assert (Rabs xr * Rabs (tr - (1 - sr)) <= 1 * (u * 1 + eta)).
    { apply Rmult_le_compat; [exact P|exact P'|exact Bx|]; apply Rle_trans with (1 := E); nra. }
    assert (u * Rabs (gr / sr) <= u * (11 / 10)) by (apply Rmult_le_compat_l; lra).
    lra.
Qed.

Lemma down_gradient :
  near (SFdiv 53 1024 (SFadd 53 1024 (mul g f64_zero) (mul (SFopp g) (SFsub 53 1024 one f64_zero)))
                      (SFadd 53 1024 (mul s f64_zero) (mul t (SFsub 53 1024 one f64_zero)))) ((0 - sr) * xr) (6 * u).
Proof.
  assert (U := u_val); assert (T := eta_small); destruct slope as (tr & gr & Ht & Hg & E & B & Eg).
  assert (H1 : holds (SFsub 53 1024 one f64_zero) 1).
  { replace (SFsub 53 1024 one f64_zero) with one by (vm_compute; reflexivity); apply one_holds. }
  assert (Num : holds (SFadd 53 1024 (mul g f64_zero) (mul (SFopp g) (SFsub 53 1024 one f64_zero))) (- gr)).
  { apply add_null_l; [apply (mul_null _ gr); [exact Hg|apply zero_holds]|]; apply mul_unit; [apply opp_holds, Hg|exact H1]. }
  assert (Den : holds (SFadd 53 1024 (mul s f64_zero) (mul t (SFsub 53 1024 one f64_zero))) tr).
  { apply add_null_l; [apply (mul_null _ sr); [exact Hs|apply zero_holds]|]; apply mul_unit; [exact Ht|exact H1]. }
  assert (Bxt : Rabs (xr * sr) <= 1).
  { rewrite Rabs_mult, (Rabs_pos_eq sr) by lra; assert (P := Rabs_pos xr); nra. }
  destruct (quotient gr sr tr (xr * sr) ltac:(lra)) as [Q1 Q2].
  - replace (xr * sr * tr) with (xr * (sr * tr)) by ring; exact Eg.
  - lra.
  - exact Bxt.
  - assert (On : - gr / tr = - (gr / tr)) by (field; lra).
    destruct (fl_div _ (- gr) _ tr Num Den ltac:(lra) ltac:(rewrite On, Rabs_Ropp; lra)) as (p & Hp & Ep).
    rewrite On, Rabs_Ropp in Ep.
    destruct Hp as (V & Fi & Er); split; [exact V|split; [exact Fi|]]; rewrite Er.
    assert (K1 := Rabs_triang (p - - (gr / tr)) (- (gr / tr - xr * sr))).
    rewrite Rabs_Ropp in K1.
    replace (p - - (gr / tr) + - (gr / tr - xr * sr)) with (p - (0 - sr) * xr) in K1 by ring.
    assert (u * (u * u) <= u / 100) by nra.
    assert (u * Rabs (gr / tr) <= u * (11 / 10)) by (apply Rmult_le_compat_l; lra).
    lra.
Qed.
End Coordinate.

(** The logistic function: bounds and slope. *)
Lemma logit_alt z : logit z = exp z / (1 + exp z).
Proof. unfold logit; rewrite exp_Ropp; assert (P := exp_pos z); field; lra. Qed.

Lemma logit_opp z : logit (- z) = 1 - logit z.
Proof. rewrite logit_alt; unfold logit; assert (P := exp_pos (- z)); field; lra. Qed.

Lemma logit_far z : -30 <= z <= 30 -> 43 * u <= logit z <= 1 - 43 * u.
Proof.
  assert (E30 : exp 30 <= 3 ^ 30).
  { replace 30 with (INR 30 * 1) at 1 by (simpl; lra).
    assert (Q : forall n, exp (INR n * 1) = exp 1 ^ n).
    { induction n as [|n IH]; [simpl; rewrite Rmult_0_l; apply exp_0|].
      rewrite S_INR, Rmult_plus_distr_r, exp_plus, IH, Rmult_1_l; simpl; ring. }
    rewrite Q; apply pow_incr; split; [left; apply exp_pos|apply exp_le_3]. }
  assert (L : forall t, -30 <= t -> 43 * u <= logit t).
  { intros t H; unfold logit; assert (P := exp_pos (- t)).
    assert (X : exp (- t) <= exp 30).
    { destruct (Req_dec (- t) 30) as [->|N]; [lra|left; apply exp_increasing; lra]. }
    apply Rmult_le_reg_r with (1 + exp (- t)); [lra|]; rewrite Rinv_l by lra.
    apply Rle_trans with (43 * u * (1 + 3 ^ 30)); [apply Rmult_le_compat_l; lra|lra]. }
  intro H; split; [apply L; lra|]; assert (K := L (- z) ltac:(lra)); rewrite logit_opp in K; lra.
Qed.

Lemma logit_slope p q : p <= q -> 0 <= logit q - logit p <= (q - p) / 4.
Proof.
  intro H; split; [assert (K := logit_le 0 (fun _ _ => 0) p q H); lra|].
  destruct H as [H|<-]; [|lra].
  assert (D : forall c, p <= c <= q -> derivable_pt_lim (@sigmoid R (R_scalar 0 (fun _ _ => 0))) c
    (@sigmoid R (R_scalar 0 (fun _ _ => 0)) c * (1 - @sigmoid R (R_scalar 0 (fun _ _ => 0)) c)))
    by (intros c _; apply sigmoid_derivative).
  destruct (MVT_cor2 _ _ p q H D) as (c & E & _); rewrite !(model_logit 0 (fun _ _ => 0)) in E.
  rewrite E; set (l := logit c); assert (Q := Rle_0_sqr (l - 1 / 2)); unfold Rsqr in Q; nra.
Qed.

Lemma logit_lipschitz p q : Rabs (logit p - logit q) <= Rabs (p - q) / 4.
Proof.
  destruct (Rle_dec p q) as [H|H].
  - assert (K := logit_slope p q H); rewrite (Rabs_left1 (p - q)), (Rabs_left1 (logit p - logit q)) by lra; lra.
  - assert (K := logit_slope q p ltac:(lra)); rewrite (Rabs_pos_eq (p - q)), (Rabs_pos_eq (logit p - logit q)) by lra; lra.
Qed.

Lemma climb_nonexpansive rate a b xs y : 0 <= rate -> rate * ip xs xs <= 8 -> length b = length a -> length xs = length a ->
  dist2 (climb rate a xs y) (climb rate b xs y) <= dist2 a b.
Proof.
  intros Hr Hx Lb Lx; unfold climb; rewrite dist_moves by assumption.
  set (p := ip xs a) in *; set (q := ip xs b) in *; set (n := ip xs xs) in *.
  set (D := logit p - logit q).
  replace (rate * (label y - logit p) - rate * (label y - logit q)) with (- (rate * D)) by (unfold D; ring).
  assert (S : 4 * (D * D) <= D * (p - q)).
  { unfold D; destruct (Rle_dec p q) as [H|H].
    - assert (K := logit_slope p q H); nra.
    - assert (K := logit_slope q p ltac:(lra)); nra. }
  assert (R1 : 0 <= rate * (D * D) * (8 - rate * n)).
  { apply Rmult_le_pos; [apply Rmult_le_pos; [lra|apply Rle_0_sqr]|lra]. }
  assert (R2 : 0 <= rate * (D * (p - q) - 4 * (D * D))) by (apply Rmult_le_pos; lra).
  nra.
Qed.

Lemma fl_add x r y s : holds x r -> holds y s -> Rabs (r + s) <= 1000 ->
  exists p, holds (SFadd 53 1024 x y) p /\ Rabs (p - (r + s)) <= u * Rabs (r + s) + eta.
Proof.
  intros (Vx & Fx & <-) (Vy & Fy & <-) H; destruct (add_real x y Vx Vy) as (V & E & G).
  destruct (fl_error _ H) as [B L]; assert (Fi := G Fx Fy L).
  exists (f64_real (SFadd 53 1024 x y)); split; [split; [exact V|split; [exact Fi|reflexivity]]|].
  rewrite (E Fi); exact B.
Qed.

Lemma sub_null_r x r y : holds x r -> holds y 0 -> holds (SFsub 53 1024 x y) r.
Proof.
  intros (Vx & Fx & <-) (Vy & Fy & Ey); destruct (sub_real x y Vx Vy) as (V & E & G).
  rewrite Ey, Rminus_0_r in E, G; destruct (valid_small x Vx Fx) as [L I].
  assert (Fi := G Fx Fy L); split; [exact V|split; [exact Fi|rewrite (E Fi); exact I]].
Qed.

Lemma sub_null_l x y s : holds x 0 -> holds y s -> holds (SFsub 53 1024 x y) (- s).
Proof.
  intros (Vx & Fx & Ex) (Vy & Fy & <-); destruct (sub_real x y Vx Vy) as (V & E & G).
  destruct (opp_holds y _ (conj Vy (conj Fy eq_refl))) as (Vo & Fo & Eo).
  destruct (valid_small _ Vo Fo) as [L I].
  rewrite Ex, Rminus_0_l, <- Eo in E, G.
  assert (Fi := G Fx Fy L); split; [exact V|split; [exact Fi|rewrite (E Fi), I; exact Eo]].
Qed.

(** The model. *)
Lemma ratio n m k : 99 / 100 <= m -> Rabs n <= k -> Rabs (n / m) <= k * (102 / 100).
Proof.
  intros Hm Hn; assert (P := Rabs_pos n); unfold Rdiv at 1; rewrite Rabs_mult, (Rabs_pos_eq (/ m)) by (left; apply Rinv_0_lt_compat; lra).
  apply Rmult_le_compat; [exact P|left; apply Rinv_0_lt_compat; lra|exact Hn|].
  apply Rmult_le_reg_r with m; [lra|]; rewrite Rinv_l by lra; lra.
Qed.

Section Model.
Variable lib : f64 -> f64.
Hypothesis Good : good_exp lib.

Lemma base_value a ar : holds a ar -> ar <= 0 ->
  exists er dr, holds (lib a) er /\ holds (SFadd 53 1024 (f64_of_Z 1) (lib a)) dr /\
    Rabs (er - exp ar) <= u * (8 * exp ar + / 1000) /\ Rabs (dr - (1 + er)) <= 21 / 10 * u /\ 0 < exp ar <= 1.
Proof.
  intros (V & Fi & <-) H; destruct (Good a V Fi H) as (Vl & Fl & El); assert (U := u_val); assert (T := eta_small).
  assert (P := exp_pos (f64_real a)).
  assert (P1 : exp (f64_real a) <= 1).
  { rewrite <- exp_0; destruct H as [H|H]; [left; apply exp_increasing, H|rewrite H; lra]. }
  set (er := f64_real (lib a)) in *; set (E := exp (f64_real a)) in *.
  assert (K : u * (8 * E + / 1000) <= u * 9) by (apply Rmult_le_compat_l; lra).
  assert (B : - (9 * u) <= er <= 1 + 9 * u) by (apply Rabs_le_inv in El; lra).
  destruct (fl_add (f64_of_Z 1) 1 (lib a) er one_holds (conj Vl (conj Fl eq_refl))) as (dr & Hd & Ed).
  { rewrite Rabs_pos_eq; lra. }
  exists er, dr; split; [split; [exact Vl|split; [exact Fl|reflexivity]]|split; [exact Hd|split; [exact El|split; [|split; lra]]]].
  apply Rle_trans with (1 := Ed); rewrite Rabs_pos_eq by lra.
  assert (Q : u * (1 + er) <= u * (2 + / 1000)) by (apply Rmult_le_compat_l; lra).
  assert (u * (u * u) <= u / 100) by nra; lra.
Qed.

Lemma upper a ar : holds a ar -> ar <= 0 ->
  near (SFdiv 53 1024 (f64_of_Z 1) (SFadd 53 1024 (f64_of_Z 1) (lib a))) (/ (1 + exp ar)) (14 * u).
Proof.
  intros Ha H; destruct (base_value a ar Ha H) as (er & dr & He & Hd & Ee & Ed & BE); assert (U := u_val); assert (T := eta_small).
  set (E := exp ar) in *.
  assert (K : u * (8 * E + / 1000) <= u * (8 + / 1000)) by (apply Rmult_le_compat_l; lra).
  assert (Br : 1 + E - 11 * u <= dr <= 1 + E + 11 * u).
  { apply Rabs_le_inv in Ee; apply Rabs_le_inv in Ed; lra. }
  assert (D : Rabs (1 / dr - / (1 + E)) <= 11 * u * (102 / 100)).
  { replace (1 / dr - / (1 + E)) with ((1 + E - dr) / (dr * (1 + E))) by (field; lra).
    apply ratio; [nra|apply Rabs_le; lra]. }
  assert (B1 : Rabs (1 / dr) <= 102 / 100).
  { apply Rle_trans with (1 * (102 / 100)); [apply ratio; [lra|rewrite Rabs_R1; lra]|lra]. }
  destruct (fl_div _ 1 _ dr one_holds Hd ltac:(lra) ltac:(lra)) as (p & (V & Fi & Er) & Ep).
  split; [exact V|split; [exact Fi|]]; rewrite Er.
  assert (Tr := Rabs_triang (p - 1 / dr) (1 / dr - / (1 + E))).
  replace (p - 1 / dr + (1 / dr - / (1 + E))) with (p - / (1 + E)) in Tr by ring.
  assert (u * Rabs (1 / dr) <= u * (102 / 100)) by (apply Rmult_le_compat_l; lra).
  assert (u * (u * u) <= u / 100) by nra; lra.
Qed.

Lemma lower a ar : holds a ar -> ar <= 0 ->
  near (SFdiv 53 1024 (lib a) (SFadd 53 1024 (f64_of_Z 1) (lib a))) (exp ar / (1 + exp ar)) (14 * u).
Proof.
  intros Ha H; destruct (base_value a ar Ha H) as (er & dr & He & Hd & Ee & Ed & BE); assert (U := u_val); assert (T := eta_small).
  set (E := exp ar) in *.
  assert (K : u * (8 * E + / 1000) <= u * (8 + / 1000)) by (apply Rmult_le_compat_l; lra).
  assert (Be : Rabs er <= 1 + 9 * u) by (apply Rabs_le_inv in Ee; apply Rabs_le; lra).
  assert (Br : 1 + E - 11 * u <= dr <= 1 + E + 11 * u).
  { apply Rabs_le_inv in Ee; apply Rabs_le_inv in Ed; lra. }
  assert (D : Rabs (er / dr - E / (1 + E)) <= (8 + / 1000 + 21 / 10) * u * (102 / 100)).
  { replace (er / dr - E / (1 + E)) with (((er - E) - E * (dr - (1 + er))) / (dr * (1 + E))) by (field; lra).
    apply ratio; [nra|].
    assert (Tr := Rabs_triang (er - E) (- (E * (dr - (1 + er))))); rewrite Rabs_Ropp, Rabs_mult, (Rabs_pos_eq E) in Tr by lra.
    assert (E * Rabs (dr - (1 + er)) <= 1 * (21 / 10 * u)) by (apply Rmult_le_compat; [lra|apply Rabs_pos|lra|exact Ed]).
    unfold Rminus at 1; lra. }
  assert (B1 : Rabs (er / dr) <= (1 + 9 * u) * (102 / 100)) by (apply ratio; lra).
  destruct (fl_div _ er _ dr He Hd ltac:(lra) ltac:(lra)) as (p & (V & Fi & Er) & Ep).
  split; [exact V|split; [exact Fi|]]; rewrite Er.
  assert (Tr := Rabs_triang (p - er / dr) (er / dr - E / (1 + E))).
  replace (p - er / dr + (er / dr - E / (1 + E))) with (p - E / (1 + E)) in Tr by ring.
  assert (u * Rabs (er / dr) <= u * (11 / 10)) by (apply Rmult_le_compat_l; lra).
  assert (u * (u * u) <= u / 100) by nra; lra.
Qed.
End Model.

Lemma sign_of z : finite z -> if (SFleb f64_zero z : bool) then 0 <= f64_real z else f64_real z <= 0.
Proof.
  destruct z as [b|b| |b m e]; cbn [finite]; try contradiction; intros _; [cbn; destruct b; cbn; lra|].
  assert (P : 0 < IZR (Zpos m) * powerRZ 2 e) by (apply Rmult_lt_0_compat; [apply IZR_lt; lia|apply powerRZ_lt; lra]).
  destruct b; cbn; cbn in P; nra.
Qed.

Section Step.
Variables (pow : f64 -> f64 -> f64) (lib : libfn -> f64 -> f64).
#[local] Instance a64 : Scalar f64 := f64_scalar pow lib.
Hypothesis Good : good_exp (lib Lexp).

Lemma sigmoid_near z zr : holds z zr -> near (sigmoid z) (logit zr) (14 * u).
Proof.
  intro H; assert (F : finite z) by apply H; assert (Sg := sign_of z F).
  assert (Ez : f64_real z = zr) by apply H; rewrite Ez in Sg.
  unfold sigmoid; change (@fle f64 a64 fzero z) with (SFleb f64_zero z).
  destruct (SFleb f64_zero z).
  - apply (upper (lib Lexp) Good (SFopp z) (- zr)); [apply opp_holds, H|lra].
  - rewrite logit_alt; apply (lower (lib Lexp) Good z zr); [exact H|exact Sg].
Qed.

Definition wobble : R := 119100 * u.

Lemma label_range b z : Rabs (label b - logit z) <= 1.
Proof. assert (L := logit_range 0 (fun _ _ => 0) z); destruct b; cbn [label]; apply Rabs_le; lra. Qed.

(** Replacing the computed model by the exact one. *)
Lemma settle c b sr xr zr pr e : Rabs xr <= 1 -> near c ((label b - sr) * xr) e -> e <= 10 * u ->
  Rabs (sr - logit zr) <= 14 * u -> Rabs (zr - pr) <= 476220 * u -> near c ((label b - logit pr) * xr) wobble.
Proof.
  intros Bx (V & Fi & E) He Hs Hz; assert (U := u_val); split; [exact V|split; [exact Fi|]].
  assert (L := logit_lipschitz zr pr).
  assert (K : Rabs (logit pr - sr) <= 14 * u + 476220 * u / 4).
  { assert (T := Rabs_triang (- (sr - logit zr)) (- (logit zr - logit pr))); rewrite !Rabs_Ropp in T.
    replace (- (sr - logit zr) + - (logit zr - logit pr)) with (logit pr - sr) in T by ring; lra. }
  assert (T := Rabs_triang (f64_real c - (label b - sr) * xr) ((logit pr - sr) * xr)); rewrite (Rabs_mult (logit pr - sr)) in T.
  replace (f64_real c - (label b - sr) * xr + (logit pr - sr) * xr) with (f64_real c - (label b - logit pr) * xr) in T by ring.
  assert (Rabs (logit pr - sr) * Rabs xr <= (14 * u + 476220 * u / 4) * 1)
    by (apply Rmult_le_compat; [apply Rabs_pos|apply Rabs_pos|exact K|exact Bx]).
  unfold wobble; lra.
Qed.

Lemma auto_entry x s b xr sr : holds x xr -> holds s sr -> Rabs xr <= 1 -> 20 * u <= sr <= 1 - 20 * u ->
  let y := if (b : bool) then fone else fzero in
  let g := fmul (fmul x fone) (fmul s (fsub fone s)) in
  near (fdiv (fadd (fmul g y) (fmul (fneg g) (fsub fone y))) (fadd (fmul s y) (fmul (fsub fone s) (fsub fone y))))
    ((label b - sr) * xr) (6 * u).
Proof.
  intros Hx Hs Bx Bs; destruct b; [exact (up_gradient x s xr sr Hx Hs Bx Bs)|exact (down_gradient x s xr sr Hx Hs Bx Bs)].
Qed.

Lemma hand_entry x s b xr sr : holds x xr -> holds s sr -> Rabs xr <= 1 -> Rabs sr <= 2 ->
  let y := if (b : bool) then fone else fzero in
  near (fmul (fsub (fmul y (fsub fone s)) (fmul (fsub fone y) s)) x) ((label b - sr) * xr) (10 * u).
Proof.
  intros Hx Hs Bx Bs; assert (U := u_val); assert (T := eta_small); cbv zeta.
  assert (Ueta : eta <= u / 100) by (assert (u * (u * u) <= u / 100) by nra; lra).
  assert (B1 : Rabs (1 - sr) <= 3) by (apply Rabs_le_inv in Bs; apply Rabs_le; lra).
  destruct (fl_sub (f64_of_Z 1) 1 s sr one_holds Hs ltac:(lra)) as (tr & Ht & Et).
  assert (Et' : Rabs (tr - (1 - sr)) <= u * 3 + u / 100).
  { assert (u * Rabs (1 - sr) <= u * 3) by (apply Rmult_le_compat_l; lra); lra. }
  assert (F : exists kr, holds (fsub (fmul (if b then fone else fzero) (fsub fone s)) (fmul (fsub fone (if b then fone else fzero)) s)) kr /\
    Rabs (kr - (label b - sr)) <= u * 3 + u / 100).
  { destruct b; cbn [label].
    - exists tr; split; [|exact Et'].
      apply (sub_null_r (SFmul 53 1024 (f64_of_Z 1) (SFsub 53 1024 (f64_of_Z 1) s)) tr (SFmul 53 1024 (SFsub 53 1024 (f64_of_Z 1) (f64_of_Z 1)) s)).
      + rewrite f64_mul_comm; apply mul_unit; [exact Ht|apply one_holds].
      + rewrite f64_mul_comm; apply (mul_null _ sr); [exact Hs|split; [reflexivity|split; [vm_compute; exact Logic.I|vm_compute; reflexivity]]].
    - exists (- sr); split; [|replace (- sr - (0 - sr)) with 0 by ring; rewrite Rabs_R0; lra].
      apply (sub_null_l (SFmul 53 1024 f64_zero (SFsub 53 1024 (f64_of_Z 1) s)) (SFmul 53 1024 (SFsub 53 1024 (f64_of_Z 1) f64_zero) s) sr).
      + rewrite f64_mul_comm; apply (mul_null _ tr); [exact Ht|apply zero_holds].
      + rewrite f64_mul_comm; apply mul_unit; [exact Hs|].
        replace (SFsub 53 1024 (f64_of_Z 1) f64_zero) with (f64_of_Z 1) by (vm_compute; reflexivity); apply one_holds. }
  destruct F as (kr & Hk & Ek).
  assert (Bk : Rabs kr <= 4).
  { assert (R := Rabs_triang (kr - (label b - sr)) (label b - sr)).
    replace (kr - (label b - sr) + (label b - sr)) with kr in R by ring.
    assert (Rabs (label b - sr) <= 3); [|lra].
    apply Rabs_le_inv in Bs; destruct b; cbn [label]; apply Rabs_le; lra. }
  assert (Bkx : Rabs (kr * xr) <= 4).
  { rewrite Rabs_mult; apply Rle_trans with (4 * 1); [apply Rmult_le_compat; try apply Rabs_pos; assumption|lra]. }
  destruct (fl_mul _ kr x xr Hk Hx ltac:(lra)) as (p & (V & Fi & Er) & Ep).
  split; [exact V|split; [exact Fi|]].
  change (fmul ?a x) with (SFmul 53 1024 a x); rewrite Er.
  assert (R := Rabs_triang (p - kr * xr) ((kr - (label b - sr)) * xr)); rewrite (Rabs_mult (kr - _)) in R.
  replace (p - kr * xr + (kr - (label b - sr)) * xr) with (p - (label b - sr) * xr) in R by ring.
  assert (Rabs (kr - (label b - sr)) * Rabs xr <= (u * 3 + u / 100) * 1)
    by (apply Rmult_le_compat; [apply Rabs_pos|apply Rabs_pos|exact Ek|exact Bx]).
  assert (u * Rabs (kr * xr) <= u * 4) by (apply Rmult_le_compat_l; lra).
  lra.
Qed.

(** One coordinate of the update, and all of them. *)
Variable rate : f64.
Notation rr := (f64_real rate).
Hypothesis Hrate : f64_valid rate /\ finite rate /\ 0 <= rr <= / 1000.

Lemma update h k x w : near h (k * f64_real x) wobble -> Rabs k <= 1 -> within 1 x -> within 512 w ->
  near (SFadd 53 1024 w (SFmul 53 1024 rate h)) (f64_real w + rr * k * f64_real x) (634 * u).
Proof.
  intros Nh Hk X Y; assert (U := u_val); destruct Hrate as (Vr & Fr & Br).
  assert (Ax : Rabs (f64_real x) <= 1) by apply X; assert (Aw : Rabs (f64_real w) <= 512) by apply Y.
  assert (Akx : Rabs (k * f64_real x) <= 1).
  { rewrite Rabs_mult; apply Rle_trans with (1 * 1); [apply Rmult_le_compat; try apply Rabs_pos; assumption|lra]. }
  assert (Arkx : Rabs (rr * (k * f64_real x)) <= / 1000).
  { rewrite Rabs_mult, (Rabs_pos_eq rr) by lra; apply Rle_trans with (/ 1000 * 1); [apply Rmult_le_compat; try apply Rabs_pos; lra|lra]. }
  assert (Nr : near rate rr 0) by (split; [exact Vr|split; [exact Fr|]]; rewrite Rminus_eq_0, Rabs_R0; lra).
  assert (N1 : near (SFmul 53 1024 rate h) (rr * (k * f64_real x)) (1191 / 10 * u + u * / 100)).
  { apply (near_mul rate _ h _ wobble); [exact Nr|exact Nh| |lra|lra].
    rewrite Rabs_pos_eq by lra; unfold wobble; nra. }
  assert (T := Rabs_triang (f64_real w) (rr * (k * f64_real x))).
  assert (N2 := near_add _ _ _ _ _ _ 514 (within_near 512 w Y) N1 ltac:(lra) ltac:(lra)).
  replace (f64_real w + rr * k * f64_real x) with (f64_real w + rr * (k * f64_real x)) by ring.
  apply (near_weaken _ _ _ _ N2); lra.
Qed.

Lemma updated (h : f64 -> f64) k : Rabs k <= 1 -> forall xs ws, length xs = length ws ->
  (forall x, In x xs -> near (h x) (k * f64_real x) wobble) ->
  Forall (within 1) xs -> Forall (within 512) ws ->
  let out := ascend rate ws (map h xs) in
  Forall sound out /\ length out = length ws /\
  dist2 (map f64_real out) (move (rr * k) (map f64_real ws) (map f64_real xs)) <= INR (length ws) * (634 * u * (634 * u)).
Proof.
  intros Hk; unfold ascend; induction xs as [|x xs IH]; intros [|w ws] L Hh Hx Hw; try discriminate L.
  - cbn; repeat split; [constructor|lra].
  - inversion Hx as [|x' xs' X Hx']; subst x' xs'; inversion Hw as [|w' ws' Y Hw']; subst w' ws'.
    injection L as L; destruct (IH ws L (fun a Ia => Hh a (or_intror Ia)) Hx' Hw') as (I1 & I2 & I3).
    destruct (update (h x) k x w (Hh x (or_introl eq_refl)) Hk X Y) as (V & Fi & B).
    cbn [map combine fst snd]; split; [constructor; [split; assumption|exact I1]|].
    cbn [length]; split; [f_equal; exact I2|].
    cbn [move dist2]; rewrite S_INR.
    change (fadd w (fmul rate (h x))) with (SFadd 53 1024 w (SFmul 53 1024 rate (h x))).
    match goal with |- ?a * ?a + _ <= _ => assert (Q : a * a <= 634 * u * (634 * u)) end; [|lra].
    match goal with |- ?a * ?a <= _ => replace (a * a) with (Rabs a * Rabs a) by (rewrite <- Rabs_mult; apply Rabs_pos_eq, Rle_0_sqr) end; apply Rmult_le_compat; try apply Rabs_pos; exact B.
Qed.

Lemma ascent_step grad ws xs b :
  (grad = logistic_auto /\ Rabs (ip (map f64_real xs) (map f64_real ws)) <= 59 / 2 \/ grad = logistic_by_hand) ->
  length xs = length ws -> (length ws <= 30)%nat -> Forall (within 1) xs -> Forall (within 512) ws ->
  exists out, logistic_step grad rate ws xs b = Ok out /\ Forall sound out /\ length out = length ws /\
    dist2 (map f64_real out) (climb rr (map f64_real ws) (map f64_real xs) b) <= / 2 ^ 41 * / 2 ^ 41.
Proof.
  intros G L N Hx Hw; assert (U := u_val).
  assert (P := product_near pow lib 512 xs ws ltac:(lra) Hx Hw L ltac:(lia)).
  set (pr := ip (map f64_real xs) (map f64_real ws)) in *.
  destruct (near_holds _ _ _ P) as (zr & Hz & Ez); unfold per_term in Ez.
  assert (Ez' : Rabs (zr - pr) <= 476220 * u) by lra.
  destruct (near_holds _ _ _ (sigmoid_near _ _ Hz)) as (sr & Hs & Es).
  assert (H : exists h, grad (xyw xs (if b then fone else fzero) ws) = Ok (array1 (map h xs)) /\
    forall x, In x xs -> near (h x) ((label b - logit pr) * f64_real x) wobble).
  { rewrite Forall_forall in Hx; destruct G as [[-> Bp]| ->].
    - eexists; split; [apply auto_logistic; [exact L|reflexivity|reflexivity]|].
      intros x Ix; destruct (Hx x Ix) as (Vx & Fx & Ax).
      assert (Rz : -30 <= zr <= 30) by (apply Rabs_le_inv in Bp; apply Rabs_le_inv in Ez'; lra).
      assert (Fa := logit_far zr Rz).
      apply (settle _ b sr (f64_real x) zr pr (6 * u) Ax); [|lra|exact Es|exact Ez'].
      apply auto_entry; [split; [exact Vx|split; [exact Fx|reflexivity]]|exact Hs|exact Ax|].
      apply Rabs_le_inv in Es; lra.
    - eexists; split; [apply hand_logistic; exact L|].
      intros x Ix; destruct (Hx x Ix) as (Vx & Fx & Ax).
      apply (settle _ b sr (f64_real x) zr pr (10 * u) Ax); [|lra|exact Es|exact Ez'].
      apply hand_entry; [split; [exact Vx|split; [exact Fx|reflexivity]]|exact Hs|exact Ax|].
      assert (Lr := logit_range 0 (fun _ _ => 0) zr); apply Rabs_le_inv in Es; apply Rabs_le; lra. }
  destruct H as (h & E & Hh).
  destruct (updated h _ (label_range b pr) xs ws L Hh Hx Hw) as (M1 & M2 & M3).
  exists (ascend rate ws (map h xs)); split; [apply logistic_step_by; [exact E|rewrite map_length; exact L]|].
  split; [exact M1|split; [exact M2|]].
  apply Rle_trans with (1 := M3).
  replace (/ 2 ^ 41) with (4096 * u) by (rewrite <- (Rinv_inv 4096), <- Rinv_mult; f_equal; lra).
  assert (KW : INR (length ws) <= 30) by (replace 30 with (INR 30) by (simpl; lra); apply le_INR; lia).
  assert (Q : 0 < u * u) by nra.
  replace (634 * u * (634 * u)) with (401956 * (u * u)) by ring.
  replace (4096 * u * (4096 * u)) with (16777216 * (u * u)) by ring; nra.
Qed.

(** The whole run. *)
Lemma dot_close xs : forall a c p, Forall (within 1) xs -> length a = length xs -> length c = length xs -> 0 <= p ->
  dist2 a c <= p * p -> Rabs (ip (map f64_real xs) a - ip (map f64_real xs) c) <= INR (length xs) * p.
Proof.
  induction xs as [|x xs IH]; intros [|v a] [|w c] p Hx La Lc Hp D; try discriminate; cbn [map ip dist2] in *.
  - rewrite Rminus_eq_0, Rabs_R0; cbn; lra.
  - inversion Hx as [|x' xs' X Hx']; subst x' xs'; destruct X as (_ & _ & X).
    change (length (x :: xs)) with (Datatypes.S (length xs)); rewrite S_INR.
    assert (Pd := dist_nonneg a c); assert (Q := Rle_0_sqr (v - w)); unfold Rsqr in Q.
    assert (I := IH a c p Hx' ltac:(injection La; auto) ltac:(injection Lc; auto) Hp ltac:(lra)).
    assert (A : Rabs (v - w) <= p) by (rewrite <- (Rabs_pos_eq p Hp); apply Rsqr_le_abs_0; unfold Rsqr; lra).
    assert (T := Rabs_triang (f64_real x * (v - w)) (ip (map f64_real xs) a - ip (map f64_real xs) c)).
    replace (f64_real x * (v - w) + (ip (map f64_real xs) a - ip (map f64_real xs) c))
      with (f64_real x * v + ip (map f64_real xs) a - (f64_real x * w + ip (map f64_real xs) c)) in T by ring.
    rewrite Rabs_mult in T.
    assert (Rabs (f64_real x) * Rabs (v - w) <= 1 * p) by (apply Rmult_le_compat; try apply Rabs_pos; assumption).
    lra.
Qed.

Lemma within_of_close m : forall rs ws p, 0 <= p -> length ws = length rs -> Forall (fun r => Rabs r <= m) rs -> Forall sound ws ->
  dist2 (map f64_real ws) rs <= p * p -> Forall (within (m + p)) ws.
Proof.
  induction rs as [|r rs IH]; intros [|w ws] p Hp L Hr Hw D; try discriminate L; constructor;
    inversion Hr as [|r' rs' R0 Hr']; subst r' rs'; inversion Hw as [|w' ws' [V Fi] Hw']; subst w' ws'; cbn [map dist2] in D;
    assert (Pd := dist_nonneg (map f64_real ws) rs); assert (Q := Rle_0_sqr (f64_real w - r)); unfold Rsqr in Q.
  - split; [exact V|split; [exact Fi|]].
    assert (A : Rabs (f64_real w - r) <= p) by (rewrite <- (Rabs_pos_eq p Hp); apply Rsqr_le_abs_0; unfold Rsqr; lra).
    assert (K := Rabs_triang (f64_real w - r) r); replace (f64_real w - r + r) with (f64_real w) in K by ring; lra.
  - apply IH; auto; lra.
Qed.

Lemma climb_bound m k : forall xs rs, Rabs k <= 1 -> Forall (within 1) xs -> length rs = length xs ->
  Forall (fun r => Rabs r <= m) rs -> Forall (fun r => Rabs r <= m + rr) (move (rr * k) rs (map f64_real xs)).
Proof.
  induction xs as [|x xs IH]; intros [|r rs] Hk Hx L Hr; try discriminate L; cbn [map move]; constructor;
    inversion Hx as [|x' xs' X Hx']; subst x' xs'; inversion Hr as [|r' rs' R0 Hr']; subst r' rs'.
  - destruct X as (_ & _ & X); assert (T := Rabs_triang r (rr * k * f64_real x)); rewrite !Rabs_mult in T.
    destruct Hrate as (_ & _ & Br); rewrite (Rabs_pos_eq rr) in T by lra.
    assert (Rabs k * Rabs (f64_real x) <= 1 * 1) by (apply Rmult_le_compat; try apply Rabs_pos; assumption).
    assert (rr * (Rabs k * Rabs (f64_real x)) <= rr * 1) by (apply Rmult_le_compat_l; lra).
    lra.
  - apply IH; auto.
Qed.

Lemma ascent_near grad draws : forall ws rs p m,
  (grad = logistic_auto /\ calm 29 rr rs (real_draws draws) \/ grad = logistic_by_hand) ->
  Forall (fun d => length (fst d) = length ws /\ Forall (within 1) (fst d)) draws ->
  (length ws <= 30)%nat -> length rs = length ws -> Forall sound ws -> Forall (fun r => Rabs r <= m) rs ->
  0 <= m -> m + INR (length draws) * rr <= 511 ->
  0 <= p -> p + INR (length draws) / 2 ^ 41 <= / 100 -> dist2 (map f64_real ws) rs <= p * p ->
  exists out, logistic_run grad rate ws draws = Ok out /\ Forall sound out /\ length out = length ws /\
    dist2 (map f64_real out) (climb_all rr rs (real_draws draws)) <=
      (p + INR (length draws) / 2 ^ 41) * (p + INR (length draws) / 2 ^ 41).
Proof.
  induction draws as [|[xs b] draws IH]; intros ws rs p m G Hd N Lr Sw Hr Hm Hn Hp Hpn D.
  - exists ws; split; [reflexivity|split; [exact Sw|split; [reflexivity|]]].
    unfold climb_all, real_draws; cbn [map fold_left length INR]; unfold Rdiv; rewrite Rmult_0_l, Rplus_0_r; exact D.
  - inversion Hd as [|? ? [Lx Hx] Hd']; subst; cbn [fst] in Lx, Hx.
    change (length ((xs, b) :: draws)) with (Datatypes.S (length draws)) in *; rewrite S_INR in *.
    assert (P41 : 0 < / 2 ^ 41) by (apply Rinv_0_lt_compat; lra).
    assert (Pn := pos_INR (length draws)); unfold Rdiv in *.
    destruct Hrate as (_ & _ & Br).
    assert (Pq : 0 <= INR (length draws) * / 2 ^ 41) by (apply Rmult_le_pos; lra).
    assert (Pr : 0 <= INR (length draws) * rr) by (apply Rmult_le_pos; lra).
    assert (Hw : Forall (within 512) ws).
    { eapply Forall_impl; [|apply (within_of_close m rs ws p Hp ltac:(congruence) Hr Sw D)].
      intros w (V & Fi & B); split; [exact V|split; [exact Fi|lra]]. }
    assert (KN : INR (length xs) <= 30) by (replace 30 with (INR 30) by (simpl; lra); apply le_INR; lia).
    set (pr := ip (map f64_real xs) (map f64_real ws)).
    assert (G1 : grad = logistic_auto /\ Rabs pr <= 59 / 2 \/ grad = logistic_by_hand).
    { destruct G as [[-> [C _]]|G]; [left; split; [reflexivity|]|right; exact G].
      cbn [fst snd] in C.
      assert (Dc := dot_close xs (map f64_real ws) rs p Hx ltac:(rewrite map_length; congruence) ltac:(congruence) Hp D).
      fold pr in Dc.
      assert (T := Rabs_triang (pr - ip (map f64_real xs) rs) (ip (map f64_real xs) rs)).
      replace (pr - ip (map f64_real xs) rs + ip (map f64_real xs) rs) with pr in T by ring.
      assert (INR (length xs) * p <= 30 * / 100) by (apply Rmult_le_compat; [apply pos_INR|lra|lra|lra]).
      lra. }
    destruct (ascent_step grad ws xs b G1 Lx N Hx Hw) as (w1 & E1 & S1 & L1 & B1).
    set (r1 := climb rr rs (map f64_real xs) b).
    assert (Lr1 : length r1 = length w1) by (unfold r1, climb; rewrite move_length; rewrite ?map_length; congruence).
    assert (Hr1 : Forall (fun r => Rabs r <= m + rr) r1).
    { unfold r1, climb; apply climb_bound; [apply label_range|exact Hx|congruence|exact Hr]. }
    assert (Ux := unit_square xs Hx).
    assert (D1' : dist2 (map f64_real w1) r1 <= (/ 2 ^ 41 + p) * (/ 2 ^ 41 + p)).
    { apply (dist_triangle (/ 2 ^ 41) p _ (climb rr (map f64_real ws) (map f64_real xs) b)).
      - lra.
      - exact Hp.
      - unfold climb; rewrite move_length; rewrite ?map_length; congruence.
      - rewrite map_length; congruence.
      - exact B1.
      - apply Rle_trans with (2 := D); apply climb_nonexpansive; rewrite ?map_length; try congruence; [lra|].
        apply Rle_trans with (/ 1000 * 30); [|lra].
        apply Rmult_le_compat; [lra|apply ip_self|lra|lra]. }
    destruct (IH w1 r1 (/ 2 ^ 41 + p) (m + rr)) as (out & E & So & Lo & B); try lra; try assumption.
    + destruct G as [[-> [_ C]]|G]; [left; split; [reflexivity|exact C]|right; exact G].
    + rewrite L1; exact Hd'.
    + rewrite L1; exact N.
    + exists out; cbn [logistic_run].
      change (logistic_step grad rate ws xs b = Ok w1) in E1; rewrite E1; cbn [res_bind]; split; [exact E|split; [exact So|split; [congruence|]]].
      unfold climb_all, real_draws in *; cbn [map fold_left fst snd]; fold r1.
      replace (p + (INR (length draws) + 1) * / 2 ^ 41) with (/ 2 ^ 41 + p + INR (length draws) * / 2 ^ 41) by ring; exact B.
Qed.
End Step.

(** Weights started at zero grow slowly. *)
Lemma gain q : q * / (1 + exp q) <= 3 / 10.
Proof.
  assert (P := exp_pos q).
  apply Rmult_le_reg_r with (1 + exp q); [lra|]; rewrite Rmult_assoc, Rinv_l, Rmult_1_r by lra.
  destruct (Rle_dec q (1 / 4)) as [H|H]; [lra|].
  assert (B : 10 / 3 <= exp (5 / 4)).
  { assert (Q : forall n x, exp (INR n * x) = exp x ^ n).
    { induction n as [|n IH]; intro x; [simpl; rewrite Rmult_0_l; apply exp_0|].
      rewrite S_INR, Rmult_plus_distr_r, exp_plus, IH, Rmult_1_l; simpl; ring. }
    replace (5 / 4) with (INR 20 * / 16) by (simpl; lra); rewrite Q.
    apply Rle_trans with ((17 / 16) ^ 20); [lra|apply pow_incr; split; [lra|]].
    left; apply Rle_lt_trans with (1 + / 16); [lra|apply exp_ineq1; lra]. }
  replace q with (5 / 4 + (q - 5 / 4)) at 2 by ring; rewrite exp_plus.
  assert (T : 1 + (q - 5 / 4) <= exp (q - 5 / 4)).
  { destruct (Req_dec (q - 5 / 4) 0) as [->|N]; [rewrite exp_0; lra|left; apply exp_ineq1, N]. }
  assert (10 / 3 * (1 + (q - 5 / 4)) <= exp (5 / 4) * exp (q - 5 / 4)) by (apply Rmult_le_compat; lra).
  lra.
Qed.

Lemma pull b p : (label b - logit p) * p <= 3 / 10.
Proof.
  destruct b; cbn [label].
  - assert (G := gain p); rewrite <- logit_opp; unfold logit; rewrite Ropp_involutive; lra.
  - assert (G := gain (- p)); unfold logit; lra.
Qed.


Lemma ip_zeros xs : forall n, ip xs (repeat 0 n) = 0.
Proof. induction xs as [|x xs IH]; intros [|n]; cbn [repeat ip]; try reflexivity; rewrite IH; ring. Qed.

Lemma dot_square xs ws : length xs = length ws ->
  ip xs ws * ip xs ws <= ip xs xs * dist2 ws (repeat 0 (length ws)).
Proof.
  intro L; assert (K : forall k, 0 <= dist2 ws (repeat 0 (length ws)) + 2 * k * ip xs ws + k * k * ip xs xs).
  { intro k; assert (D := dist_move k ws xs (repeat 0 (length ws)) L (repeat_length _ _)); rewrite ip_zeros, Rminus_0_r in D.
    rewrite <- D; apply dist_nonneg. }
  assert (P := ip_self xs); set (n := ip xs xs) in *; set (p := ip xs ws) in *; set (w := dist2 _ _) in *.
  destruct P as [P|P].
  - assert (H := K (- p / n)).
    replace (w + 2 * (- p / n) * p + - p / n * (- p / n) * n) with ((n * w - p * p) / n) in H by (field; lra).
    assert (0 <= (n * w - p * p) / n * n) by (apply Rmult_le_pos; lra).
    unfold Rdiv in *; rewrite Rmult_assoc, Rinv_l in H0 by lra; lra.
  - rewrite <- P in *; assert (H := K (- (w + 1) * p)); assert (W : 0 <= w) by (unfold w; apply dist_nonneg).
    assert (Q := Rle_0_sqr p); unfold Rsqr in Q.
    destruct (Req_dec p 0) as [->|N]; [lra|].
    exfalso; assert (H1 := K (- (w + 1) / p)).
    replace (w + 2 * (- (w + 1) / p) * p + - (w + 1) / p * (- (w + 1) / p) * 0) with (- w - 2) in H1 by (field; exact N); lra.
Qed.

Lemma climb_grows rate ws xs b m : 0 <= rate -> length xs = length ws -> ip xs xs <= m ->
  dist2 (climb rate ws xs b) (repeat 0 (length ws)) <= dist2 ws (repeat 0 (length ws)) + rate * (6 / 10 + rate * m).
Proof.
  intros Hr L Hm; unfold climb; rewrite dist_move by (rewrite ?repeat_length; auto); rewrite ip_zeros, Rminus_0_r.
  assert (G := pull b (ip xs ws)); assert (A := label_range b (ip xs ws)); assert (S := ip_self xs).
  set (k := label b - logit (ip xs ws)) in *; set (p := ip xs ws) in *.
  assert (K : k * k <= 1) by (apply Rabs_le_inv in A; nra).
  assert (rate * (k * p) <= rate * (3 / 10)) by (apply Rmult_le_compat_l; assumption).
  assert (k * k * ip xs xs <= 1 * m) by (apply Rmult_le_compat; [apply Rle_0_sqr|exact S|exact K|exact Hm]).
  assert (rate * rate * (k * k * ip xs xs) <= rate * rate * (1 * m)) by (apply Rmult_le_compat_l; [apply Rmult_le_pos; assumption|assumption]).
  nra.
Qed.

Lemma calm_bound rate B m draws : 0 <= rate -> 0 <= B -> 0 <= m -> forall ws A,
  Forall (fun d => length (fst d) = length ws /\ ip (fst d) (fst d) <= m) draws ->
  dist2 ws (repeat 0 (length ws)) <= A -> m * (A + INR (length draws) * (rate * (6 / 10 + rate * m))) <= B * B ->
  calm B rate ws draws.
Proof.
  intros Hr HB Hm; induction draws as [|[xs b] draws IH]; intros ws A Hd D H; [exact Logic.I|].
  inversion Hd as [|? ? [Lx Hx] Hd']; subst; cbn [fst] in Lx, Hx.
  change (length ((xs, b) :: draws)) with (Datatypes.S (length draws)) in H; rewrite S_INR in H.
  set (c := rate * (6 / 10 + rate * m)) in *.
  assert (C : 0 <= c) by (apply Rmult_le_pos; [exact Hr|assert (0 <= rate * m) by (apply Rmult_le_pos; assumption); lra]).
  assert (Pn := pos_INR (length draws)).
  assert (Q : 0 <= INR (length draws) * c) by (apply Rmult_le_pos; assumption).
  assert (Pd := dist_nonneg ws (repeat 0 (length ws))).
  cbn [calm]; split.
  - assert (S := dot_square xs ws Lx); assert (P := ip_self xs).
    assert (ip xs xs * dist2 ws (repeat 0 (length ws)) <= m * A) by (apply Rmult_le_compat; assumption).
    assert (m * A <= m * (A + (INR (length draws) + 1) * c)) by (apply Rmult_le_compat_l; [exact Hm|lra]).
    rewrite <- (Rabs_pos_eq B HB); apply Rsqr_le_abs_0; unfold Rsqr; lra.
  - assert (L : length (climb rate ws xs b) = length ws) by (apply move_length; exact Lx).
    apply (IH _ (A + c)); [rewrite L; exact Hd'|rewrite L|].
    + assert (G := climb_grows rate ws xs b m Hr Lx Hx); fold c in G; lra.
    + replace (A + c + INR (length draws) * c) with (A + (INR (length draws) + 1) * c) by ring; exact H.
Qed.

Lemma ip_units xs : Forall (fun x => Rabs x <= 1) xs -> ip xs xs <= INR (length xs).
Proof.
  induction 1 as [|x xs H _ IH]; [cbn; lra|]; cbn [ip]; change (length (x :: xs)) with (Datatypes.S (length xs)); rewrite S_INR.
  apply Rabs_le_inv in H; nra.
Qed.

Lemma calm_start rate B n draws : 0 <= rate -> 0 <= B ->
  Forall (fun d => length (fst d) = n /\ Forall (fun x => Rabs x <= 1) (fst d)) draws ->
  INR n * (INR (length draws) * (rate * (6 / 10 + rate * INR n))) <= B ^ 2 -> calm B rate (repeat 0 n) draws.
Proof.
  intros Hr HB Hd H; apply (calm_bound rate B (INR n) draws Hr HB (pos_INR n) (repeat 0 n) 0); rewrite ?repeat_length.
  - eapply Forall_impl; [|exact Hd]; intros [xs b] [L U]; cbn [fst] in *; split; [exact L|]; rewrite <- L; apply ip_units, U.
  - clear; induction n as [|n IH]; cbn [repeat dist2]; [lra|]; replace ((0 - 0) * (0 - 0)) with 0 by ring; lra.
  - rewrite Rplus_0_l; replace (B * B) with (B ^ 2) by ring; exact H.
Qed.

(** The statements. *)
Section Final.
Variables (pow : f64 -> f64 -> f64) (lib : libfn -> f64 -> f64) (inf : R) (sp : libfn -> R -> R).
Notation FS := (f64_scalar pow lib).
Notation RS := (R_scalar inf sp).
Hypothesis Good : good_exp (lib Lexp).

Lemma ascent_runs (hand : bool) rate ws draws :
  f64_valid rate -> finite rate -> 0 <= f64_real rate <= / 1000 ->
  (length ws <= 30)%nat -> Forall unit_float ws ->
  Forall (fun d => length (fst d) = length ws /\ Forall unit_float (fst d)) draws ->
  INR (length draws) <= 10 ^ 10 -> INR (length draws) * f64_real rate <= 510 ->
  (hand = true \/ calm 29 (f64_real rate) (map f64_real ws) (real_draws draws)) ->
  exists out exact,
    @logistic_run f64 FS (if hand then @logistic_by_hand f64 FS else @logistic_auto f64 FS) rate ws draws = Ok out /\
    @logistic_run R RS (@logistic_auto R RS) (f64_real rate) (map f64_real ws) (real_draws draws) = Ok exact /\
    Forall finite out /\ length out = length ws /\ length exact = length ws /\
    dist2 (map f64_real out) exact <= (INR (length draws) / 2 ^ 41) ^ 2.
Proof.
  intros Vr Fr Br N Hw Hd Hn Hr C.
  assert (Z : dist2 (map f64_real ws) (map f64_real ws) <= 0 * 0).
  { generalize (map f64_real ws); intro l; induction l as [|x l IH]; cbn [dist2]; [lra|].
    replace ((x - x) * (x - x)) with 0 by ring; lra. }
  assert (Hn' : 0 + INR (length draws) / 2 ^ 41 <= / 100).
  { rewrite Rplus_0_l; apply Rmult_le_reg_r with (2 ^ 41); [lra|]; unfold Rdiv; rewrite Rmult_assoc, Rinv_l by lra; lra. }
  destruct (ascent_near pow lib Good rate (conj Vr (conj Fr Br)) (if hand then @logistic_by_hand f64 FS else @logistic_auto f64 FS)
    draws ws (map f64_real ws) 0 1) as (out & E & So & Lo & B); try lra; try assumption.
  - destruct hand; [right; reflexivity|left; split; [reflexivity|]]; destruct C as [C|C]; [discriminate C|exact C].
  - apply map_length.
  - eapply Forall_impl; [|exact Hw]; intros x (V & Fi & _); split; assumption.
  - apply Forall_forall; intros r I; apply in_map_iff in I as (x & <- & I); rewrite Forall_forall in Hw; apply (Hw x I).
  - exists out, (climb_all (f64_real rate) (map f64_real ws) (real_draws draws)).
    assert (Lc : forall ds rs, Forall (fun d : list R * bool => length (fst d) = length rs) ds ->
      length (climb_all (f64_real rate) rs ds) = length rs).
    { induction ds as [|[xs b] ds IH]; intros rs D; [reflexivity|]; inversion D as [|? ? Lx D']; subst; cbn [fst] in Lx.
      unfold climb_all; cbn [fold_left fst snd]; fold (climb_all (f64_real rate) (climb (f64_real rate) rs xs b) ds).
      assert (L : length (climb (f64_real rate) rs xs b) = length rs) by (apply move_length; exact Lx).
      rewrite IH; rewrite L; [reflexivity|exact D']. }
    assert (Dr : Forall (fun d : list R * bool => length (fst d) = length (map f64_real ws)) (real_draws draws)).
    { apply Forall_forall; intros d I; apply in_map_iff in I as (d' & <- & I); rewrite Forall_forall in Hd.
      cbn [fst]; rewrite !map_length; apply (Hd d' I). }
    split; [exact E|split; [apply logistic_run_climb; [left; reflexivity|exact Dr]|]].
    split; [eapply Forall_impl; [|exact So]; intros x H; apply H|split; [exact Lo|]].
    split; [rewrite Lc by exact Dr; apply map_length|].
    rewrite Rplus_0_l in B; rewrite <- Rsqr_pow2; exact B.
Qed.

Lemma small_rate_real : f64_valid small_rate /\ finite small_rate /\ 4999 / 10 ^ 7 <= f64_real small_rate <= 5001 / 10 ^ 7.
Proof.
  split; [reflexivity|split; [exact Logic.I|]]; cbn [small_rate f64_real]; replace (powerRZ 2 (-63)) with (/ 9223372036854775808).
  - split; lra.
  - cbn [powerRZ]; f_equal; rewrite pow_IZR; reflexivity.
Qed.

Lemma zero_units n : Forall unit_float (repeat f64_zero n).
Proof.
  apply Forall_forall; intros x I; apply repeat_spec in I; subst x; split; [reflexivity|split; [exact Logic.I|]].
  cbn; rewrite Rabs_R0; lra.
Qed.

(** examples/logistic.rs, and the loop of benches/logistic.rs with the gradient by hand. *)
Lemma ascent_program (hand : bool) draws :
  (Z.of_nat (length draws) <= if hand then 1000000 else 550000)%Z ->
  Forall (fun d => length (fst d) = 5%nat /\ Forall unit_float (fst d)) draws ->
  exists out exact,
    @logistic_run f64 FS (if hand then @logistic_by_hand f64 FS else @logistic_auto f64 FS) small_rate (repeat f64_zero 5) draws = Ok out /\
    @logistic_run R RS (@logistic_auto R RS) (f64_real small_rate) (repeat 0 5) (real_draws draws) = Ok exact /\
    Forall finite out /\ Forall2 (fun x r => Rabs (f64_real x - r) <= if hand then 46 / 10 ^ 8 else 26 / 10 ^ 8) out exact.
Proof.
  intros Hn Hd; destruct small_rate_real as (Vr & Fr & Br).
  set (K := if hand then 1000000 else 550000) in *.
  assert (Nn : INR (length draws) <= K).
  { rewrite INR_IZR_INZ; apply Rle_trans with (1 := IZR_le _ _ Hn); unfold K; destruct hand; lra. }
  assert (P0 := pos_INR (length draws)).
  assert (KK : K <= 1000000) by (unfold K; destruct hand; lra).
  destruct (ascent_runs hand small_rate (repeat f64_zero 5) draws Vr Fr ltac:(lra) ltac:(cbn; lia) (zero_units 5)) as (out & exact & E & Ex & Fi & Lo & Le & B).
  - exact Hd.
  - lra.
  - apply Rle_trans with (1000000 * (5001 / 10 ^ 7)); [apply Rmult_le_compat; lra|lra].
  - destruct hand; [left; reflexivity|right].
    replace (map f64_real (repeat f64_zero 5)) with (repeat 0 5) by reflexivity.
    assert (Hr : Forall (fun d : list R * bool => length (fst d) = 5%nat /\ Forall (fun x => Rabs x <= 1) (fst d)) (real_draws draws)).
    { apply Forall_forall; intros d I; apply in_map_iff in I as (d' & <- & I); rewrite Forall_forall in Hd.
      cbn [fst]; destruct (Hd d' I) as [L U]; rewrite map_length; split; [exact L|].
      apply Forall_forall; intros r J; apply in_map_iff in J as (x & <- & J); rewrite Forall_forall in U; apply (U x J). }
    apply (calm_start (f64_real small_rate) 29 5 (real_draws draws)); [lra|lra|exact Hr|].
    unfold real_draws; rewrite map_length; replace (INR 5) with 5 by (simpl; lra); set (r := f64_real small_rate) in *.
    assert (A : r * (6 / 10 + r * 5) <= 5001 / 10 ^ 7 * (6 / 10 + 5001 / 10 ^ 7 * 5)) by (apply Rmult_le_compat; lra).
    assert (A0 : 0 <= r * (6 / 10 + r * 5)) by (apply Rmult_le_pos; lra).
    assert (Nn' : INR (length draws) <= 550000) by exact Nn.
    assert (INR (length draws) * (r * (6 / 10 + r * 5)) <= 550000 * (5001 / 10 ^ 7 * (6 / 10 + 5001 / 10 ^ 7 * 5)))
      by (apply Rmult_le_compat; lra).
    lra.
  - exists out, exact; split; [exact E|split; [exact Ex|split; [exact Fi|]]].
    assert (Q : INR (length draws) / 2 ^ 41 <= if hand then 46 / 10 ^ 8 else 26 / 10 ^ 8).
    { apply Rle_trans with (K / 2 ^ 41); [apply Rmult_le_compat_r; [left; apply Rinv_0_lt_compat; lra|exact Nn]|].
      unfold K; destruct hand; lra. }
    assert (Q0 : 0 <= INR (length draws) / 2 ^ 41) by (apply Rmult_le_pos; [exact P0|left; apply Rinv_0_lt_compat; lra]).
    apply coordinates; [destruct hand; lra|congruence|].
    apply Rle_trans with (1 := B); rewrite <- Rsqr_pow2; unfold Rsqr; apply Rmult_le_compat; assumption.
Qed.
End Final.

Lemma nearest_exp : good_exp (fun x => @nearest 53 1024 (exp (f64_real x))).
Proof.
  intros x V Fi H; destruct (nearest_real (prec := 53) (emax := 1024) (exp (f64_real x))) as [Vn N].
  assert (U := u_val); assert (T := eta_small).
  assert (P := exp_pos (f64_real x)).
  assert (P1 : exp (f64_real x) <= 1).
  { rewrite <- exp_0; destruct H as [H|H]; [left; apply exp_increasing, H|rewrite H; lra]. }
  destruct (fl_error (exp (f64_real x))) as [E L]; [rewrite Rabs_pos_eq; lra|].
  destruct (N L) as [Fn En]; split; [exact Vn|split; [exact Fn|]]; rewrite En; apply Rle_trans with (1 := E).
  rewrite Rabs_pos_eq by lra; assert (u * (u * u) <= u * / 1000) by nra; nra.
Qed.
