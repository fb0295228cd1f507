(** How well the weights of the logistic regression example do while they are learnt (property C92). *)
From Coq Require Import List Arith ZArith Reals Bool Lia Lra Psatz.
Import ListNotations.
From Verif Require Import Base Shapes Scalar Buffers Spec Contraction Node Eval Instances Real_math Program_math
  Programs Programs_facts Programs_claims.
Local Open Scope R_scope.

Section Regret.
Variable inf : R.
Variable sp : libfn -> R -> R.

Lemma logit_half t : 1 - logit t = logit (- t).
Proof.
  unfold logit; rewrite Ropp_involutive, exp_Ropp; assert (H := exp_pos t).
  field; split; lra.
Qed.
Lemma range t : 0 < logit t < 1.
Proof. exact (logit_range inf sp t). Qed.
Lemma lik_range b t : 0 < lik b t < 1.
Proof. assert (H := range t); destruct b; cbn [lik]; lra. Qed.

(** A weighted mean of exponentials. *)
Lemma exp_mean p d : 0 <= p <= 1 -> exp (- ((1 - p) * d)) <= p + (1 - p) * exp (- d).
Proof.
  intro P; set (m := - ((1 - p) * d)).
  assert (E : exp (- d) = exp m * exp (- d - m)) by (rewrite <- exp_plus; f_equal; ring).
  assert (O : 1 = exp m * exp (- m)) by (rewrite <- exp_plus, <- exp_0; f_equal; ring).
  assert (H1 := exp_ineq1_le (- d - m)); assert (H2 := exp_ineq1_le (- m)); assert (Q := exp_pos m).
  assert (K1 : exp m * (1 + - m) <= 1) by (rewrite O; apply Rmult_le_compat_l; lra).
  assert (K2 : exp m * (1 + (- d - m)) <= exp (- d)) by (rewrite E; apply Rmult_le_compat_l; lra).
  assert (K3 : p * (exp m * (1 + - m)) <= p * 1) by (apply Rmult_le_compat_l; lra).
  assert (K4 : (1 - p) * (exp m * (1 + (- d - m))) <= (1 - p) * exp (- d)) by (apply Rmult_le_compat_l; lra).
  assert (Z : p * (exp m * (1 + - m)) + (1 - p) * (exp m * (1 + (- d - m))) = exp m) by (unfold m; ring).
  lra.
Qed.

(** The logarithm of the likelihood lies below its tangents. *)
Lemma ln_logit_tangent s t : ln (logit t) <= ln (logit s) + (1 - logit s) * (t - s).
Proof.
  set (p := logit s); set (d := t - s); assert (P := range s); fold p in P.
  assert (T := range t).
  assert (E : logit t * (p + (1 - p) * exp (- d)) = p).
  { unfold p, d, logit; replace (- (t - s)) with (- t + - - s) by ring; rewrite exp_plus, (exp_Ropp (- s)).
    assert (Hs := exp_pos (- s)); assert (Ht := exp_pos (- t)); field; repeat split; lra. }
  assert (M := exp_mean p d ltac:(lra)).
  assert (X := exp_pos (- ((1 - p) * d))).
  assert (L : logit t * exp (- ((1 - p) * d)) <= p).
  { rewrite <- E at 2; apply Rmult_le_compat_l; lra. }
  assert (K : ln (logit t * exp (- ((1 - p) * d))) <= ln p).
  { destruct L as [L|L]; [left; apply ln_increasing; auto; apply Rmult_lt_0_compat; lra|right; rewrite L; reflexivity]. }
  rewrite ln_mult, ln_exp in K by lra; lra.
Qed.
Lemma surprise_tangent b s t : surprise b s + (logit s - label b) * (t - s) <= surprise b t.
Proof.
  unfold surprise; destruct b; cbn [lik label].
  - assert (H := ln_logit_tangent s t); lra.
  - rewrite !logit_half; assert (H := ln_logit_tangent (- s) (- t)).
    assert (E := logit_half (- s)); rewrite Ropp_involutive in E; rewrite E in H; nra.
Qed.

(** The squared error is at most the surprise. *)
Lemma surprise_square b t : (label b - logit t) * (label b - logit t) <= surprise b t.
Proof.
  assert (H := lik_range b t).
  assert (E : (label b - logit t) * (label b - logit t) = (1 - lik b t) * (1 - lik b t)).
  { destruct b; cbn [label lik]; ring. }
  rewrite E; unfold surprise.
  assert (K := exp_ineq1_le (ln (lik b t))); rewrite exp_ln in K by lra; nra.
Qed.
Lemma surprise_pos b t : 0 < surprise b t.
Proof.
  unfold surprise; assert (H := lik_range b t).
  assert (K : ln (lik b t) < ln 1) by (apply ln_increasing; lra); rewrite ln_1 in K; lra.
Qed.

(** One step. *)
Lemma climb_step rate B ws xs b us : 0 <= rate -> length xs = length ws -> length us = length ws -> ip xs xs <= B ->
  dist2 (climb rate ws xs b) us + rate * (2 - rate * B) * surprise b (ip xs ws) <=
  dist2 ws us + 2 * rate * surprise b (ip xs us).
Proof.
  intros Hr Lx Lu Hx; unfold climb; rewrite dist_move by auto.
  assert (T := surprise_tangent b (ip xs ws) (ip xs us)).
  assert (Q := surprise_square b (ip xs ws)); assert (G := ip_self xs).
  set (e := label b - logit (ip xs ws)) in *; set (a := ip xs ws) in *; set (u := ip xs us) in *.
  set (l := surprise b a) in *; set (m := surprise b u) in *; set (q := ip xs xs) in *.
  assert (E : (logit a - label b) * (u - a) = e * (a - u)) by (unfold e; ring); rewrite E in T.
  assert (Sq : 0 <= e * e) by apply Rle_0_sqr.
  assert (K1 : rate * (e * (a - u)) <= rate * (m - l)) by (apply Rmult_le_compat_l; lra).
  assert (K2 : e * e * q <= l * B).
  { apply Rle_trans with (e * e * B); [apply Rmult_le_compat_l; auto|apply Rmult_le_compat_r; lra]. }
  assert (K3 : rate * rate * (e * e * q) <= rate * rate * (l * B)).
  { apply Rmult_le_compat_l; auto; apply Rle_0_sqr. }
  nra.
Qed.

Lemma climb_regret rate B us draws : 0 <= rate -> forall ws, length us = length ws ->
  Forall (fun d => length (fst d) = length ws /\ ip (fst d) (fst d) <= B) draws ->
  dist2 (climb_all rate ws draws) us + rate * (2 - rate * B) * climb_surprise rate ws draws <=
  dist2 ws us + 2 * rate * fixed_surprise us draws.
Proof.
  intro Hr; induction draws as [|[xs b] draws IH]; intros ws Lu D.
  - unfold climb_all; cbn [fold_left climb_surprise fixed_surprise]; lra.
  - inversion D as [|? ? [Lx Hx] D']; subst; cbn [fst] in Lx, Hx.
    assert (Lm : length (climb rate ws xs b) = length ws) by (apply move_length; exact Lx).
    unfold climb_all; cbn [fold_left fst snd]; fold (climb_all rate (climb rate ws xs b) draws).
    cbn [climb_surprise fixed_surprise].
    assert (I := IH (climb rate ws xs b)); rewrite Lm in I; specialize (I Lu D').
    assert (K := climb_step rate B ws xs b us Hr Lx Lu Hx); nra.
Qed.

Let RSc := R_scalar inf sp.

Lemma logistic_regret grad rate B us ws draws ws' :
  grad = @logistic_auto R RSc \/ grad = @logistic_by_hand R RSc ->
  0 <= rate -> length us = length ws ->
  Forall (fun d => length (fst d) = length ws /\ ip (fst d) (fst d) <= B) draws ->
  @logistic_run R RSc grad rate ws draws = Ok ws' ->
  dist2 ws' us + rate * (2 - rate * B) * climb_surprise rate ws draws <=
  dist2 ws us + 2 * rate * fixed_surprise us draws.
Proof.
  intros G Hr Lu D E.
  assert (X : @logistic_run R RSc grad rate ws draws = Ok (climb_all rate ws draws)).
  { apply (logistic_run_climb inf sp); [exact G|].
    eapply Forall_impl; [|exact D]; intros d [H _]; exact H. }
  rewrite X in E; injection E as <-; apply climb_regret; assumption.
Qed.

Lemma climb_surprise_pos rate draws : forall ws, 0 <= climb_surprise rate ws draws.
Proof.
  induction draws as [|[xs b] draws IH]; intro ws; cbn [climb_surprise]; [lra|].
  assert (H := surprise_pos b (ip xs ws)); specialize (IH (climb rate ws xs b)); lra.
Qed.

Lemma exp_le x y : x <= y -> exp x <= exp y.
Proof. intros [H|H]; [left; apply exp_increasing; exact H|subst; lra]. Qed.
Lemma logit_le t : t <= 0 -> logit t <= 1 / 2.
Proof.
  intro H; assert (X := exp_le 0 (- t) ltac:(lra)); rewrite exp_0 in X; unfold logit.
  replace (1 / 2) with (/ 2) by field; apply Rinv_le_contravar; lra.
Qed.
Lemma miss_surprise (b : bool) t : (if b then t <= 0 else 0 <= t) -> ln 2 <= surprise b t.
Proof.
  intro H; assert (L : lik b t <= 1 / 2).
  { destruct b; cbn [lik]; [apply logit_le; exact H|rewrite logit_half; apply logit_le; lra]. }
  assert (P := lik_range b t); unfold surprise; rewrite <- ln_Rinv by lra.
  assert (X : 2 <= / lik b t).
  { replace 2 with (/ (1 / 2)) by field; apply Rinv_le_contravar; lra. }
  destruct X as [X|X]; [left; apply ln_increasing; lra|rewrite <- X; lra].
Qed.
Lemma misses_surprise rate draws : forall ws, INR (climb_misses rate ws draws) * ln 2 <= climb_surprise rate ws draws.
Proof.
  induction draws as [|[xs b] draws IH]; intro ws; cbn [climb_misses climb_surprise]; [simpl; lra|].
  specialize (IH (climb rate ws xs b)); rewrite plus_INR.
  assert (P := surprise_pos b (ip xs ws)); assert (M := miss_surprise b (ip xs ws)).
  destruct b; [destruct (Rlt_dec 0 (ip xs ws))|destruct (Rlt_dec (ip xs ws) 0)]; simpl (INR _); try lra; specialize (M ltac:(lra)); lra.
Qed.
Lemma logistic_misses grad rate B us ws draws ws' :
  grad = @logistic_auto R RSc \/ grad = @logistic_by_hand R RSc ->
  0 <= rate -> rate * B <= 2 -> length us = length ws ->
  Forall (fun d => length (fst d) = length ws /\ ip (fst d) (fst d) <= B) draws ->
  @logistic_run R RSc grad rate ws draws = Ok ws' ->
  rate * (2 - rate * B) * (ln 2 * INR (climb_misses rate ws draws)) <=
  dist2 ws us + 2 * rate * fixed_surprise us draws.
Proof.
  intros G Hr Hb Lu D E; assert (H := logistic_regret _ _ _ _ _ _ _ G Hr Lu D E).
  assert (N := dist_nonneg ws' us); assert (M := misses_surprise rate draws ws).
  assert (K : 0 <= rate * (2 - rate * B)) by (apply Rmult_le_pos; lra).
  assert (X := Rmult_le_compat_l _ _ _ K M); lra.
Qed.

(** examples/logistic.rs as it stands. *)
Lemma logistic_example us draws : length us = 5%nat ->
  Forall (fun d => length (fst d) = 5%nat /\ Forall (fun x => 0 <= x <= 1) (fst d)) draws ->
  let w0 := repeat 0 5 in
  exists ws, @logistic_run R RSc (@logistic_auto R RSc) (5 / 10000) w0 draws = Ok ws /\
    dist2 ws us <= dist2 w0 us + 1 / 1000 * fixed_surprise us draws /\
    799 / 800 * climb_surprise (5 / 10000) w0 draws <= fixed_surprise us draws + 1000 * ip us us.
Proof.
  intros Lu D w0.
  assert (D1 : Forall (fun d => length (fst d) = length w0) draws).
  { eapply Forall_impl; [|exact D]; intros d [H _]; exact H. }
  assert (D2 : Forall (fun d => length (fst d) = length w0 /\ ip (fst d) (fst d) <= 5) draws).
  { eapply Forall_impl; [|exact D]; intros d [H U]; split; [exact H|].
    apply (unit_draw (fst d)) in U; rewrite H in U; simpl in U; lra. }
  exists (climb_all (5 / 10000) w0 draws); split.
  - apply (logistic_run_climb inf sp); auto.
  - assert (I := climb_regret (5 / 10000) 5 us draws ltac:(lra) w0 Lu D2).
    assert (P := climb_surprise_pos (5 / 10000) draws w0).
    assert (Q := dist_nonneg (climb_all (5 / 10000) w0 draws) us).
    assert (Z : dist2 w0 us = ip us us).
    { unfold w0; destruct us as [|a [|b [|c [|d [|e [|]]]]]]; try discriminate Lu; cbn [repeat dist2 ip]; ring. }
    split; lra.
Qed.
End Regret.
