(** Claims about steps against the gradient, in the form used by Properties_descent.v. *)
From Coq Require Import List Arith ZArith Reals Bool Lia Lra.
Import ListNotations.
From Verif Require Import Base Shapes Scalar Buffers Spec Contraction Node Eval Types Instances
  Vocab Math Real_math Calculus Instance_facts Math_claims Adjoint_claims Jacobian_facts Calculus_claims.
Local Open Scope R_scope.

(** A function with derivative [g] at 0 moves like [g] for small steps. *)
Lemma slope_steps (f : R -> R) g : derivable_pt_lim f 0 g -> g <> 0 ->
  exists e, 0 < e /\ forall h, 0 < h < e -> f (- (h * g)) < f 0 < f (h * g).
Proof.
  intros D N.
  assert (Pg : 0 < Rabs g) by (apply Rabs_pos_lt; auto).
  destruct (D (Rabs g) Pg) as [d L].
  assert (Pd : 0 < d) by apply (cond_pos d).
  assert (K : forall s, s <> 0 -> Rabs s < d -> 0 < (f s - f 0) / s * g).
  { intros s Ns Bs; specialize (L s Ns Bs); rewrite Rplus_0_l in L.
    set (q := (f s - f 0) / s) in *.
    destruct (Rdichotomy g 0 N) as [G|G].
    - rewrite (Rabs_left g) in L; auto; apply Rabs_def2 in L.
      assert (q < 0) by lra; nra.
    - rewrite (Rabs_right g) in L; [|lra]; apply Rabs_def2 in L.
      assert (0 < q) by lra; nra. }
  exists (d / Rabs g); split; [apply Rdiv_lt_0_compat; auto|].
  intros h [Ph Bh].
  assert (Bd : Rabs (h * g) < d).
  { rewrite Rabs_mult, (Rabs_right h) by lra.
    apply (Rmult_lt_compat_r (Rabs g)) in Bh; auto.
    unfold Rdiv in Bh; rewrite Rmult_assoc, Rinv_l in Bh by lra; lra. }
  assert (Nh : h * g <> 0) by (apply Rmult_integral_contrapositive; split; lra).
  split.
  - assert (Q := K (- (h * g)) ltac:(lra) ltac:(rewrite Rabs_Ropp; auto)).
    replace ((f (- (h * g)) - f 0) / - (h * g) * g) with ((f 0 - f (- (h * g))) * / h) in Q by (field; lra).
    assert (0 < / h) by (apply Rinv_0_lt_compat; auto).
    destruct (Rlt_or_le (f (- (h * g))) (f 0)); auto; nra.
  - assert (Q := K (h * g) Nh Bd).
    replace ((f (h * g) - f 0) / (h * g) * g) with ((f (h * g) - f 0) * / h) in Q by (field; lra).
    assert (0 < / h) by (apply Rinv_0_lt_compat; auto).
    destruct (Rlt_or_le (f 0) (f (h * g))); auto; nra.
Qed.

Section Claims.
Variables (inf : R) (sp : libfn -> R -> R).
Notation S0 := (R_scalar inf sp).
Notation um := (real_un inf sp).

Lemma bump_evaluates G (c : ctx R) t n n' j h : posed G c t n n' ->
  exists u, snd (@evaluate R S0 n (bump c t j h)) = Ok u.
Proof.
  intros [O U W F Sc A Ty Ty' Q Q']; assert (N := gradient_novec _ _ _ _ A Ty').
  destruct (typeof G n) as [k|] eqn:T; [|congruence].
  destruct (@evaluates_typed R S0 G n k (bump c t j h)) as (u & E & _); eauto using bump_ok, R_exact.
  intros; apply bump_some; auto.
Qed.

Lemma downhill G (c : ctx R) t n n' :
  posed G c t n n' -> @regular R S0 um c n -> smooth inf sp c t n ->
  exists v w x,
    @evaluate R S0 n c = (c, Ok v) /\ @evaluate_adjoint R S0 n t c = Some (c, Ok w) /\ c t = Some x /\
    dims (vshape w) = (dims (vshape v) ++ dims (vshape x))%list /\
    forall i j, in_box (dims (vshape v)) i -> in_box (dims (vshape x)) j ->
      let g := vat 0 w (i ++ j) in
      g <> 0 ->
      exists e, 0 < e /\ forall h, 0 < h < e ->
        exists lo hi,
          snd (@evaluate R S0 n (bump c t j (- (h * g)))) = Ok lo /\
          snd (@evaluate R S0 n (bump c t j (h * g))) = Ok hi /\
          vat 0 lo i < vat 0 v i < vat 0 hi i.
Proof.
  intros P Rg Sm.
  destruct (jacobian_real inf sp G c t n n' P Rg Sm) as (v & w & x & Ev & Ew & Cx & D & J).
  exists v, w, x; do 4 (split; [assumption|]); intros i j Bi Bj g Ng.
  destruct (slope_steps _ _ (J i j Bi Bj) Ng) as (e & Pe & H).
  exists e; split; [exact Pe|]; intros h Bh; specialize (H h Bh); fold g in H.
  destruct (bump_evaluates G c t n n' j (- (h * g)) P) as (lo & El).
  destruct (bump_evaluates G c t n n' j (h * g) P) as (hi & Eh).
  exists lo, hi; split; [exact El|split; [exact Eh|]].
  assert (Wc : ctx_wf c) by (intros k y E; destruct (p_ctx _ _ _ _ _ P k y E); auto).
  unfold entry in H; rewrite (bump_zero c t j Wc), Ev, El, Eh in H; exact H.
Qed.

Lemma stationary G (c : ctx R) t n n' :
  posed G c t n n' -> @regular R S0 um c n -> smooth inf sp c t n ->
  exists v w x,
    @evaluate R S0 n c = (c, Ok v) /\ @evaluate_adjoint R S0 n t c = Some (c, Ok w) /\ c t = Some x /\
    forall i j e, in_box (dims (vshape v)) i -> in_box (dims (vshape x)) j -> 0 < e ->
      (forall h u, Rabs h < e -> snd (@evaluate R S0 n (bump c t j h)) = Ok u -> vat 0 v i <= vat 0 u i) \/
      (forall h u, Rabs h < e -> snd (@evaluate R S0 n (bump c t j h)) = Ok u -> vat 0 u i <= vat 0 v i) ->
      vat 0 w (i ++ j) = 0.
Proof.
  intros P Rg Sm.
  destruct (downhill G c t n n' P Rg Sm) as (v & w & x & Ev & Ew & Cx & D & H).
  exists v, w, x; do 3 (split; [assumption|]); intros i j e Bi Bj Pe M.
  destruct (Req_dec (vat 0 w (i ++ j)) 0) as [Z|Z]; auto; exfalso.
  destruct (H i j Bi Bj Z) as (e' & Pe' & S); clear H.
  set (g := vat 0 w (i ++ j)) in *.
  assert (Pg : 0 < Rabs g) by (apply Rabs_pos_lt; auto).
  assert (Pq : 0 < e / Rabs g) by (apply Rdiv_lt_0_compat; auto).
  set (m := Rmin e' (e / Rabs g)).
  assert (Pm : 0 < m) by (apply Rmin_glb_lt; auto).
  assert (M1 : m <= e') by apply Rmin_l; assert (M2 : m <= e / Rabs g) by apply Rmin_r.
  destruct (S (m / 2) ltac:(lra)) as (lo & hi & El & Eh & L).
  assert (B : Rabs (m / 2 * g) < e).
  { rewrite Rabs_mult, (Rabs_right (m / 2)) by lra.
    assert (X : m / 2 < e / Rabs g) by lra.
    apply (Rmult_lt_compat_r (Rabs g)) in X; auto.
    unfold Rdiv in X at 2; rewrite Rmult_assoc, Rinv_l in X by lra; lra. }
  destruct M as [M|M].
  - assert (Q := M _ lo ltac:(rewrite Rabs_Ropp; exact B) El); lra.
  - assert (Q := M _ hi B Eh); lra.
Qed.
End Claims.
