(** The adjoint with respect to an absent variable, for any scalars whose zeros are closed under
    sums; in the form used by Properties_adjoint.v. *)
From Coq Require Import List Arith Bool SpecFloat.
Import ListNotations.
From Verif Require Import Base Shapes Scalar Buffers Spec Contraction Node Eval Types Instances
  Vocab Math Code_math Index_facts Buffers_facts Spec_facts Eval_facts Zero_facts.

Section Absent.
Context {F : Type} {S : Scalar F} (Z : zeros_closed F).

Definition raw (s : spec F) : Prop := exists v, s = Raw v.
Definition zero_full (s : spec F) : Prop := exists t z, s = Full t z /\ is_zero z = true.

Lemma both_ok (l r : ctx F -> ctx F * res err (spec F)) k c c' s :
  both l r k c = (c', Ok s) ->
  exists c1 x y, l c = (c1, Ok x) /\ r c1 = (c', Ok y) /\ k x y = Ok s.
Proof.
  unfold both; destruct (l c) as [c1 [x| | |]]; cbn [res_map_err]; try discriminate.
  destruct (r c1) as [c2 [y| | |]] eqn:E; cbn [res_map_err]; try discriminate.
  intro H; injection H as <- H; eauto 9.
Qed.

Lemma err_ok {A E E'} (g : E -> E') (r : res E A) a : res_map_err g r = Ok a -> r = Ok a.
Proof. destruct r; simpl; congruence. Qed.

Lemma raw_dense g (x y s : spec F) : zip_dense g x y = Ok s -> raw s.
Proof.
  unfold zip_dense; destruct (res_unwrap _); try discriminate; intro H; injection H as <-; eexists; eauto.
Qed.

(** Trees whose lifted value is a plain buffer, or a constant zero. *)
Definition gives (P : spec F -> Prop) (n : node F) : Prop :=
  forall c c' s, evaluate_spec n c = (c', Ok s) -> P s.

Lemma gives_un u m : gives raw m -> gives raw (Un u m).
Proof.
  intros G c c' s; unfold gives, evaluate_spec in *; cbn [interp f_spec unary_fn].
  destruct (f_spec (interp m) c) as [c1 [x| | |]] eqn:E; try discriminate.
  destruct (G _ _ _ E) as [v ->]; intro H; inversion H; eexists; reflexivity.
Qed.

Lemma gives_power b e : gives raw b -> gives raw e -> gives raw (Power b e).
Proof.
  intros G1 G2 c c' s; unfold gives, evaluate_spec in *; cbn [interp f_spec power_fn].
  intro H; apply both_ok in H; destruct H as (c1 & x & y & E1 & E2 & H).
  destruct (G1 _ _ _ E1) as [v ->], (G2 _ _ _ E2) as [w ->].
  unfold power_post in H; cbn [spec_bty] in H; destruct (bty_of v), (bty_of w); try discriminate.
  destruct (unwrap_scal _); try discriminate; inversion H; eexists; reflexivity.
Qed.

Lemma gives_sum m : gives raw m -> gives raw (Sum m).
Proof.
  intros G c c' s; unfold gives, evaluate_spec in *; cbn [interp f_spec sum_fn].
  destruct (f_spec (interp m) c) as [c1 [x| | |]] eqn:E; try discriminate.
  destruct (G _ _ _ E) as [v ->]; intro H; inversion H; eexists; reflexivity.
Qed.

Lemma gives_dense l r : gives raw l -> gives raw r ->
  gives raw (Add l r) /\ gives raw (Sub l r) /\ gives raw (Mul l r).
Proof.
  intros G1 G2; split; [|split]; intros c c' s; unfold gives, evaluate_spec in *;
    cbn [interp f_spec add_fn sub_fn mul_fn];
    intro H; apply both_ok in H; destruct H as (c1 & x & y & E1 & E2 & H);
    destruct (G1 _ _ _ E1) as [v ->], (G2 _ _ _ E2) as [w ->];
    apply err_ok in H; eapply raw_dense; exact H.
Qed.

(** Values are plain buffers. *)
Lemma gives_value n : no_quotients n -> gives raw n.
Proof.
  induction n; cbn [no_quotients]; intro N; try contradiction.
  - intros c c' s'; unfold evaluate_spec; cbn; unfold read_spec.
    destruct (c i); cbn; intro H; inversion H; eexists; reflexivity.
  - intros c c' s'; unfold evaluate_spec; cbn; intro H; inversion H; eexists; reflexivity.
  - apply gives_un; tauto.
  - apply gives_sum; tauto.
  - apply gives_power; tauto.
  - apply gives_dense; tauto.
  - apply gives_dense; tauto.
  - apply gives_dense; tauto.
Qed.

Lemma gives_neg m : gives zero_full m -> gives zero_full (Un Negate m).
Proof.
  intros G c c' s; unfold gives, evaluate_spec in *; cbn [interp f_spec unary_fn].
  destruct (f_spec (interp m) c) as [c1 [x| | |]] eqn:E; try discriminate.
  destruct (G _ _ _ E) as (t & z & -> & Hz); intro H; inversion H; subst.
  exists t, (fneg z); split; [reflexivity|apply (zc_neg Z); auto].
Qed.

Lemma gives_double m : gives zero_full m -> gives zero_full (Un Double m).
Proof.
  intros G c c' s; unfold gives, evaluate_spec in *; cbn [interp f_spec unary_fn].
  destruct (f_spec (interp m) c) as [c1 [x| | |]] eqn:E; try discriminate.
  destruct (G _ _ _ E) as (t & z & -> & Hz); intro H; inversion H; subst.
  exists t, (fmul ftwo z); split; [reflexivity|apply (zc_two Z); auto].
Qed.

Lemma gives_add l r : gives zero_full l -> gives zero_full r -> gives zero_full (Add l r).
Proof.
  intros G1 G2 c c' s; unfold gives, evaluate_spec in *; cbn [interp f_spec add_fn].
  intro H; apply both_ok in H; destruct H as (c1 & x & y & E1 & E2 & H); apply err_ok in H.
  destruct (G1 _ _ _ E1) as (t & z & -> & Hz), (G2 _ _ _ E2) as (u & w & -> & Hw).
  cbn [add_match] in H; destruct (bcast_bty t u) as [q| | |]; try discriminate; inversion H.
  exists q, (fadd z w); split; [reflexivity|apply (zc_add Z); auto].
Qed.

Lemma gives_sub l r : gives zero_full l -> gives zero_full r -> gives zero_full (Sub l r).
Proof.
  intros G1 G2 c c' s; unfold gives, evaluate_spec in *; cbn [interp f_spec sub_fn].
  intro H; apply both_ok in H; destruct H as (c1 & x & y & E1 & E2 & H); apply err_ok in H.
  destruct (G1 _ _ _ E1) as (t & z & -> & Hz), (G2 _ _ _ E2) as (u & w & -> & Hw).
  cbn [sub_match] in H; destruct (bcast_bty t u) as [q| | |]; try discriminate; inversion H.
  exists q, (fsub z w); split; [reflexivity|apply (zc_sub Z); auto].
Qed.

Lemma gives_mul_l l r : gives zero_full l -> gives raw r -> gives zero_full (Mul l r).
Proof.
  intros G1 G2 c c' s; unfold gives, evaluate_spec in *; cbn [interp f_spec mul_fn].
  intro H; apply both_ok in H; destruct H as (c1 & x & y & E1 & E2 & H); apply err_ok in H.
  destruct (G1 _ _ _ E1) as (t & z & -> & Hz), (G2 _ _ _ E2) as [w ->].
  cbn [mul_match] in H; rewrite Hz in H; destruct (bcast_bty _ _) as [q| | |]; try discriminate; inversion H.
  exists q, fzero; split; [reflexivity|apply (zc_zero Z)].
Qed.

Lemma gives_mul_r l r : gives raw l -> gives zero_full r -> gives zero_full (Mul l r).
Proof.
  intros G1 G2 c c' s; unfold gives, evaluate_spec in *; cbn [interp f_spec mul_fn].
  intro H; apply both_ok in H; destruct H as (c1 & x & y & E1 & E2 & H); apply err_ok in H.
  destruct (G1 _ _ _ E1) as [w ->], (G2 _ _ _ E2) as (t & z & -> & Hz).
  cbn [mul_match] in H; rewrite Hz in H; destruct (bcast_bty _ _) as [q| | |]; try discriminate; inversion H.
  exists q, fzero; split; [reflexivity|apply (zc_zero Z)].
Qed.

Lemma adjoint_gives_zero n t n' :
  no_quotients n -> contains n t = false -> adjoint n t = Some n' -> gives zero_full n'.
Proof.
  revert n'; induction n; intros n' N K A; cbn [no_quotients] in N; cbn [contains] in K;
    cbn [adjoint] in A; try contradiction.
  - injection A as <-; intros c c' s; unfold evaluate_spec; cbn [interp f_spec varadj_fn]; unfold varadj_spec.
    destruct (read_bty c i); cbn [ok_or_undef res_map_err res_bind]; try discriminate.
    destruct (read_bty c t); cbn [ok_or_undef res_map_err res_bind]; try discriminate.
    rewrite K; destruct (adj_bty _ _) as [sa|]; try discriminate; intro H; inversion H.
    exists sa, fzero; split; [reflexivity|apply (zc_zero Z)].
  - injection A as <-; intros c c' s; unfold evaluate_spec; cbn [interp f_spec constadj_fn]; unfold constadj_spec.
    destruct (constadj_shape _ _ _) as [c1 [sa| | |]]; try discriminate; intro H; inversion H.
    exists sa, fzero; split; [reflexivity|apply (zc_zero Z)].
  - destruct (adjoint n t) as [m'|] eqn:E; [|discriminate]; cbn [obind] in A.
    destruct N as [U N]; specialize (IHn m' N K eq_refl); assert (V := gives_value n N).
    destruct u; cbn [un_adjoint] in A; try discriminate; try congruence; injection A as <-;
      auto using gives_neg, gives_double, gives_mul_l, gives_mul_r, gives_un.
  - auto.
  - apply orb_false_iff in K; destruct N as [N1 N2], K as [K1 K2]; adj_inv A.
    assert (V1 := gives_value n1 N1); assert (V2 := gives_value n2 N2).
    auto 9 using gives_mul_l, gives_mul_r, gives_un, gives_add, gives_power.
  - apply orb_false_iff in K; destruct N as [N1 N2], K as [K1 K2]; adj_inv A; auto using gives_add.
  - apply orb_false_iff in K; destruct N as [N1 N2], K as [K1 K2]; adj_inv A; auto using gives_sub.
  - apply orb_false_iff in K; destruct N as [N1 N2], K as [K1 K2]; adj_inv A.
    assert (V1 := gives_value n1 N1); assert (V2 := gives_value n2 N2).
    auto using gives_add, gives_mul_l.
Qed.

(** Plain evaluation of these adjoints goes through the lifted one. *)
Definition lifts (n : node F) : Prop :=
  forall c c' v, evaluate n c = (c', Ok v) -> exists s, evaluate_spec n c = (c', Ok s) /\ unwrap s = v.

Lemma by_spec sp (c c' : ctx F) v :
  eval_by_spec sp c = (c', Ok v) -> exists s, sp c = (c', Ok s) /\ unwrap s = v.
Proof.
  unfold eval_by_spec; destruct (sp c) as [c1 [s| | |]]; try discriminate.
  intro H; inversion H; eauto.
Qed.

Lemma lifts_un u m : lifts m -> lifts (Un u m).
Proof.
  intros L c c' v; unfold lifts, evaluate, evaluate_spec in *; cbn [interp f_eval f_spec unary_fn].
  destruct (f_eval (interp m) c) as [c1 [x| | |]] eqn:E; try discriminate.
  destruct (L _ _ _ E) as (s & Es & <-); rewrite Es; intro H; inversion H; subst.
  eexists; split; [reflexivity|apply unary_post].
Qed.

Lemma adjoint_lifts n t n' : no_quotients n -> adjoint n t = Some n' -> lifts n'.
Proof.
  revert n'; induction n; intros n' N A; cbn [no_quotients] in N; cbn [adjoint] in A; try contradiction.
  3:{ destruct (adjoint n t) as [m'|] eqn:E; [|discriminate]; cbn [obind] in A.
      destruct N as [U N]; specialize (IHn m' N eq_refl).
      destruct u; cbn [un_adjoint] in A; try discriminate; try congruence; injection A as <-;
        auto using lifts_un; try (intros c0 c1 v0; exact (by_spec _ _ _ _)).
      apply lifts_un; intros c0 c1 v0; exact (by_spec _ _ _ _). }
  3:{ auto. }
  all: adj_inv A; intros c0 c1 v0; exact (by_spec _ _ _ _).
Qed.

Lemma absent_any (n : node F) t (c c' : ctx F) w :
  no_quotients n -> contains n t = false -> evaluate_adjoint n t c = Some (c', Ok w) ->
  forall ix, in_box (dims (vshape w)) ix -> is_zero (vat fzero w ix) = true.
Proof.
  intros N K; unfold evaluate_adjoint; destruct (adjoint n t) as [n'|] eqn:A; [|discriminate].
  cbn [option_map]; intro H; injection H as H.
  destruct (adjoint_lifts _ _ _ N A _ _ _ H) as (s & E & <-).
  destruct (adjoint_gives_zero _ _ _ N K A _ _ _ E) as (ty & z & -> & Hz).
  intros ix B; unfold vshape in B; rewrite unwrap_bty in B; cbn [spec_bty] in B.
  cbn [unwrap]; rewrite full_build, vat_build by exact B; auto.
Qed.
End Absent.

Lemma f64_zeros pow lib : @zeros_closed f64 (f64_scalar pow lib).
Proof.
  assert (D : forall x : f64, SFeqb x f64_zero = true -> exists s, x = S754_zero s).
  { intros [s|s| |s m e]; unfold SFeqb; cbn; try discriminate; eauto; destruct s; discriminate. }
  constructor.
  - reflexivity.
  - intros x y Hx Hy; destruct (D x Hx) as [[] ->], (D y Hy) as [[] ->]; reflexivity.
  - intros x y Hx Hy; destruct (D x Hx) as [[] ->], (D y Hy) as [[] ->]; reflexivity.
  - intros x Hx; destruct (D x Hx) as [[] ->]; reflexivity.
  - intros x Hx; destruct (D x Hx) as [[] ->]; reflexivity.
Qed.

Lemma absent_f64 pow lib (n : node f64) t (c c' : ctx f64) w :
  let S := f64_scalar pow lib in
  no_quotients n -> contains n t = false -> evaluate_adjoint n t c = Some (c', Ok w) ->
  forall ix, in_box (dims (vshape w)) ix -> exists s, vat f64_zero w ix = S754_zero s.
Proof.
  intros S N K E ix B.
  assert (H := @absent_any f64 S (f64_zeros pow lib) n t c c' w N K E ix B).
  change (SFeqb (vat f64_zero w ix) f64_zero = true) in H; revert H.
  destruct (vat f64_zero w ix) as [s|s| |s m e]; unfold SFeqb; cbn; try discriminate; eauto; destruct s; discriminate.
Qed.
