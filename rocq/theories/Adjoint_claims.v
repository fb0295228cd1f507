(** Claims about adjoints, in the form used by Properties_adjoint.v. *)
From Coq Require Import List Arith ZArith Reals Bool Lia Lra.
Import ListNotations.
From Verif Require Import Base Shapes Scalar Buffers Spec Contraction Node Eval Types Instances
  Vocab Math Index_facts Buffers_facts Spec_facts Contraction_facts Eval_facts Typing_facts
  Progress_facts Instance_facts Eval_claims Math_claims Adjoint_facts Zero_facts.

Section Claims.
Context {F : Type} {SF : Scalar F}.

(** Absent variables. *)
Lemma absent_adjoints (n : node F) t (c c' : ctx F) w :
  exact F -> (forall y : F, y <> fzero -> fdiv fzero y = fzero) ->
  (forall y : F, y <> fzero -> fpow y ftwo <> fzero) ->
  node_wf n -> ctx_wf c -> varies n t = false -> quotients_ok c n ->
  evaluate_adjoint n t c = Some (c', Ok w) ->
  forall ix, in_box (dims (vshape w)) ix -> vat fzero w ix = fzero.
Proof.
  intros EX D P W Wc C Q E ix B; unfold evaluate_adjoint in E.
  destruct (adjoint n t) as [n'|] eqn:A; [|discriminate]; simpl in E.
  assert (Z := adjoint_zero EX c Wc D P t n n' W C A Q).
  assert (V := sv_eval EX c n'); unfold evaluate in E; inversion E as [E']; rewrite E' in V; simpl in V.
  unfold zeroed in Z; destruct (sv c n') as [s| | |]; try discriminate.
  destruct (Z s eq_refl) as [Zs _]; apply Ok_inj in V; subst w; apply (zs_unwrap s ix Zs).
Qed.

Lemma contains_varies (n : node F) t : contains n t = false -> varies n t = false.
Proof.
  induction n; cbn [contains varies]; auto; rewrite ?orb_false_iff; intuition.
Qed.

Lemma absent_zero (n : node F) t (c c' : ctx F) w :
  exact F -> (forall y : F, y <> fzero -> fdiv fzero y = fzero) ->
  (forall y : F, y <> fzero -> fpow y ftwo <> fzero) ->
  node_wf n -> ctx_wf c -> contains n t = false -> quotients_ok c n ->
  evaluate_adjoint n t c = Some (c', Ok w) ->
  forall ix, in_box (dims (vshape w)) ix -> vat fzero w ix = fzero.
Proof.
  intros EX D P W Wc C; apply absent_adjoints; auto using contains_varies.
Qed.

(** Types of adjoints. *)
Lemma adjoint_type G t (n n' : node F) k k' :
  sum_free n = true -> adjoint n t = Some n' -> typeof G n = Some k -> typeof G n' = Some k' ->
  exists kt d T, G t = Some kt /\ sty_dims k = Some d /\ sty_dims kt = Some T /\
                 sty_dims k' = Some (d ++ T).
Proof.
  intros S A T T'; destruct (adjoint_dims G t n n' k k' (sum_free_scalar G n S) A T T')
    as (d & ds & kt & H1 & H2 & H3 & H4); eauto 8.
Qed.

Lemma sty_dims_bty (t : bty) d : sty_dims (sty_of t) = Some d -> tdims_of t = d.
Proof. destruct t; simpl; intro H; inversion H; reflexivity. Qed.

Lemma adjoint_shape G t (n n' : node F) k k' (c : ctx F) v w vt :
  node_wf n -> sum_free n = true -> adjoint n t = Some n' ->
  typeof G n = Some k -> typeof G n' = Some k' -> ctx_ok G c ->
  snd (evaluate n c) = Ok v -> snd (evaluate n' c) = Ok w -> c t = Some vt ->
  dims (vshape w) = dims (vshape v) ++ dims (vshape vt).
Proof.
  intros W S A T T' O Ev Ew Et.
  destruct (adjoint_type G t n n' k k' S A T T') as (kt & d & ds & H1 & H2 & H3 & H4).
  destruct (typed_eval G n k c W T O) as [_ K]; rewrite Ev in K; destruct K as [_ K].
  destruct (typed_eval G n' k' c (adjoint_wf _ _ _ W A) T' O) as [_ K']; rewrite Ew in K'; destruct K' as [_ K'].
  destruct (O t vt Et) as [_ Kt].
  unfold vshape; change (tdims_of (bty_of w) = tdims_of (bty_of v) ++ tdims_of (bty_of vt)).
  rewrite (sty_dims_bty (bty_of w) (d ++ ds)), (sty_dims_bty (bty_of v) d), (sty_dims_bty (bty_of vt) ds);
    congruence.
Qed.

(** Repeated differentiation. *)
Fixpoint has_dead (n : node F) : bool :=
  match n with
  | Var _ | VarAdj _ _ | Const _ => false
  | ConstSpec _ | ConstAdj _ _ => true
  | Cached m _ | Un _ m | Sum m => has_dead m
  | Power l r | Add l r | Sub l r | Mul l r | Div l r | Contract _ l r => has_dead l || has_dead r
  end.

Lemma dead_none (n : node F) t : has_dead n = true -> adjoint n t = None.
Proof.
  induction n; simpl; intro H; try discriminate; auto;
    try (apply orb_true_iff in H; destruct H as [H|H];
         [rewrite (IHn1 H); auto|rewrite (IHn2 H); destruct (adjoint n1 t); auto]; fail).
  - rewrite IHn; destruct (ident_eqb k t); auto.
  - rewrite (IHn H); auto.
Qed.

Lemma const_dead (n n' : node F) t :
  has_const n = true -> adjoint n t = Some n' -> has_dead n' = true.
Proof.
  revert n'; induction n; simpl; intros n' H A; try discriminate;
    try (inversion A; subst; reflexivity); auto.
  - destruct (ident_eqb k t); [auto|discriminate].
  - adj_inv A; specialize (IHn _ H eq_refl); destruct u; inversion A; subst; simpl; rewrite ?IHn, ?orb_true_r; auto.
  - adj_inv A; simpl; apply orb_true_iff in H; destruct H as [H|H];
      [rewrite (IHn1 _ H eq_refl)|rewrite (IHn2 _ H eq_refl)]; rewrite ?orb_true_r; auto.
  - adj_inv A; simpl; apply orb_true_iff in H; destruct H as [H|H];
      [rewrite (IHn1 _ H eq_refl)|rewrite (IHn2 _ H eq_refl)]; rewrite ?orb_true_r; auto.
  - adj_inv A; simpl; apply orb_true_iff in H; destruct H as [H|H];
      [rewrite (IHn1 _ H eq_refl)|rewrite (IHn2 _ H eq_refl)]; rewrite ?orb_true_r; auto.
  - adj_inv A; simpl; apply orb_true_iff in H; destruct H as [H|H];
      [rewrite (IHn1 _ H eq_refl)|rewrite (IHn2 _ H eq_refl)]; rewrite ?orb_true_r; auto.
  - adj_inv A; simpl; apply orb_true_iff in H; destruct H as [H|H];
      [rewrite (IHn1 _ H eq_refl)|rewrite (IHn2 _ H eq_refl)]; rewrite ?orb_true_r; auto.
  - adj_inv A; simpl; apply orb_true_iff in H; destruct H as [H|H];
      [rewrite (IHn1 _ H eq_refl)|rewrite (IHn2 _ H eq_refl)]; rewrite ?orb_true_r; auto.
Qed.

Lemma adjoint_const (n n' : node F) t : adjoint n t = Some n' -> has_const n' = true.
Proof.
  revert n'; induction n; simpl; intros n' A; try discriminate;
    try (inversion A; subst; reflexivity); auto.
  - destruct (ident_eqb k t); [auto|discriminate].
  - adj_inv A; specialize (IHn _ eq_refl); destruct u; inversion A; subst; simpl; rewrite ?IHn, ?orb_true_r; auto.
  - adj_inv A; simpl; rewrite (IHn1 _ eq_refl); rewrite ?orb_true_r; auto.
  - adj_inv A; simpl; rewrite (IHn1 _ eq_refl); rewrite ?orb_true_r; auto.
  - adj_inv A; simpl; rewrite (IHn1 _ eq_refl); rewrite ?orb_true_r; auto.
  - adj_inv A; simpl; rewrite (IHn1 _ eq_refl); rewrite ?orb_true_r; auto.
  - adj_inv A; simpl; rewrite (IHn1 _ eq_refl); rewrite ?orb_true_r; auto.
  - adj_inv A; simpl; rewrite (IHn1 _ eq_refl); rewrite ?orb_true_r; auto.
Qed.

Lemma second_none (n n' : node F) t u :
  has_const n = true -> adjoint n t = Some n' -> adjoint n' u = None.
Proof. intros H A; apply dead_none; eapply const_dead; eauto. Qed.

Lemma third_none (n n' n'' : node F) t u w :
  adjoint n t = Some n' -> adjoint n' u = Some n'' -> adjoint n'' w = None.
Proof. intros A1 A2; eapply second_none; eauto; eapply adjoint_const; eauto. Qed.

End Claims.

(** The reals satisfy the two laws. *)
Lemma real_div0 inf sp (y : R) :
  let S := R_scalar inf sp in y <> fzero -> fdiv fzero y = fzero.
Proof. simpl; intros; unfold Rdiv; lra. Qed.
Lemma real_pow2 inf sp (y : R) :
  let S := R_scalar inf sp in y <> fzero -> fpow y ftwo <> fzero.
Proof.
  intros S H; change (R_pow y (1 + 1) <> 0%R); rewrite R_pow_two.
  apply Rmult_integral_contrapositive; auto.
Qed.

Lemma absent_zero_real inf sp (n : node R) t (c c' : ctx R) w :
  let S := R_scalar inf sp in
  node_wf n -> ctx_wf c -> contains n t = false -> quotients_ok c n ->
  evaluate_adjoint n t c = Some (c', Ok w) ->
  forall ix, in_box (dims (vshape w)) ix -> vat 0%R w ix = 0%R.
Proof.
  intros S W Wc C Q E; exact (absent_zero n t c c' w (R_exact inf sp) (real_div0 inf sp)
    (real_pow2 inf sp) W Wc C Q E).
Qed.
