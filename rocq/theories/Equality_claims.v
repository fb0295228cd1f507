(** [==] on expressions (property C91). *)
From Coq Require Import List Arith Bool String ZArith SpecFloat Lia.
Import ListNotations.
From Verif Require Import Base Shapes Scalar Buffers Buffers_facts Spec Contraction Node Eval Dual Debug Debug_math
  Debug_claims Instances Generic_math Generic_facts Generic_claims Equality Equality_math.

Lemma list_eqb_rel {A} (eqb : A -> A -> bool) l : forall m,
  list_eqb eqb l m = true <-> Forall2 (fun x y => eqb x y = true) l m.
Proof.
  induction l as [|x l IH]; intros [|y m]; simpl; split; intro H; auto; try discriminate; try (inversion H; fail).
  - apply andb_true_iff in H as [H1 H2]; constructor; auto; apply IH; auto.
  - inversion H; subst; apply andb_true_iff; split; auto; apply IH; auto.
Qed.
Lemma dims_eqb_eq l m : list_eqb Nat.eqb l m = true <-> l = m.
Proof.
  rewrite list_eqb_rel; split.
  - induction 1; auto; apply Nat.eqb_eq in H; congruence.
  - intros ->; induction m; constructor; auto; apply Nat.eqb_refl.
Qed.

Section Equal.
Context {F : Type} {S : Scalar F}.

Lemma arr_eqb_rel (a : arr F) : forall b, arr_eqb a b = true <-> arr_rel equal a b.
Proof.
  induction a as [x|l IH] using arr_ind2; intros [y|m]; cbn [arr_eqb]; split; intro H; try discriminate;
    try (inversion H; fail).
  - constructor; auto.
  - inversion H; auto.
  - constructor; apply list_eqb_rel in H; revert IH; induction H; intro IH; constructor; inversion IH; subst; auto.
    apply H3; auto.
  - inversion H; subst; apply list_eqb_rel; clear H; revert IH; induction H2; intro IH; constructor; inversion IH; subst; auto.
    apply H3; auto.
Qed.
Lemma value_eqb_rel (v w : value F) : value_eqb v w = true <-> value_rel equal v w.
Proof.
  destruct v, w; cbn [value_eqb]; split; intro H; try discriminate; try (inversion H; fail).
  - constructor; auto.
  - inversion H; auto.
  - apply andb_true_iff in H as [H1 H2]; constructor; auto.
  - inversion H; apply andb_true_iff; auto.
  - constructor; apply list_eqb_rel; auto.
  - inversion H; apply list_eqb_rel; auto.
  - apply andb_true_iff in H as [H1 H2]; apply dims_eqb_eq in H1; subst; constructor; apply arr_eqb_rel; auto.
  - inversion H; subst; apply andb_true_iff; split; [apply dims_eqb_eq; auto|apply arr_eqb_rel; auto].
Qed.
Lemma shape_eqb_eq t u : same_buffer t u -> (shape_eqb (bty_shape t) (bty_shape u) = true <-> t = u).
Proof.
  destruct t, u; cbn [bty_shape shape_eqb same_buffer]; try tauto; intro B; rewrite dims_eqb_eq;
    split; congruence.
Qed.
Lemma spec_eqb_rel (s t : spec F) : same_buffer (spec_bty s) (spec_bty t) ->
  (spec_eqb s t = true <-> spec_rel equal s t).
Proof.
  destruct s, t; cbn [spec_eqb spec_bty]; intro B; split; intro H; try discriminate; try (inversion H; fail).
  - constructor; apply value_eqb_rel; auto.
  - inversion H; apply value_eqb_rel; auto.
  - apply andb_true_iff in H as [H1 H2]; apply shape_eqb_eq in H1; auto; subst; constructor; auto.
  - inversion H; subst; apply andb_true_iff; split; auto; apply shape_eqb_eq; auto.
  - apply andb_true_iff in H as [H1 H2]; apply shape_eqb_eq in H1; auto; subst; constructor; auto.
  - inversion H; subst; apply andb_true_iff; split; auto; apply shape_eqb_eq; auto.
Qed.
Lemma dual_eqb_rel (d e : dual (value F) (value F)) : dual_eqb d e = true <-> pair_rel equal d e.
Proof. unfold dual_eqb, pair_rel; rewrite andb_true_iff, !value_eqb_rel; tauto. Qed.
Lemma unop_eqb_refl u : unop_eqb u u = true.
Proof. apply String.eqb_refl. Qed.

Lemma node_eqb_rel (n m : node F) : same_type n m -> (node_eqb n m = true <-> node_rel equal any n m).
Proof.
  intro T; induction T; cbn [node_eqb]; unfold ident_eqb; rewrite ?Nat.eqb_refl, ?unop_eqb_refl; cbn [andb];
    rewrite ?andb_true_r, ?andb_true_iff, ?IHT, ?IHT1, ?IHT2;
    try (split; [intro H; constructor; try exact I; try apply H|intro H; inversion H; subst; auto]; fail).
  - rewrite value_eqb_rel; split; intro K; [constructor; auto|inversion K; auto].
  - rewrite spec_eqb_rel by auto; split; intro K; [constructor; auto|inversion K; auto].
Qed.

(** Laws. *)
Lemma same_buffer_refl t : same_buffer t t.
Proof. destruct t; simpl; auto. Qed.
Lemma same_type_refl (n : node F) : same_type n n.
Proof. induction n; constructor; auto using same_buffer_refl. Qed.

Lemma arr_rel_impl (P Q : F -> F -> Prop) (a : arr F) : (forall x y, P x y -> Q x y) ->
  forall b, arr_rel P a b -> arr_rel Q a b.
Proof.
  intro I; induction a as [x|l IH] using arr_ind2; intros b H; inversion H; subst; constructor; auto.
  clear H; revert IH; induction H1; intro IH; inversion IH; subst; constructor; auto.
Qed.
Lemma list_rel_impl (P Q : F -> F -> Prop) l m : (forall x y, P x y -> Q x y) -> Forall2 P l m -> Forall2 Q l m.
Proof. intro I; induction 1; constructor; auto. Qed.
Lemma value_rel_impl (P Q : F -> F -> Prop) (v w : value F) : (forall x y, P x y -> Q x y) ->
  value_rel P v w -> value_rel Q v w.
Proof. intros I H; destruct H; constructor; eauto using arr_rel_impl, list_rel_impl. Qed.
Lemma spec_rel_impl (P Q : F -> F -> Prop) (v w : spec F) : (forall x y, P x y -> Q x y) ->
  spec_rel P v w -> spec_rel Q v w.
Proof. intros I H; destruct H; constructor; eauto using value_rel_impl. Qed.
Lemma node_rel_impl (P Q : F -> F -> Prop) (may may' : kind -> Prop) (n m : node F) : (forall x y, P x y -> Q x y) ->
  (forall k, may k -> may' k) -> node_rel P may n m -> node_rel Q may' n m.
Proof. intros I J H; induction H; constructor; eauto using value_rel_impl, spec_rel_impl. Qed.

Lemma arr_rel_eq (P : F -> F -> Prop) (a : arr F) : (forall x y, P x y -> x = y) -> forall b, arr_rel P a b -> a = b.
Proof.
  intro I; induction a as [x|l IH] using arr_ind2; intros b H; inversion H; subst; f_equal; auto.
  clear H; revert IH; induction H1; intro IH; inversion IH; subst; auto; f_equal; auto.
Qed.
Lemma list_rel_eq (P : F -> F -> Prop) l m : (forall x y, P x y -> x = y) -> Forall2 P l m -> l = m.
Proof. intro I; induction 1; f_equal; auto. Qed.
Lemma value_rel_eq (P : F -> F -> Prop) (v w : value F) : (forall x y, P x y -> x = y) -> value_rel P v w -> v = w.
Proof. intros I H; destruct H; f_equal; eauto using list_rel_eq, arr_rel_eq. Qed.
Lemma node_rel_eq (P : F -> F -> Prop) may (n m : node F) : (forall x y, P x y -> x = y) -> node_rel P may n m -> n = m.
Proof.
  intros I H; induction H; f_equal; eauto using value_rel_eq.
  destruct H; f_equal; eauto using value_rel_eq.
Qed.

Lemma equal_exact (n m : node F) : (forall x y : F, feq x y = true <-> x = y) -> same_type n m ->
  (node_eqb n m = true <-> n = m).
Proof.
  intros E T; rewrite node_eqb_rel by auto; split.
  - apply node_rel_eq; intros x y; apply E.
  - intros ->; apply node_eqb_rel; [apply same_type_refl|].
    apply node_eqb_rel; [apply same_type_refl|].
    assert (R : forall x : F, equal x x) by (intro; apply E; auto).
    clear T; induction m; constructor; try exact I; auto.
    + destruct v; constructor; auto.
      * induction l; constructor; auto.
      * induction a as [x|l IH] using arr_ind2; constructor; auto; induction IH; constructor; auto.
    + destruct s; constructor; auto. destruct v; constructor; auto.
      * induction l; constructor; auto.
      * induction a as [x|l IH] using arr_ind2; constructor; auto; induction IH; constructor; auto.
Qed.

(** Equal to itself: no constant holds a scalar that is not. *)
Lemma arr_rel_diag (P Q : F -> F -> Prop) (a : arr F) : (forall x, P x x -> Q x x) -> arr_rel P a a -> arr_rel Q a a.
Proof.
  intro I; induction a as [x|l IH] using arr_ind2; intro H.
  - inversion H; subst; constructor; auto.
  - apply arel_rows_inv in H; constructor; induction IH; constructor; inversion H; subst; auto.
Qed.
Lemma value_rel_diag (P Q : F -> F -> Prop) (v : value F) : (forall x, P x x -> Q x x) -> value_rel P v v -> value_rel Q v v.
Proof.
  intros I H; destruct v; inversion H as [| |? ? K|]; subst; constructor; eauto using arr_rel_diag.
  clear H; induction l; constructor; inversion K; subst; auto.
Qed.
Lemma spec_rel_diag (P Q : F -> F -> Prop) (v : spec F) : (forall x, P x x -> Q x x) -> spec_rel P v v -> spec_rel Q v v.
Proof. intros I H; destruct v; inversion H; subst; constructor; eauto using value_rel_diag. Qed.
Lemma node_rel_diag (P Q : F -> F -> Prop) may (n : node F) : (forall x, P x x -> Q x x) -> node_rel P may n n -> node_rel Q may n n.
Proof. intros I H; induction n; inversion H; subst; constructor; eauto using value_rel_diag, spec_rel_diag. Qed.

Lemma equal_self (n : node F) : node_eqb n n = true <-> constants_in (fun x => feq x x = true) n.
Proof.
  rewrite node_eqb_rel by apply same_type_refl; unfold constants_in.
  split; apply node_rel_diag; unfold within, equal; intuition.
Qed.

Lemma same_type_sym (n m : node F) : same_type n m -> same_type m n.
Proof.
  assert (B : forall s t, same_buffer s t -> same_buffer t s) by (intros [] []; simpl; auto).
  induction 1; constructor; auto.
Qed.
Lemma rel_flip (P : F -> F -> Prop) (n m : node F) : (forall x y, P x y -> P y x) ->
  node_rel P any n m -> node_rel P any m n.
Proof.
  intro Sy.
  assert (L : forall l m, Forall2 P l m -> Forall2 P m l) by (induction 1; constructor; auto).
  assert (A : forall a b, arr_rel P a b -> arr_rel P b a).
  { intro a; induction a as [x|l IH] using arr_ind2; intros b H; inversion H; subst; constructor; auto.
    clear H; revert IH; induction H1; intro IH; inversion IH; subst; constructor; auto. }
  assert (V : forall v w, value_rel P v w -> value_rel P w v) by (destruct 1; constructor; auto).
  assert (C : forall v w, spec_rel P v w -> spec_rel P w v) by (destruct 1; constructor; auto).
  induction 1; constructor; auto.
Qed.
Lemma equal_sym (n m : node F) : (forall x y : F, feq x y = feq y x) -> same_type n m -> node_eqb n m = node_eqb m n.
Proof.
  intros Sy T; apply eq_true_iff_eq; rewrite !node_eqb_rel by auto using same_type_sym.
  split; apply rel_flip; unfold equal; intros x y H; rewrite Sy; auto.
Qed.

(** Equal expressions under operations that respect equality. *)
Lemma equal_derivative (n m : node F) t : same_type n m -> node_eqb n m = true ->
  opt_rel (node_rel equal any) (adjoint n t) (adjoint m t).
Proof. intros T E; apply adjoint_rel, node_eqb_rel; auto. Qed.

Lemma equal_evaluate (n m : node F) c d : all_respected (equal (S := S)) -> same_type n m -> node_eqb n m = true -> ctx_rel equal c d ->
  run_rel equal (value_rel equal) (evaluate n c) (evaluate m d).
Proof. intros A T E C; apply generic; auto; apply node_eqb_rel; auto. Qed.
End Equal.

(** * Floating point *)
Section Floats.
Context {prec emax : Z} (pow : f64 -> f64 -> f64) (lib : libfn -> f64 -> f64).
Let SF := float_scalar prec emax pow lib.

Lemma SFeqb_cases x y : SFeqb x y = true -> up_to_zero x y.
Proof.
  unfold SFeqb, up_to_zero; destruct x as [s|s| |s m e], y as [t|t| |t p f]; cbn [SFcompare]; intro H;
    try discriminate; try (right; eauto; fail); try (destruct s; discriminate H); try (destruct t; discriminate H);
    try (destruct s, t; discriminate H).
  - destruct s, t; try discriminate; auto.
  - left; destruct s, t; try discriminate;
      destruct (Z.compare_spec e f); try discriminate; subst;
      match type of H with context [Pos.compare_cont Eq ?a ?b] => destruct (Pos.compare_cont Eq a b) eqn:K end;
      try discriminate H; apply Pos.compare_eq in K; subst; auto.
Qed.

Lemma zero_respected : @respected f64 f64 SF SF up_to_zero sign_blind.
Proof.
  assert (Rf : forall x, up_to_zero x x) by (left; auto).
  assert (Ad : forall x x' y y', up_to_zero x x' -> up_to_zero y y' -> up_to_zero (SFadd prec emax x y) (SFadd prec emax x' y')).
  { intros x x' y y' [->|[s [t [-> ->]]]] [->|[s' [t' [-> ->]]]]; auto.
    - destruct x'; cbn; auto. destruct s, s', t'; cbn; right; eauto.
    - destruct y'; cbn; auto. destruct s, s0, t; cbn; right; eauto.
    - destruct s, s', t, t'; cbn; right; eauto. }
  assert (Su : forall x x' y y', up_to_zero x x' -> up_to_zero y y' -> up_to_zero (SFsub prec emax x y) (SFsub prec emax x' y')).
  { intros x x' y y' [->|[s [t [-> ->]]]] [->|[s' [t' [-> ->]]]]; auto.
    - destruct x'; cbn; auto. destruct s, s', t'; cbn; right; eauto.
    - destruct y'; cbn; auto. destruct s, s0, t; cbn; right; eauto.
    - destruct s, s', t, t'; cbn; right; eauto. }
  assert (Mu : forall x x' y y', up_to_zero x x' -> up_to_zero y y' -> up_to_zero (SFmul prec emax x y) (SFmul prec emax x' y')).
  { intros x x' y y' [->|[s [t [-> ->]]]] [->|[s' [t' [-> ->]]]]; auto.
    - destruct x'; cbn; auto; right; eauto.
    - destruct y'; cbn; auto; right; eauto.
    - cbn; right; eauto. }
  split; auto.
  - intros x x' y y' [->|[s [t [-> ->]]]] [->|[s' [t' [-> ->]]]]; auto.
  - intro n; apply Rf.
  - intros [].
  - intros [].
  - intros u Hu x x' H; destruct u; cbn in Hu; try tauto; cbn; auto.
    + destruct H as [->|[s [t [-> ->]]]]; auto; right; cbn; eauto.
    + destruct H as [->|[s [t [-> ->]]]]; auto; right; cbn; eauto.
Qed.

Lemma uses_related (n m : node f64) may : uses may n -> node_rel up_to_zero any n m -> node_rel up_to_zero may n m.
Proof.
  unfold uses; intros U H; induction H; inversion U; subst; constructor; auto.
Qed.

Lemma equal_floats (n m : node f64) c : same_type n m -> @node_eqb f64 SF n m = true -> uses sign_blind n ->
  run_rel up_to_zero (value_rel up_to_zero) (@evaluate f64 SF n c) (@evaluate f64 SF m c) /\
  run_rel up_to_zero (spec_rel up_to_zero) (@evaluate_spec f64 SF n c) (@evaluate_spec f64 SF m c) /\
  run_rel up_to_zero eq (@evaluate_shape f64 SF n c) (@evaluate_shape f64 SF m c).
Proof.
  intros T E U; apply (@fragment f64 f64 SF SF up_to_zero sign_blind); auto using zero_respected.
  - apply uses_related; auto.
    apply (@node_eqb_rel f64 SF) in E; auto.
    eapply node_rel_impl; [|intros k Hk; exact Hk|exact E]; intros x y; apply SFeqb_cases.
  - assert (Rf : forall x, up_to_zero x x) by (left; auto).
    intro i; destruct (c i) as [v|]; simpl; auto; destruct v; constructor; auto.
    + induction l; constructor; auto.
    + induction a as [x|l IH] using arr_ind2; constructor; auto; induction IH; constructor; auto.
Qed.
End Floats.
