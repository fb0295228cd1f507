(** Consequences of [interp_rel] in the form of the properties. *)
From Coq Require Import List Arith Bool Lia ZArith Reals Lra SpecFloat.
Import ListNotations.
From Flocq Require Import Core IEEE754.Binary IEEE754.BinarySingleNaN.
From Verif Require Import Base Shapes Scalar Buffers Spec Contraction Node Eval Dual Instances Instance_facts Float_math Float_facts
  Generic_math Generic_facts.

Section Two.
Context {A B : Type} {SA : Scalar A} {SB : Scalar B}.
Variable P : A -> B -> Prop.

Lemma all_any : all_respected P -> respected P any.
Proof.
  intros [zero one inf add sub mul div pow neg abs sig lib eq le us]; split; auto.
  intros u _ x y H; assert (T : P ftwo ftwo) by (unfold ftwo; auto).
  destruct u; simpl; auto.
  - rewrite (eq x y fzero fzero) by auto; destruct (feq y fzero); auto.
  - unfold is_zero; rewrite (eq x y fzero fzero) by auto; destruct (feq y fzero); auto.
  - rewrite (le x y fzero fzero) by auto; destruct (fle y fzero); auto.
  - unfold sigmoid; rewrite (le fzero fzero x y) by auto; destruct (fle fzero y); auto 10.
Qed.

Lemma fragment may n m c d : respected P may -> node_rel P may n m -> ctx_rel P c d ->
  run_rel P (value_rel P) (evaluate n c) (evaluate m d) /\
  run_rel P (spec_rel P) (evaluate_spec n c) (evaluate_spec m d) /\
  run_rel P eq (evaluate_shape n c) (evaluate_shape m d).
Proof.
  intros Hr H C; assert (I := interp_rel P may Hr n m H).
  split; [apply (fr_eval P _ _ I); auto|split; [apply (fr_spec P _ _ I); auto|]].
  unfold evaluate_shape; eapply run_map; [apply (fr_shape P _ _ I); auto|intros ? ? ->; reflexivity].
Qed.

Lemma generic n m c d : all_respected P -> node_rel P any n m -> ctx_rel P c d ->
  run_rel P (value_rel P) (evaluate n c) (evaluate m d) /\
  run_rel P (spec_rel P) (evaluate_spec n c) (evaluate_spec m d) /\
  run_rel P eq (evaluate_shape n c) (evaluate_shape m d).
Proof. intro H; apply fragment, all_any, H. Qed.

Lemma un_adjoint_rel u m m' n n' : node_rel P any m n -> node_rel P any m' n' ->
  opt_rel (node_rel P any) (un_adjoint u m m') (un_adjoint u n n').
Proof. intros; destruct u; simpl; auto; repeat (constructor; auto); exact Logic.I. Qed.

Lemma obind_rel {X Y X' Y'} (R : X -> Y -> Prop) (R' : X' -> Y' -> Prop) x y f g :
  opt_rel R x y -> (forall a b, R a b -> opt_rel R' (f a) (g b)) -> opt_rel R' (obind x f) (obind y g).
Proof. destruct x, y; simpl; intros; auto; contradiction. Qed.

Lemma adjoint_rel n m t : node_rel P any n m -> opt_rel (node_rel P any) (adjoint n t) (adjoint m t).
Proof.
  intro H; induction H; cbn [adjoint]; auto; try (repeat (constructor; auto); fail);
    try (eapply obind_rel; [eassumption|]; intros; eapply obind_rel; [eassumption|]; intros;
         repeat (constructor; auto); fail).
  - destruct (ident_eqb k t); simpl; auto.
  - eapply obind_rel; [eassumption|]; intros; apply un_adjoint_rel; auto.
Qed.

Lemma derivatives n m t c d : all_respected P -> node_rel P any n m -> ctx_rel P c d ->
  opt_rel (run_rel P (value_rel P)) (evaluate_adjoint n t c) (evaluate_adjoint m t d) /\
  opt_rel (run_rel P (pair_rel P)) (evaluate_dual n t c) (evaluate_dual m t d).
Proof.
  intros Hr H C; assert (D := adjoint_rel n m t H); unfold evaluate_adjoint, evaluate_dual.
  destruct (adjoint n t) as [n'|], (adjoint m t) as [m'|]; simpl in D; try contradiction; [|split; exact Logic.I].
  cbn [option_map opt_rel]; split; [apply (generic n' m' c d Hr D C)|].
  apply (run_two P (value_rel P) (value_rel P)); auto.
  - intros; apply generic; auto.
  - intros; apply generic; auto.
  - intros; split; auto.
Qed.

End Two.

(** * Sets of scalars closed under the operations *)
Section Closed.
Context {A : Type} {S : Scalar A}.
Variable Q : A -> Prop.

Lemma closed_all : closed Q -> all_respected (within Q).
Proof.
  intros [zero one inf add sub mul div pow neg abs sig lib us]; split; unfold within; try (intuition congruence);
    try (intros; repeat match goal with H : _ /\ _ |- _ => destruct H end; subst; auto; fail).
  intro n; specialize (us n); destruct (fof_usize n); simpl; auto.
Qed.

Lemma arr_same a b : arr_rel (within Q) a b -> a = b.
Proof.
  revert b; induction a as [x|l IH] using Buffers_facts.arr_ind2; intros b K; inversion K as [x' y' E|]; subst; [f_equal; apply E|].
  f_equal; clear K; match goal with F : Forall2 _ l _ |- _ => induction F; auto; inversion IH; subst; f_equal; auto end.
Qed.

Lemma list_same l m : Forall2 (within Q) l m -> l = m.
Proof. induction 1 as [|x y l m [-> _] _ ->]; auto. Qed.

Lemma value_same v w : value_rel (within Q) v w -> v = w.
Proof.
  intros [x y [-> _]|x y x' y' [-> _] [-> _]|l m H|ds a b H]; auto; f_equal; auto using arr_same, list_same.
Qed.

Lemma closed_results n c c' v : closed Q -> constants_in Q n -> context_in Q c ->
  evaluate n c = (c', Ok v) -> scalars_in Q v /\ context_in Q c'.
Proof.
  intros Hc Hn C E; assert (D : ctx_rel (within Q) c c).
  { intro i; specialize (C i); destruct (c i); simpl; auto; apply C; auto. }
  destruct (proj1 (generic _ n n c c (closed_all Hc) Hn D)) as [H K]; rewrite E in *; split; [exact K|].
  intros i w W; specialize (H i); cbn [fst] in H; rewrite W in H; exact H.
Qed.

End Closed.

(** * Integers among the reals *)
Lemma INR_IZR n : INR n = IZR (Z.of_nat n).
Proof. apply INR_IZR_INZ. Qed.

Lemma integers_respected inf sp :
  @respected Z R Z_scalar (R_scalar inf sp) (fun z r => r = IZR z) integral.
Proof.
  split; cbn [fzero fone fadd fsub fmul feq fof_usize Z_scalar R_scalar opt_rel]; try (intros; contradiction); auto.
  - intros; subst; symmetry; apply plus_IZR.
  - intros; subst; symmetry; apply minus_IZR.
  - intros; subst; symmetry; apply mult_IZR.
  - intros x x' y y' -> ->; unfold R_eqb; destruct (Z.eqb_spec x y) as [->|N], (Req_EM_T _ _) as [E|E]; auto; try congruence.
    apply eq_IZR in E; congruence.
  - intro; apply INR_IZR.
  - intros u H x x' ->; destruct u; cbn [integral] in H; try contradiction; cbn [un_fn fsub fone fadd fmul fneg fabs fpow Z_scalar R_scalar];
      unfold ftwo; cbn [fadd fone Z_scalar R_scalar].
    + symmetry; apply minus_IZR.
    + symmetry; apply minus_IZR.
    + symmetry; apply plus_IZR.
    + rewrite R_pow_two; change (Z_pow x (1 + 1)) with (x ^ 2)%Z.
      rewrite Z.pow_2_r, mult_IZR; reflexivity.
    + rewrite mult_IZR; simpl; ring.
    + symmetry; apply opp_IZR.
    + symmetry; apply abs_IZR.
    + rewrite mult_IZR, minus_IZR; reflexivity.
Qed.

(** * Floating-point numbers of the format *)
Section Floats.
Context {prec emax : Z} {Fm : Format prec emax}.
Variable pow : f64 -> f64 -> f64.
Variable lib : libfn -> f64 -> f64.
Notation fvalid := (float_valid prec emax).

Lemma valid_closed :
  (forall x y, fvalid x -> fvalid y -> fvalid (pow x y)) -> (forall f x, fvalid x -> fvalid (lib f x)) ->
  @closed f64 (float_scalar prec emax pow lib) fvalid.
Proof.
  intros Hp Hl; split; cbn [fzero fone finf fadd fsub fmul fdiv fpow fneg fabs fsignum flib fof_usize float_scalar]; auto.
  - reflexivity.
  - apply of_Z_real.
  - reflexivity.
  - intros; apply add_real; auto.
  - intros; apply sub_real; auto.
  - intros; apply mul_real; auto.
  - intros x y X Y; destruct (valid_B x X) as [a ->], (valid_B y Y) as [b ->]; rewrite div_same; apply B_valid.
  - intros; apply opp_valid; auto.
  - intros [| | |]; auto.
  - intros [s|s| |s m e]; try (intros; reflexivity); destruct s; intros; apply of_Z_real.
  - intros n x [= <-]; apply of_Z_real.
Qed.

End Floats.
