(** Lemmas for C88: every tree over variables can be brought into the form of C30 without changing its text. *)
From Coq Require Import List Arith Bool String Lia.
Import ListNotations.
From Verif Require Import Base Shapes Scalar Buffers Spec Contraction Node Eval Fmt Fmt_math Fmt_inj Alike_math.
Local Open Scope string_scope.

Section Alike.
Context {F : Type}.

(** A power, with the exponent moved to where the text has it. *)
Fixpoint raise (l r : node F) : node F :=
  match l with
  | Power x y => Power x (raise y r)
  | Un Negate x => Un Negate (raise x r)
  | Un Double x => Un Double (raise x r)
  | Un Exp x => Un Exp (raise x r)
  | _ => Power l r
  end.

Fixpoint normal (n : node F) : node F :=
  match n with
  | Un AddOne m => Un OneSub (normal m)
  | Un ArcSin m => Un ArcCos (normal m)
  | Un XLnX m => Mul (normal m) (Un Ln (normal m))
  | Un Rabbit m => Mul (normal m) (Un OneSub (normal m))
  | Un u m => Un u (normal m)
  | Sum m => Sum (normal m)
  | Power l r => raise (normal l) (normal r)
  | Add l r => Add (normal l) (normal r)
  | Sub l r => Sub (normal l) (normal r)
  | Mul l r => Mul (normal l) (normal r)
  | Div l r => Div (normal l) (normal r)
  | Contract a l r => Contract a (normal l) (normal r)
  | _ => n
  end.

Lemma raise_alike l r : alike (Power l r) (raise l r).
Proof.
  induction l; cbn [raise]; try apply al_refl.
  - destruct u; try apply al_refl.
    + eapply al_trans; [apply al_as, as_doubled|apply al_un; exact IHl].
    + eapply al_trans; [apply al_as, as_negated|apply al_un; exact IHl].
    + eapply al_trans; [apply al_as, as_exp|apply al_un; exact IHl].
  - eapply al_trans; [apply al_as, as_power|apply al_power; [apply al_refl|exact IHl2]].
Qed.

Lemma normal_alike n : alike n (normal n).
Proof.
  induction n; cbn [normal]; try apply al_refl; try (constructor; assumption).
  - destruct u; try (constructor; assumption).
    + eapply al_trans; [apply al_as, as_add_one|apply al_un; exact IHn].
    + eapply al_trans; [apply al_as, as_xlnx|apply al_mul; [exact IHn|apply al_un; exact IHn]].
    + eapply al_trans; [apply al_as, as_rabbit|apply al_mul; [exact IHn|apply al_un; exact IHn]].
    + eapply al_trans; [apply al_as, as_arcsin|apply al_un; exact IHn].
  - eapply al_trans; [apply al_power; eassumption|apply raise_alike].
Qed.

Lemma raise_clear l r : clear l = true -> clear r = true -> clear (raise l r) = true.
Proof.
  intros L R; induction l; cbn [raise clear] in *; try discriminate L; rewrite ?L, ?R; auto.
  - destruct u; cbn [clear open_right] in *; rewrite ?L, ?R; auto; rewrite andb_true_r in L; rewrite IHl; auto.
  - apply andb_true_iff in L; destruct L as [L O]; apply andb_true_iff in L; destruct L as [L1 L2].
    rewrite L1, IHl2, O; auto.
Qed.

Lemma normal_clear n : over_variables n = true -> clear (normal n) = true.
Proof.
  induction n; cbn [normal over_variables]; intro O; try discriminate O; auto;
    repeat match goal with H : (_ && _)%bool = true |- _ => apply andb_true_iff in H; destruct H end;
    repeat match goal with H : ?a = true -> _ , H' : ?a = true |- _ => specialize (H H') end.
  - destruct u; cbn [clear]; rewrite IHn; auto.
  - apply raise_clear; auto.
  - cbn [clear]; rewrite IHn1, IHn2; auto.
  - cbn [clear]; rewrite IHn1, IHn2; auto.
  - cbn [clear]; rewrite IHn1, IHn2; auto.
  - cbn [clear]; rewrite IHn1, IHn2; auto.
  - cbn [clear]; rewrite IHn1, IHn2; auto; rewrite H; auto.
Qed.

Lemma normal_shown n : sums_over_variables n = true -> shown (normal n) = true.
Proof.
  assert (C : forall m : node F, clear m = true -> shown m = true).
  { induction m; cbn [clear shown]; auto; try discriminate.
    intro H; destruct axes as [|[|[|a]]]; auto.
    apply andb_true_iff in H; destruct H as [H H2]; apply andb_true_iff in H; destruct H as [_ H1].
    rewrite IHm1, IHm2; auto. }
  induction n; try (intro O; apply C, normal_clear; exact O).
  - exact IHn.
  - destruct axes as [|[|[|a]]]; try (intro O; apply C, normal_clear; exact O).
    cbn [sums_over_variables normal shown]; intro O; apply andb_true_iff in O; destruct O; rewrite IHn1, IHn2; auto.
Qed.

Section Text.
Variable sym : ident -> string.
Variable show : F -> string.

(** Texts of trees over variables: neither zero nor one. *)
Definition text (n : node F) (p : prewrap) : Prop := to_expr sym show n = Some (XText p).

Lemma has_text n : over_variables n = true -> exists p, text n p.
Proof.
  unfold text; induction n; cbn [over_variables to_expr]; intro O; try discriminate O;
    repeat match goal with H : (_ && _)%bool = true |- _ => apply andb_true_iff in H; destruct H end;
    repeat match goal with H : ?a = true -> _ , H' : ?a = true |- _ => specialize (H H'); destruct H as [? H] end.
  - eexists; reflexivity.
  - rewrite IHn; destruct u; eexists; reflexivity.
  - rewrite IHn1, IHn2; eexists; reflexivity.
  - rewrite IHn1, IHn2; eexists; reflexivity.
  - rewrite IHn1, IHn2; eexists; reflexivity.
  - rewrite IHn1, IHn2; eexists; reflexivity.
  - rewrite IHn1, IHn2; eexists; reflexivity.
  - destruct axes as [|[|[|a]]]; try discriminate; rewrite IHn1, IHn2; eexists; reflexivity.
Qed.

Lemma printed_as_over (n m : node F) : printed_as n m -> over_variables n = over_variables m.
Proof.
  intro P; destruct P; cbn [over_variables]; auto; try (destruct (over_variables m); reflexivity).
  symmetry; apply andb_assoc.
Qed.

Lemma alike_over (n m : node F) : alike n m -> over_variables n = over_variables m.
Proof. induction 1; cbn [over_variables]; try congruence; apply printed_as_over; auto. Qed.

Lemma app_assoc_s (a b c : string) : (a ++ b) ++ c = a ++ b ++ c.
Proof. induction a; cbn; congruence. Qed.

Lemma printed_as_text (n m : node F) : printed_as n m -> over_variables n = true -> to_expr sym show n = to_expr sym show m.
Proof.
  intro P; destruct P; cbn [over_variables to_expr]; intro O;
    repeat match goal with H : (_ && _)%bool = true |- _ => apply andb_true_iff in H; destruct H end;
    repeat match goal with H : over_variables _ = true |- _ => apply has_text in H; destruct H as [? H]; unfold text in H end;
    repeat (match goal with H : to_expr _ _ _ = Some _ |- _ => rewrite H end;
            cbn [to_expr option_map obind un_expr on_expr power_expr prod_expr]);
    unfold plain, wrap, call, mul_text, plain, wrap; cbn [power_expr]; unfold plain, safe; cbn [pw_text pw_wrap];
    rewrite ?app_assoc_s; auto.
Qed.

Lemma alike_text (n m : node F) : alike n m -> over_variables n = true -> to_expr sym show n = to_expr sym show m.
Proof.
  induction 1; cbn [over_variables to_expr]; intro O; auto;
    repeat match goal with H : (_ && _)%bool = true |- _ => apply andb_true_iff in H; destruct H end;
    repeat match goal with H : ?a = true -> _ , H' : ?a = true |- _ => specialize (H H') end.
  - apply printed_as_text; auto.
  - symmetry; apply IHalike; rewrite (alike_over _ _ H); auto.
  - rewrite IHalike1; apply IHalike2; rewrite <- (alike_over _ _ H); auto.
  - rewrite IHalike; auto.
  - rewrite IHalike1, IHalike2; auto.
  - rewrite IHalike1, IHalike2; auto.
  - rewrite IHalike1, IHalike2; auto.
  - rewrite IHalike1, IHalike2; auto.
  - rewrite IHalike1, IHalike2; auto.
  - destruct a as [|[|[|a]]]; rewrite ?IHalike1, ?IHalike2; auto.
Qed.

Lemma over_sums (n : node F) : over_variables n = true -> sums_over_variables n = true.
Proof.
  induction n; cbn [over_variables sums_over_variables]; auto; try discriminate.
  destruct axes as [|[|[|a]]]; auto; cbn; intro O; apply andb_true_iff in O; destruct O; rewrite IHn1, IHn2; auto.
Qed.

(** [printed_as] relates operators for which [Display] prints the text of [to_expr]. *)
Definition by_text (n : node F) : Prop :=
  (forall s, n <> Sum s) /\ (forall l r, n <> Contract 2 l r).
Lemma by_text_sums n : by_text n -> sums_over_variables n = over_variables n.
Proof.
  intros [A B]; destruct n; auto; [destruct (A n); auto|].
  destruct axes as [|[|[|a]]]; auto; destruct (B n1 n2); auto.
Qed.

Lemma alike_sums (n m : node F) : alike n m -> sums_over_variables n = sums_over_variables m.
Proof.
  induction 1; auto; try congruence;
    try (cbn [sums_over_variables over_variables]; rewrite ?(alike_over _ _ H), ?(alike_over _ _ H0); reflexivity).
  - rewrite !by_text_sums; [apply printed_as_over; auto| |]; destruct H; split; discriminate.
  - destruct a as [|[|[|a]]]; cbn [sums_over_variables over_variables]; rewrite ?(alike_over _ _ H), ?(alike_over _ _ H0); congruence.
Qed.

Lemma by_text_display (n : node F) : by_text n -> over_variables n = true ->
  display sym show n = option_map expr_display (to_expr sym show n).
Proof.
  intros [A B] O; destruct n; auto; try discriminate O.
  destruct axes as [|[|[|a]]]; auto; destruct (B n1 n2); auto.
Qed.

Lemma alike_display (n m : node F) : alike n m -> sums_over_variables n = true -> display sym show n = display sym show m.
Proof.
  assert (T : forall a b : node F, alike a b -> by_text a -> by_text b -> sums_over_variables a = true -> display sym show a = display sym show b).
  { intros a b AB A B O; rewrite by_text_sums in O by auto.
    assert (O' := O); rewrite (alike_over _ _ AB) in O'.
    rewrite !by_text_display by auto; rewrite (alike_text a b); auto. }
  induction 1; intro O; auto; try (apply T; auto; try (split; discriminate); constructor; assumption).
  - apply T; auto; [constructor; auto| |]; destruct H; split; discriminate.
  - symmetry; apply IHalike; rewrite (alike_sums _ _ H); auto.
  - rewrite IHalike1; auto; apply IHalike2; rewrite <- (alike_sums _ _ H); auto.
  - cbn [display]; rewrite IHalike; auto.
  - destruct a as [|[|[|a]]]; try (apply T; auto; try (split; discriminate); constructor; assumption).
    cbn [display]; cbn [sums_over_variables] in O; apply andb_true_iff in O; destruct O.
    rewrite IHalike1, IHalike2; auto.
Qed.
End Text.

Lemma same_text sym (show : F -> string) (n m : node F) :
  (forall i j, sym i = sym j -> i = j) -> (forall i, is_name (sym i) = true) ->
  over_variables n = true -> over_variables m = true ->
  (option_map expr_display (to_expr sym show n) = option_map expr_display (to_expr sym show m) <-> alike n m).
Proof.
  intros I N On Om; split; [|intro A; rewrite (alike_text sym show n m A On); auto].
  rewrite (alike_text sym show n _ (normal_alike n) On), (alike_text sym show m _ (normal_alike m) Om).
  intro E; destruct (text_injective F sym show (normal n) (normal m) I N (normal_clear n On) (normal_clear m Om)) as (_ & J & _).
  apply al_trans with (normal n); [apply normal_alike|]; rewrite (J E); apply al_sym, normal_alike.
Qed.

Lemma same_display sym (show : F -> string) (n m : node F) :
  (forall i j, sym i = sym j -> i = j) -> (forall i, is_name (sym i) = true) ->
  sums_over_variables n = true -> sums_over_variables m = true ->
  (exists s, display sym show n = Some s) /\ (display sym show n = display sym show m <-> alike n m).
Proof.
  intros I N On Om.
  rewrite (alike_display sym show n _ (normal_alike n) On), (alike_display sym show m _ (normal_alike m) Om).
  destruct (sums_injective F sym show (normal n) (normal m) I N (normal_shown n On) (normal_shown m Om)) as (X & J).
  split; [exact X|split]; intro E.
  - apply al_trans with (normal n); [apply normal_alike|]; rewrite (J E); apply al_sym, normal_alike.
  - rewrite <- (alike_display sym show n _ (normal_alike n) On), <- (alike_display sym show m _ (normal_alike m) Om).
    apply alike_display; auto.
Qed.
End Alike.
