(** Gradients over every buffer type, in the form used by Properties_leaf.v. *)
From Coq Require Import List Arith ZArith Bool Lia.
Import ListNotations.
From Verif Require Import Base Shapes Scalar Buffers Spec Contraction Node Eval Types Instances Vocab
  Index_facts Buffers_facts Diff_math Diff_claims Typed_math Typed_claims Leaf_math.

(** No derivative that compiles involves the two classes whose order matters. *)
Lemma order_used l r k : adj_sty l r = Some k ->
  precedence (sty_cls l) (sty_cls r) = precedence (sty_cls r) (sty_cls l) /\
  exists k', adj_sty r l = Some k' /\ sty_cls k' = sty_cls k.
Proof.
  intro H; apply derives_iff in H; destruct H as [| | |l r a b A B E L].
  - split; [reflexivity|]; exists KS; split; reflexivity.
  - split; [reflexivity|]; exists KT; split; reflexivity.
  - split; [reflexivity|]; exists KT; split; reflexivity.
  - split; [destruct A, B; reflexivity|]; exists (KA (b ++ a)); split; [|reflexivity].
    apply derives_iff, derives_array; [exact B|exact A|tauto|lia].
Qed.

Section Leaves.
Context {F : Type}.

Ltac opened := repeat match goal with
  | H : obind ?o _ = Some _ |- _ => let E := fresh "E" in destruct o eqn:E; cbn [obind] in H; [|discriminate H]
  | H : obind ?o _ <> None |- _ => let E := fresh "E" in destruct o eqn:E; cbn [obind] in H; [|congruence]
  end.

(** The derivative of every leaf is part of the derivative. *)
Lemma leaf_part t m : leaf m -> forall n n' : node F, part m n -> adjoint n t = Some n' ->
  exists m', adjoint m t = Some m' /\ part m' n'.
Proof.
  intros L n; induction n; intros n' P A.
  all: inversion P; subst; try solve [exists n'; split; [exact A|constructor]].
  all: cbn [adjoint] in A; try discriminate.
  all: try (destruct (ident_eqb k t); [|discriminate]).
  all: opened; try (injection A as A; subst n').
  all: try match goal with IH : forall n', part ?y ?x -> _ = Some n' -> _, Q : part ?y ?x |- _ =>
      destruct (IH _ Q ltac:(first [reflexivity|eassumption])) as (m' & Em & Pm); exists m'; split; [exact Em|] end.
  all: try assumption.
  all: try solve [repeat (assumption || (apply part_add_l; assumption) || (apply part_add_r; assumption)
      || (apply part_sub_l; assumption) || (apply part_sub_r; assumption))].
  all: try match goal with A : un_adjoint ?u _ _ = Some _ |- _ => destruct u; cbn [un_adjoint] in A; try discriminate;
      injection A as A; subst n' end.
  all: try assumption.
  all: try solve [repeat constructor; assumption].
  all: try solve [apply part_mul_r, part_add_l, part_mul_r; assumption | apply part_mul_r, part_add_r, part_mul_r; assumption
     | apply part_add_r, part_mul_l; assumption | apply part_add_l, part_mul_l; assumption
     | apply part_mul_r; assumption | apply part_mul_l; assumption | apply part_mul_l, part_mul_l; assumption
     | apply part_un, part_mul_l; assumption | apply part_un; assumption| apply part_div_l; assumption
     | apply part_div_l, part_sub_l, part_mul_r; assumption | apply part_div_l, part_sub_r, part_mul_r; assumption
     | apply part_add_r, part_contract_l; assumption | apply part_add_l, part_contract_r; assumption].
Qed.

Lemma part_typed G (m n : node F) : part m n -> typeof G n <> None -> typeof G m <> None.
Proof.
  intro P; induction P; intro H; try assumption; apply IHP; cbn [typeof] in H; intro N; rewrite N in H; cbn [obind] in H;
    try (apply H; reflexivity); destruct (typeof G l); apply H; reflexivity.
Qed.

Lemma has_leaf t (n n' : node F) : adjoint n t = Some n' -> exists m, leaf m /\ part m n.
Proof.
  revert n'; induction n; intros n' A; cbn [adjoint] in A; try discriminate.
  - eexists; split; [left; eauto|constructor].
  - eexists; split; [right; left; eauto|constructor].
  - eexists; split; [right; right; eauto|constructor].
  - destruct (ident_eqb k t); [|discriminate]; destruct (IHn _ A) as (m & L & P); exists m; split; [exact L|constructor; exact P].
  - opened; destruct (IHn _ eq_refl) as (m & L & P); exists m; split; [exact L|constructor; exact P].
  - destruct (IHn _ A) as (m & L & P); exists m; split; [exact L|constructor; exact P].
  - opened; destruct (IHn1 _ eq_refl) as (m & L & P); exists m; split; [exact L|constructor; exact P].
  - opened; destruct (IHn1 _ eq_refl) as (m & L & P); exists m; split; [exact L|constructor; exact P].
  - opened; destruct (IHn1 _ eq_refl) as (m & L & P); exists m; split; [exact L|constructor; exact P].
  - opened; destruct (IHn1 _ eq_refl) as (m & L & P); exists m; split; [exact L|constructor; exact P].
  - opened; destruct (IHn1 _ eq_refl) as (m & L & P); exists m; split; [exact L|constructor; exact P].
  - opened; destruct (IHn1 _ eq_refl) as (m & L & P); exists m; split; [exact L|constructor; exact P].
Qed.

Lemma leaf_derives G (m m' : node F) t : leaf m -> adjoint m t = Some m' -> typeof G m' <> None ->
  exists k kt k', typeof G m = Some k /\ G t = Some kt /\ typeof G m' = Some k' /\ derives k kt k'.
Proof.
  intros [(i & ->)|[(i & u & ->)|(v & ->)]] A H; cbn [adjoint] in A; injection A as <-.
  - cbn [typeof] in *; opened. cbn [obind] in *; destruct (self_concat s); [|congruence].
    destruct (adj_sty s s0) as [k'|] eqn:K; [|congruence]. exists s, s0, k'; repeat split; auto; apply derives_iff, K.
  - change (typeof G (ConstAdj (VarAdj i u : node F) t)) with
      (obind (typeof G (VarAdj i u : node F)) (fun km => obind (G t) (fun kt => adj_sty km kt))) in *.
    destruct (typeof G (VarAdj i u)) as [k|]; [|cbn in H; congruence]; destruct (G t) as [kt|]; [|cbn in H; congruence]; cbn [obind] in *.
    destruct (adj_sty k kt) as [k'|] eqn:K; [|congruence]. exists k, kt, k'; repeat split; auto; apply derives_iff, K.
  - cbn [typeof] in *; cbn [obind] in *; destruct (G t) as [kt|]; [|cbn in H; congruence]; cbn [obind] in *.
    destruct (adj_sty _ kt) as [k'|] eqn:K; [|congruence]. eexists _, kt, k'; repeat split; auto; apply derives_iff, K.
Qed.

Lemma leaves_derive G (n n' m : node F) t : adjoint n t = Some n' -> typeof G n' <> None -> leaf m -> part m n ->
  exists k kt k', typeof G m = Some k /\ G t = Some kt /\ derives k kt k'.
Proof.
  intros A H L P; destruct (leaf_part t m L n n' P A) as (m' & Em & Pm).
  destruct (leaf_derives G m m' t L Em (part_typed G _ _ Pm H)) as (k & kt & k' & ? & ? & _ & ?); eauto 8.
Qed.

Lemma no_heap G (n n' : node F) t : adjoint n t = Some n' -> typeof G n' <> None ->
  G t <> Some KV /\ forall m, leaf m -> part m n -> typeof G m <> Some KV.
Proof.
  intros A H; assert (K : forall l r k, derives l r k -> l <> KV /\ r <> KV).
  { intros l r k D; split; intros ->; inversion D; subst; match goal with H : has_dims KV _ |- _ => inversion H end. }
  split.
  - destruct (has_leaf t n n' A) as (m & L & P); destruct (leaves_derive G n n' m t A H L P) as (k & kt & k' & _ & E & D).
    rewrite E; intro Q; injection Q as ->; destruct (K _ _ _ D); congruence.
  - intros m L P; destruct (leaves_derive G n n' m t A H L P) as (k & kt & k' & E & _ & D).
    rewrite E; intro Q; injection Q as ->; destruct (K _ _ _ D); congruence.
Qed.

Lemma no_pairs G (n n' : node F) t : adjoint n t = Some n' -> typeof G n' <> None -> G t = Some KT ->
  forall m, leaf m -> part m n -> typeof G m <> Some KT.
Proof.
  intros A H T m L P; destruct (leaves_derive G n n' m t A H L P) as (k & kt & k' & E & E' & D).
  rewrite T in E'; injection E' as <-; rewrite E; intro Q; injection Q as ->.
  inversion D; subst; match goal with H : _ \/ _ |- _ => destruct H as [[? ?]|[? ?]]; discriminate end.
Qed.

(** By a scalar. *)
Lemma few_derives k most : most <= 5 -> few_axes most k -> derives k KS k.
Proof.
  destruct k; cbn; intros M H; try constructor; try contradiction.
  rewrite <- (app_nil_r ds) at 2; apply derives_array; [constructor|constructor|eauto|cbn; lia].
Qed.
Lemma derives_few k k' : derives k KS k' -> few_axes 5 k.
Proof. intro D; inversion D as [| | |l r a b A B X L E1 E2 E3]; subst; cbn; auto. inversion B; subst; destruct A; cbn in *; auto; lia. Qed.

Lemma zips_comm l r k : zip_sty l r = Some k -> zip_sty r l = Some k.
Proof. intro H; apply zips_iff in H; apply zips_iff; destruct H; constructor; assumption. Qed.
Lemma zips_idem k : zip_sty k k = Some k.
Proof. apply zips_iff; constructor. Qed.
Lemma zips_again l r k : zip_sty l r = Some k -> zip_sty k r = Some k.
Proof. intro H; apply zips_iff in H; apply zips_iff; destruct H; constructor; assumption. Qed.

Definition leaves_few G (n : node F) : Prop := forall m k, leaf m -> part m n -> typeof G m = Some k ->
  few_axes (match m with Var _ => 3 | _ => 5 end) k.

Lemma by_scalar_typed G t : G t = Some KS -> forall (n n' : node F) k, scalar_sums G n -> typeof G n = Some k ->
  adjoint n t = Some n' -> leaves_few G n -> typeof G n' = Some k.
Proof.
  intro T; induction n; intros n' ty Sc Ty A L; cbn [adjoint] in A; try discriminate.
  - injection A as <-; cbn [typeof] in *; rewrite Ty, T; cbn [obind].
    assert (W : few_axes 3 ty) by (apply (L (Var i)); [left; eauto|constructor|exact Ty]).
    assert (D := few_derives ty 3 ltac:(lia) W); destruct (derives_dims _ _ _ D) as [a Ha].
    rewrite (proj2 (self_concat_iff ty a Ha)); [apply derives_iff, D|]. destruct Ha; cbn in *; lia.
  - injection A as <-; assert (W : few_axes 5 ty) by (apply (L (VarAdj i t0)); [right; left; eauto|constructor|exact Ty]).
    change (obind (typeof G (VarAdj i t0 : node F)) (fun km => obind (G t) (fun kt => adj_sty km kt)) = Some ty).
    rewrite Ty, T; cbn [obind]; apply derives_iff, (few_derives ty 5); [lia|exact W].
  - injection A as <-; assert (W : few_axes 5 ty) by (apply (L (Const v)); [right; right; eauto|constructor|exact Ty]).
    change (obind (typeof G (Const v)) (fun km => obind (G t) (fun kt => adj_sty km kt)) = Some ty).
    rewrite Ty, T; cbn [obind]; apply derives_iff, (few_derives ty 5); [lia|exact W].
  - destruct (ident_eqb k t) eqn:I; [|discriminate]. cbn [typeof] in Ty; opened.
    rewrite (IHn n' s Sc eq_refl A); [|intros m q Lm Pm; apply L; [exact Lm|constructor; exact Pm]].
    destruct s, s0; try discriminate; try exact Ty. destruct (dims_eqb _ _); [exact Ty|discriminate].
  - opened. cbn [typeof] in Ty. rename n0 into m'.
    assert (W : typeof G m' = Some ty) by (apply IHn; auto; intros m q Lm Pm; apply L; [exact Lm|constructor; exact Pm]).
    destruct u; cbn [un_adjoint] in A; try discriminate; injection A as <-; cbn [typeof]; rewrite ?W, ?Ty; cbn [obind];
      try exact W; rewrite ?zips_idem; cbn [obind]; rewrite ?zips_idem; auto.
  - cbn [typeof scalar_sums] in *; destruct Sc as [Sk Sc]; rewrite Sk in Ty; injection Ty as <-.
    apply IHn; auto; intros m q Lm Pm; apply L; [exact Lm|constructor; exact Pm].
  - opened; injection A as <-; cbn [typeof scalar_sums] in *; destruct Sc as [S1 S2]; opened; destruct s, s0; try discriminate.
    assert (W1 := IHn1 _ KS S1 eq_refl eq_refl ltac:(intros m q Lm Pm; apply L; [exact Lm|apply part_power_l; exact Pm])).
    assert (W2 := IHn2 _ KS S2 eq_refl eq_refl ltac:(intros m q Lm Pm; apply L; [exact Lm|apply part_power_r; exact Pm])).
    rewrite W1, W2; injection Ty as <-; reflexivity.
  - opened; injection A as <-; cbn [typeof scalar_sums] in *; destruct Sc as [S1 S2]; opened.
    rewrite (IHn1 _ s S1 eq_refl eq_refl) by (intros m q Lm Pm; apply L; [exact Lm|apply part_add_l; exact Pm]).
    rewrite (IHn2 _ s0 S2 eq_refl eq_refl) by (intros m q Lm Pm; apply L; [exact Lm|apply part_add_r; exact Pm]).
    exact Ty.
  - opened; injection A as <-; cbn [typeof scalar_sums] in *; destruct Sc as [S1 S2]; opened.
    rewrite (IHn1 _ s S1 eq_refl eq_refl) by (intros m q Lm Pm; apply L; [exact Lm|apply part_sub_l; exact Pm]).
    rewrite (IHn2 _ s0 S2 eq_refl eq_refl) by (intros m q Lm Pm; apply L; [exact Lm|apply part_sub_r; exact Pm]).
    exact Ty.
  - opened; injection A as <-; cbn [typeof scalar_sums] in *; destruct Sc as [S1 S2]; opened.
    rewrite (IHn1 _ s S1 eq_refl eq_refl) by (intros m q Lm Pm; apply L; [exact Lm|apply part_mul_l; exact Pm]).
    rewrite (IHn2 _ s0 S2 eq_refl eq_refl) by (intros m q Lm Pm; apply L; [exact Lm|apply part_mul_r; exact Pm]).
    cbn [obind]; rewrite Ty, (zips_comm _ _ _ Ty); apply zips_idem.
  - opened; injection A as <-; cbn [typeof scalar_sums] in *; destruct Sc as [S1 S2]; opened.
    rewrite (IHn1 _ s S1 eq_refl eq_refl) by (intros m q Lm Pm; apply L; [exact Lm|apply part_div_l; exact Pm]).
    rewrite (IHn2 _ s0 S2 eq_refl eq_refl) by (intros m q Lm Pm; apply L; [exact Lm|apply part_div_r; exact Pm]).
    cbn [obind]; rewrite Ty, (zips_comm _ _ _ Ty); cbn [obind]; rewrite zips_idem; cbn [obind]; exact (zips_again _ _ _ Ty).
  - opened; injection A as <-; cbn [typeof scalar_sums] in *; destruct Sc as [S1 S2]; opened.
    rewrite (IHn1 _ s S1 eq_refl eq_refl) by (intros m q Lm Pm; apply L; [exact Lm|apply part_contract_l; exact Pm]).
    rewrite (IHn2 _ s0 S2 eq_refl eq_refl) by (intros m q Lm Pm; apply L; [exact Lm|apply part_contract_r; exact Pm]).
    cbn [obind]; rewrite Ty; apply zips_idem.
Qed.

Lemma by_scalar G (n n' : node F) t k : scalar_sums G n -> typeof G n = Some k -> G t = Some KS ->
  adjoint n t = Some n' ->
  (typeof G n' <> None <->
   forall m km, leaf m -> part m n -> typeof G m = Some km -> few_axes (match m with Var _ => 3 | _ => 5 end) km).
Proof.
  intros Sc Ty T A; split.
  - intros H m km L P Em; destruct (leaf_part t m L n n' P A) as (m' & Am & Pm).
    assert (Hm := part_typed G _ _ Pm H).
    destruct (leaf_derives G m m' t L Am Hm) as (q & kt & q' & E1 & E2 & E3 & D).
    rewrite Em in E1; injection E1 as <-; rewrite T in E2; injection E2 as <-.
    assert (W := derives_few _ _ D); destruct L as [(i & ->)|[(i & u & ->)|(v & ->)]]; try exact W.
    cbn [adjoint] in Am; injection Am as <-; cbn [typeof] in *; rewrite Em, T in Hm; cbn [obind] in Hm.
    destruct (self_concat km) eqn:C; [|congruence]. destruct (derives_dims _ _ _ D) as [a Ha].
    apply (proj1 (self_concat_iff km a Ha)) in C; destruct Ha; cbn in *; auto; lia.
  - intro L; rewrite (by_scalar_typed G t T n n' k Sc Ty A L); discriminate.
Qed.

(** By a pair, over scalars. *)
Definition scalar_leaves G (n : node F) : Prop := forall m, leaf m -> part m n -> typeof G m = Some KS.

Lemma scalar_leaves_type G t (n n' : node F) : adjoint n t = Some n' -> scalar_leaves G n ->
  forall k, typeof G n = Some k -> k = KS.
Proof.
  revert n'; induction n; intros n' A L ty Ty; cbn [adjoint] in A; try discriminate.
  - specialize (L (Var i) ltac:(left; eauto) (part_self _)); congruence.
  - specialize (L (VarAdj i t0) ltac:(right; left; eauto) (part_self _)); congruence.
  - specialize (L (Const v) ltac:(right; right; eauto) (part_self _)); congruence.
  - destruct (ident_eqb k t); [|discriminate]; cbn [typeof] in Ty; opened.
    rewrite (IHn n' A ltac:(intros m Lm Pm; apply L; [exact Lm|constructor; exact Pm]) s eq_refl) in Ty.
    destruct s0; congruence.
  - opened; eapply IHn; eauto. intros m Lm Pm; apply L; [exact Lm|constructor; exact Pm].
  - cbn [typeof] in Ty; opened; congruence.
  - cbn [typeof] in Ty; opened; destruct s, s0; congruence.
  - opened; cbn [typeof] in Ty; opened.
    assert (s = KS) by (eapply IHn1; eauto; intros m Lm Pm; apply L; [exact Lm|apply part_add_l; exact Pm]).
    assert (s0 = KS) by (eapply IHn2; eauto; intros m Lm Pm; apply L; [exact Lm|apply part_add_r; exact Pm]).
    subst; cbn in Ty; congruence.
  - opened; cbn [typeof] in Ty; opened.
    assert (s = KS) by (eapply IHn1; eauto; intros m Lm Pm; apply L; [exact Lm|apply part_sub_l; exact Pm]).
    assert (s0 = KS) by (eapply IHn2; eauto; intros m Lm Pm; apply L; [exact Lm|apply part_sub_r; exact Pm]).
    subst; cbn in Ty; congruence.
  - opened; cbn [typeof] in Ty; opened.
    assert (s = KS) by (eapply IHn1; eauto; intros m Lm Pm; apply L; [exact Lm|apply part_mul_l; exact Pm]).
    assert (s0 = KS) by (eapply IHn2; eauto; intros m Lm Pm; apply L; [exact Lm|apply part_mul_r; exact Pm]).
    subst; cbn in Ty; congruence.
  - opened; cbn [typeof] in Ty; opened.
    assert (s = KS) by (eapply IHn1; eauto; intros m Lm Pm; apply L; [exact Lm|apply part_div_l; exact Pm]).
    assert (s0 = KS) by (eapply IHn2; eauto; intros m Lm Pm; apply L; [exact Lm|apply part_div_r; exact Pm]).
    subst; cbn in Ty; congruence.
  - opened; cbn [typeof] in Ty; opened.
    assert (s = KS) by (eapply IHn1; eauto; intros m Lm Pm; apply L; [exact Lm|apply part_contract_l; exact Pm]).
    assert (s0 = KS) by (eapply IHn2; eauto; intros m Lm Pm; apply L; [exact Lm|apply part_contract_r; exact Pm]).
    subst; destruct axes as [|[|?]]; cbn in Ty; congruence.
Qed.

Definition pair_decided G (n n' : node F) : Prop :=
  (forall m, part m n -> plain_rule m) /\ typeof G n' = Some KT \/
  ~ (forall m, part m n -> plain_rule m) /\ typeof G n' = None.

Lemma pair_two G (n l r n' l' r' : node F) : plain_rule n -> (forall m, part m n <-> m = n \/ part m l \/ part m r) ->
  pair_decided G l l' -> pair_decided G r r' ->
  typeof G n' = obind (typeof G l') (fun kl => obind (typeof G r') (fun kr => zip_sty kl kr)) -> pair_decided G n n'.
Proof.
  intros Pn P Dl Dr E; unfold pair_decided; rewrite E.
  destruct Dl as [[Yl ->]|[Yl ->]]; [|right; split; [intro H; apply Yl; intros m Pm; apply H, P; auto|reflexivity]].
  destruct Dr as [[Yr ->]|[Yr ->]]; [|right; split; [intro H; apply Yr; intros m Pm; apply H, P; auto|reflexivity]].
  left; split; [|reflexivity]. intros m Pm; apply P in Pm as [->|[Pm|Pm]]; auto.
Qed.

Lemma by_pair_decided G t : G t = Some KT -> forall (n n' : node F), scalar_leaves G n -> typeof G n = Some KS ->
  adjoint n t = Some n' -> pair_decided G n n'.
Proof.
  intro T; induction n; intros n' L Ty A; cbn [adjoint] in A; try discriminate.
  - injection A as <-; left; split; [intros m P; inversion P; exact I|]. cbn [typeof] in *; rewrite Ty, T; reflexivity.
  - injection A as <-; left; split; [intros m P; inversion P; exact I|].
    change (obind (typeof G (VarAdj i t0 : node F)) (fun km => obind (G t) (fun kt => adj_sty km kt)) = Some KT).
    rewrite Ty, T; reflexivity.
  - injection A as <-; left; split; [intros m P; inversion P; exact I|].
    change (obind (typeof G (Const v)) (fun km => obind (G t) (fun kt => adj_sty km kt)) = Some KT).
    rewrite Ty, T; reflexivity.
  - destruct (ident_eqb k t) eqn:I; [|discriminate]; apply Nat.eqb_eq in I; subst k.
    cbn [typeof] in Ty; opened. assert (s0 = KT) by congruence; subst; destruct s; discriminate.
  - opened; rename n0 into m'.
    destruct (IHn m' ltac:(intros m Lm Pm; apply L; [exact Lm|constructor; exact Pm]) Ty eq_refl) as [[Y D]|[Y D]].
    + assert (Q : affine u \/ ~ affine u).
      { destruct u; unfold affine; cbn [In]; (left; tauto) || (right; intuition discriminate). }
      destruct Q as [Q|Q].
      * left; split; [intros m P; inversion P; subst; [exact Q|auto]|].
        unfold affine in Q; cbn [In] in Q.
        repeat (destruct Q as [<-|Q]); try (destruct Q; fail); cbn [un_adjoint] in A; injection A as <-; exact D.
      * right; split; [intro H; apply Q; exact (H (Un u n) (part_self _))|].
        cbn [typeof] in Ty.
        destruct u; cbn [un_adjoint] in A; try discriminate; try (exfalso; apply Q; unfold affine; cbn [In]; tauto);
          injection A as <-; cbn [typeof]; rewrite ?Ty, ?D; reflexivity.
    + right; split; [intro H; apply Y; intros m Pm; apply H; constructor; exact Pm|].
      cbn [typeof] in Ty.
      destruct u; cbn [un_adjoint] in A; try discriminate; injection A as <-; cbn [typeof]; rewrite ?Ty, ?D; reflexivity.
  - cbn [typeof] in Ty; opened.
    assert (s = KS) by (eapply scalar_leaves_type; eauto; intros m Lm Pm; apply L; [exact Lm|constructor; exact Pm]); subst.
    destruct (IHn n' ltac:(intros m Lm Pm; apply L; [exact Lm|constructor; exact Pm]) eq_refl A) as [[Y D]|[Y D]].
    + left; split; [intros m P; inversion P; subst; [exact I|auto]|exact D].
    + right; split; [intro H; apply Y; intros m Pm; apply H; constructor; exact Pm|exact D].
  - opened; injection A as <-; right; split; [intro H; exact (H _ (part_self _))|]; cbn [typeof] in *; opened; destruct s, s0; try discriminate.
    cbn [obind]. destruct (IHn1 _ ltac:(intros m Lm Pm; apply L; [exact Lm|apply part_power_l; exact Pm]) eq_refl eq_refl) as [[_ ->]|[_ ->]]; reflexivity.
  - opened; injection A as <-; assert (T0 := Ty); cbn [typeof] in T0; opened.
    assert (L1 : scalar_leaves G n1) by (intros m Lm Pm; apply L; [exact Lm|apply part_add_l; exact Pm]).
    assert (L2 : scalar_leaves G n2) by (intros m Lm Pm; apply L; [exact Lm|apply part_add_r; exact Pm]).
    assert (s = KS) by exact (scalar_leaves_type G t n1 n E L1 s E1); assert (s0 = KS) by exact (scalar_leaves_type G t n2 n0 E0 L2 s0 E2); subst.
    apply (pair_two G (Add n1 n2) n1 n2 (Add n n0) n n0 Logic.I); auto.
    intro m; split; [intro P; inversion P; auto|intros [->|[P|P]]; [constructor|apply part_add_l; exact P|apply part_add_r; exact P]].
  - opened; injection A as <-; assert (T0 := Ty); cbn [typeof] in T0; opened.
    assert (L1 : scalar_leaves G n1) by (intros m Lm Pm; apply L; [exact Lm|apply part_sub_l; exact Pm]).
    assert (L2 : scalar_leaves G n2) by (intros m Lm Pm; apply L; [exact Lm|apply part_sub_r; exact Pm]).
    assert (s = KS) by exact (scalar_leaves_type G t n1 n E L1 s E1); assert (s0 = KS) by exact (scalar_leaves_type G t n2 n0 E0 L2 s0 E2); subst.
    apply (pair_two G (Sub n1 n2) n1 n2 (Sub n n0) n n0 Logic.I); auto.
    intro m; split; [intro P; inversion P; auto|intros [->|[P|P]]; [constructor|apply part_sub_l; exact P|apply part_sub_r; exact P]].
  - opened; injection A as <-; right; split; [intro H; exact (H _ (part_self _))|]; cbn [typeof] in *; opened.
    assert (L1 : scalar_leaves G n1) by (intros m Lm Pm; apply L; [exact Lm|apply part_mul_l; exact Pm]).
    assert (L2 : scalar_leaves G n2) by (intros m Lm Pm; apply L; [exact Lm|apply part_mul_r; exact Pm]).
    assert (s = KS) by exact (scalar_leaves_type G t n1 n E L1 s E1); assert (s0 = KS) by exact (scalar_leaves_type G t n2 n0 E0 L2 s0 E2); subst.
    destruct (IHn1 _ L1 eq_refl eq_refl) as [[_ ->]|[_ ->]]; reflexivity.
  - opened; injection A as <-; right; split; [intro H; exact (H _ (part_self _))|]; cbn [typeof] in *; opened.
    assert (L1 : scalar_leaves G n1) by (intros m Lm Pm; apply L; [exact Lm|apply part_div_l; exact Pm]).
    assert (L2 : scalar_leaves G n2) by (intros m Lm Pm; apply L; [exact Lm|apply part_div_r; exact Pm]).
    assert (s = KS) by exact (scalar_leaves_type G t n1 n E L1 s E1); assert (s0 = KS) by exact (scalar_leaves_type G t n2 n0 E0 L2 s0 E2); subst.
    destruct (IHn1 _ L1 eq_refl eq_refl) as [[_ ->]|[_ ->]]; reflexivity.
  - opened; injection A as <-; right; split; [intro H; exact (H _ (part_self _))|]; cbn [typeof] in *; opened.
    assert (L1 : scalar_leaves G n1) by (intros m Lm Pm; apply L; [exact Lm|apply part_contract_l; exact Pm]).
    assert (L2 : scalar_leaves G n2) by (intros m Lm Pm; apply L; [exact Lm|apply part_contract_r; exact Pm]).
    assert (s = KS) by exact (scalar_leaves_type G t n1 n E L1 s E1); assert (s0 = KS) by exact (scalar_leaves_type G t n2 n0 E0 L2 s0 E2); subst.
    cbn [obind]; destruct (IHn2 _ L2 eq_refl eq_refl) as [[_ ->]|[_ ->]]; cbn [obind]; [|reflexivity].
    destruct axes as [|[|?]]; reflexivity.
Qed.

Lemma by_pair G (n n' : node F) t k : typeof G n = Some k -> G t = Some KT -> adjoint n t = Some n' ->
  (forall m, leaf m -> part m n -> typeof G m = Some KS) ->
  (typeof G n' <> None <-> forall m, part m n -> plain_rule m).
Proof.
  intros Ty T A L; rewrite (scalar_leaves_type G t n n' A L k Ty) in Ty.
  destruct (by_pair_decided G t T n n' L Ty A) as [[Y D]|[Y D]]; rewrite D; split; auto; congruence.
Qed.

Lemma by_scalar_same G (n n' : node F) t k k' : scalar_sums G n -> typeof G n = Some k -> G t = Some KS ->
  adjoint n t = Some n' -> typeof G n' = Some k' -> k' = k.
Proof.
  intros Sc Ty T A E. assert (L := proj1 (by_scalar G n n' t k Sc Ty T A) ltac:(congruence)).
  rewrite (by_scalar_typed G t T n n' k Sc Ty A L) in E; congruence.
Qed.
End Leaves.
