(** Facts about the shape and structure of adjoint trees. *)
From Coq Require Import List Arith Bool Lia.
Import ListNotations.
From Verif Require Import Base Shapes Scalar Buffers Spec Contraction Node Eval Types Vocab Math
  Index_facts Shapes_facts Buffers_facts Typing_facts Eval_facts Math_claims.

(** Dimensions of the result of an elementwise operator. *)
Definition zip_dims (a b d : list nat) : Prop :=
  (a = b /\ d = a) \/ (a = [] /\ d = b) \/ (b = [] /\ d = a).

Definition contract_dims (axes : nat) (a b d : list nat) : Prop :=
  match axes with
  | 0 => d = a ++ b
  | _ => (a = [] /\ b = [] /\ d = []) \/
         (exists n, a = [n] /\ b = [n] /\ d = []) \/
         (exists n m, a = [n; m] /\ b = [n] /\ d = [m]) \/
         (exists n z m, a = [n; z] /\ b = [z; m] /\ d = [n; m]) \/
         (exists n m, a = [n] /\ b = [n; m] /\ d = [m])
  end.

Lemma zip_sty_dims kl kr k a b :
  zip_sty kl kr = Some k -> sty_dims kl = Some a -> sty_dims kr = Some b ->
  exists d, sty_dims k = Some d /\ zip_dims a b d.
Proof.
  unfold zip_dims; destruct kl, kr; simpl; intros Z A B; try discriminate;
    try (destruct (dims_eqb ds ds0) eqn:Q in Z; [apply dims_eqb_eq in Q; subst|discriminate Z]);
    inversion Z; inversion A; inversion B; subst; simpl;
    eexists; (split; [reflexivity|auto]).
Qed.

Ltac some_inv := repeat match goal with H : Some _ = Some _ |- _ => injection H as H; subst end.

Lemma contract_sty_dims axes kl kr k a b :
  contract_sty axes kl kr = Some k -> sty_dims kl = Some a -> sty_dims kr = Some b ->
  exists d, sty_dims k = Some d /\ contract_dims axes a b d.
Proof.
  intros C A B; destruct axes as [|[|axes]]; [| |destruct kl, kr; discriminate].
  - destruct kl as [| | |[|n [|m [|? ?]]]], kr as [| | |[|n' [|m' [|? ?]]]]; simpl in *; try discriminate;
      some_inv; simpl; eexists; (split; reflexivity).
  - destruct kl as [| | |[|n [|m [|? ?]]]], kr as [| | |[|n' [|m' [|? ?]]]]; simpl in *; try discriminate;
      try (match goal with H : context [Nat.eqb ?x ?y] |- _ =>
             destruct (Nat.eqb_spec x y); [subst|discriminate H] end); some_inv; simpl;
      eexists; (split; [reflexivity|eauto 12]).
Qed.

Lemma adj_sty_dims kl kt k : adj_sty kl kt = Some k ->
  exists a b, sty_dims kl = Some a /\ sty_dims kt = Some b /\ sty_dims k = Some (a ++ b).
Proof.
  unfold adj_sty; destruct (sty_dims kl) as [a|], (sty_dims kt) as [b|]; try discriminate.
  destruct (shape_concat (St a) (St b)) as [s|] eqn:S; [|discriminate].
  apply shape_concat_dims in S; subst s; intro H.
  destruct (mk_bty _ _) as [ty|] eqn:M; [|discriminate]; simpl in H; some_inv.
  apply mk_bty_shape in M; exists a, b; split; auto; split; auto.
  destruct ty; simpl in *; inversion M; auto.
Qed.

Lemma app_id_r (a b : list nat) : a ++ b = a -> b = [].
Proof.
  intro H; apply (f_equal (@length nat)) in H; rewrite app_length in H; destruct b; auto; simpl in H; lia.
Qed.
Lemma app_id_l (a b : list nat) : a ++ b = b -> a = [].
Proof.
  intro H; apply (f_equal (@length nat)) in H; rewrite app_length in H; destruct a; auto; simpl in H; lia.
Qed.

Ltac lists :=
  repeat (match goal with
  | H : ?x = ?x |- _ => clear H
  | H : ?a ++ ?b = [] |- _ => apply app_eq_nil in H; destruct H
  | H : [] = ?a ++ ?b |- _ => symmetry in H
  | H : ?a ++ ?b = ?a |- _ => apply app_id_r in H
  | H : ?a = ?a ++ ?b |- _ => symmetry in H; apply app_id_r in H
  | H : ?a ++ ?b = ?b |- _ => apply app_id_l in H
  | H : ?b = ?a ++ ?b |- _ => symmetry in H; apply app_id_l in H
  | H : ?a ++ ?b = ?a ++ ?c |- _ => apply app_inv_head in H
  | H : ?a ++ ?b = ?c ++ ?b |- _ => apply app_inv_tail in H
  | H : _ \/ _ |- _ => destruct H
  | H : _ /\ _ |- _ => destruct H
  end; subst; rewrite ?app_nil_r in *; cbn [app] in *); auto; try congruence.

Lemma zip_self d T e : zip_dims d (d ++ T) e -> e = d ++ T /\ (d = [] \/ T = []).
Proof. unfold zip_dims; intro H; lists. Qed.
Lemma zip_self_r d T e : zip_dims (d ++ T) d e -> e = d ++ T /\ (d = [] \/ T = []).
Proof. unfold zip_dims; intro H; lists. Qed.
Lemma zip_both dl dr d T e :
  zip_dims dl dr d -> zip_dims (dl ++ T) (dr ++ T) e -> e = d ++ T /\ (T = [] \/ dl = dr).
Proof. unfold zip_dims; intros H1 H2; lists. Qed.
Lemma zip_mul dl dr d T x y e :
  zip_dims dl dr d -> zip_dims (dl ++ T) dr x -> zip_dims (dr ++ T) dl y -> zip_dims x y e ->
  e = d ++ T /\ (T = [] \/ (dl = [] /\ dr = [])).
Proof. unfold zip_dims; intros H1 H2 H3 H4; lists. Qed.
Lemma zip_div dl dr d T x y z e :
  zip_dims dl dr d -> zip_dims dr (dl ++ T) x -> zip_dims dl (dr ++ T) y -> zip_dims x y z ->
  zip_dims z dr e ->
  e = d ++ T /\ (T = [] \/ (dl = [] /\ dr = [])).
Proof. unfold zip_dims; intros H1 H2 H3 H4 H5; lists. Qed.

Lemma contract_adj axes dl dr d T x y e :
  contract_dims axes dl dr d -> contract_dims axes dl (dr ++ T) x ->
  contract_dims axes (dl ++ T) dr y -> zip_dims x y e ->
  e = d ++ T /\ x = d ++ T /\ y = d ++ T.
Proof.
  destruct axes as [|axes].
  - simpl; intros -> -> -> Z; unfold zip_dims in Z; rewrite <- !app_assoc in *.
    assert (L : length (dl ++ dr ++ T) = length (dl ++ T ++ dr)) by (rewrite !app_length; lia).
    destruct Z as [[E ->]|[[E ->]|[E ->]]]; auto.
    + rewrite E in L; rewrite E; revert L; destruct (dl ++ T ++ dr); auto; discriminate.
    + rewrite E in L; rewrite E; revert L; destruct (dl ++ dr ++ T); auto; discriminate.
  - intros C1 C2 C3 Z; unfold zip_dims in Z; cbn [contract_dims] in *.
    destruct T as [|p [|q T]].
    + rewrite !app_nil_r in *.
      repeat match goal with
      | H : _ \/ _ |- _ => destruct H
      | H : _ /\ _ |- _ => destruct H
      | H : exists _, _ |- _ => destruct H
      end; subst; try discriminate;
      repeat match goal with H : _ :: _ = _ :: _ |- _ => injection H; intros; clear H; subst end; auto.
    + repeat match goal with
      | H : _ \/ _ |- _ => destruct H
      | H : _ /\ _ |- _ => destruct H
      | H : exists _, _ |- _ => destruct H
      end; subst; try discriminate; simpl in *; try discriminate;
      repeat match goal with H : _ :: _ = _ :: _ |- _ => injection H; intros; clear H; subst end; auto;
      try discriminate.
    + exfalso; repeat match goal with
      | H : _ \/ _ |- _ => destruct H
      | H : _ /\ _ |- _ => destruct H
      | H : exists _, _ |- _ => destruct H
      end; subst; try discriminate; simpl in *; try discriminate;
      repeat match goal with H : _ :: _ = _ :: _ |- _ => injection H; intros; clear H; subst end; auto;
      try discriminate.
Qed.

Lemma sum_free_scalar {F} G (n : node F) : sum_free n = true -> scalar_sums G n.
Proof.
  induction n; simpl; auto; try discriminate; intro H; apply andb_true_iff in H; destruct H; auto.
Qed.

Ltac obs := repeat match goal with
  | H : obind ?o ?f = Some _ |- _ =>
      let a := fresh "k" in let E := fresh "T" in
      apply obind_some in H; destruct H as (a & E & H); cbn beta in H
  | H : Some _ = Some _ |- _ => injection H as H; subst
  end.

Ltac unis := repeat match goal with
  | H1 : typeof ?G ?n = Some ?a, H2 : typeof ?G ?n = Some ?b |- _ =>
      assert (a = b) by congruence; subst; clear H2
  | H1 : sty_dims ?k = Some ?a, H2 : sty_dims ?k = Some ?b |- _ =>
      assert (a = b) by congruence; subst; clear H2
  | H1 : ?G ?t = Some ?a, H2 : ?G ?t = Some ?b |- _ =>
      match type of a with sty => assert (a = b) by congruence; subst; clear H2 end
  end.
(** Apply the induction hypotheses to all typed adjoints in sight. *)
Ltac sat := unis; repeat match goal with
  | IH : forall n' k k', scalar_sums _ ?m -> adjoint ?m _ = Some n' -> _,
    S : scalar_sums _ ?m, A : adjoint ?m _ = Some ?m', T1 : typeof _ ?m = Some ?k1, T2 : typeof _ ?m' = Some ?k2 |- _ =>
      destruct (IH m' k1 k2 S A T1 T2) as (? & ? & ? & ? & ? & ? & ?); clear IH
  end.
Ltac zd := repeat match goal with
  | Z : zip_sty ?a ?b = Some ?c, A : sty_dims ?a = Some _, B : sty_dims ?b = Some _ |- _ =>
      let d := fresh "d" in let D := fresh "D" in let E := fresh "E" in
      destruct (zip_sty_dims _ _ _ _ _ Z A B) as (d & D & E); clear Z
  | Z : contract_sty _ ?a ?b = Some ?c, A : sty_dims ?a = Some _, B : sty_dims ?b = Some _ |- _ =>
      let d := fresh "d" in let D := fresh "D" in let E := fresh "E" in
      destruct (contract_sty_dims _ _ _ _ _ _ Z A B) as (d & D & E); clear Z
  end.
Ltac destruct_scal := repeat match goal with
  | H : match ?a with KS => _ | _ => _ end = Some _ |- _ => destruct a; try discriminate H
  end.
Lemma zip_same d e : zip_dims d d e -> e = d.
Proof. unfold zip_dims; intro H; lists. Qed.
Ltac finish := repeat match goal with
  | E : zip_dims ?d (?d ++ ?T) ?e |- _ => apply zip_self in E; destruct E as [E ?]; subst e
  | E : zip_dims (?d ++ ?T) ?d ?e |- _ => apply zip_self_r in E; destruct E as [E ?]; subst e
  | E : zip_dims ?d ?d ?e |- _ => apply zip_same in E; subst e
  | E1 : zip_dims ?a ?b ?d, E2 : zip_dims (?a ++ ?T) (?b ++ ?T) ?e |- _ =>
      destruct (zip_both _ _ _ _ _ E1 E2) as [? ?]; clear E2; subst e
  | E1 : zip_dims ?a ?b ?d, E2 : zip_dims (?a ++ ?T) ?b ?x, E3 : zip_dims (?b ++ ?T) ?a ?y, E4 : zip_dims ?x ?y ?e |- _ =>
      destruct (zip_mul _ _ _ _ _ _ _ E1 E2 E3 E4) as [? ?]; clear E4; subst e
  | E1 : zip_dims ?a ?b ?d, E2 : zip_dims ?b (?a ++ ?T) ?x, E3 : zip_dims ?a (?b ++ ?T) ?y, E4 : zip_dims ?x ?y ?z,
    E5 : zip_dims ?z ?b ?e |- _ =>
      destruct (zip_div _ _ _ _ _ _ _ _ E1 E2 E3 E4 E5) as [? ?]; clear E5; subst e
  | E1 : contract_dims _ ?a ?b ?d, E2 : contract_dims _ ?a (?b ++ ?T) ?x, E3 : contract_dims _ (?a ++ ?T) ?b ?y,
    E4 : zip_dims ?x ?y ?e |- _ =>
      destruct (contract_adj _ _ _ _ _ _ _ _ E1 E2 E3 E4) as (? & ? & ?); clear E4; subst e
  end; eauto 9.

(** Dimensions of the adjoint, and of everything it is made of. *)
Lemma adjoint_dims {F} G t (n n' : node F) k k' :
  scalar_sums G n -> adjoint n t = Some n' -> typeof G n = Some k -> typeof G n' = Some k' ->
  exists d T kt, sty_dims k = Some d /\ G t = Some kt /\ sty_dims kt = Some T /\
                 sty_dims k' = Some (d ++ T).
Proof.
  revert n' k k'; induction n; intros n' k0 k' Sc A Tn Tn'; simpl in Sc, A.
  - some_inv; simpl in Tn'; cbn [typeof] in Tn; obs.
    destruct (self_concat _); [|discriminate]; apply adj_sty_dims in Tn'.
    destruct Tn' as (a & b & D1 & D2 & D3); rewrite T in Tn; some_inv; eauto 9.
  - some_inv; cbn [typeof] in Tn, Tn'; rewrite Tn in Tn'; cbn [obind] in Tn'; clear Tn; obs.
    apply adj_sty_dims in Tn'; destruct Tn' as (a & b & D1 & D2 & D3); eauto 9.
  - some_inv; cbn [typeof] in Tn, Tn'; obs.
    apply adj_sty_dims in Tn'; destruct Tn' as (a & b & D1 & D2 & D3); eauto 9.
  - discriminate.
  - discriminate.
  - destruct (ident_eqb k t); [|discriminate]; simpl in Tn; obs.
    apply cached_type in Tn; subst; eapply IHn; eauto.
  - simpl in Tn; obs; destruct u; simpl in A; try discriminate; injection A as A; subst n'; cbn [typeof] in Tn';
      obs; sat; unis; zd; finish.
  - destruct Sc as [KSm Sc]; simpl in Tn; obs; rewrite KSm in T; some_inv.
    destruct (IHn _ _ _ Sc A KSm Tn') as (d & T & kt & D); eauto 9.
  - destruct Sc; simpl in Tn; obs; cbn [typeof] in Tn'; obs; sat; unis.
    destruct_scal; cbn [sty_dims] in *; some_inv; assert (DK : sty_dims KS = Some []) by reflexivity.
    zd; cbn [app] in *; unfold zip_dims in *; lists; eauto 9.
  - destruct Sc; simpl in Tn; obs; cbn [typeof] in Tn'; obs; sat; unis; zd; finish.
  - destruct Sc; simpl in Tn; obs; cbn [typeof] in Tn'; obs; sat; unis; zd; finish.
  - destruct Sc; simpl in Tn; obs; cbn [typeof] in Tn'; obs; sat; unis; zd; finish.
  - destruct Sc; simpl in Tn; obs; cbn [typeof] in Tn'; obs; sat; unis; zd; finish.
  - destruct Sc; simpl in Tn; obs; cbn [typeof] in Tn'; obs; sat; unis; zd; finish.
Qed.
