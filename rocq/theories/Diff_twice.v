(** Which second gradients type-check. *)
From Coq Require Import List Arith Bool Lia.
Import ListNotations.
From Verif Require Import Base Shapes Scalar Buffers Spec Contraction Node Eval Types Vocab
  Shapes_facts Buffers_facts Index_facts Math Instance_facts Adjoint_claims Diff_math Diff_claims Diff_types.

Section Twice.
Context {F : Type} (G : tenv) (t u : ident) (T U : list nat).
Hypothesis target : G t = Some (array_type T).
Hypothesis target2 : G u = Some (array_type U).
Hypothesis array : T <> [].
Hypothesis array2 : U <> [].

Definition all_once (n : node F) := forall m, part m n -> gradient_types G T m.
Definition all_twice (n : node F) := forall m, part m n -> gradient_twice G T U m.
Definition all_second (n : node F) := forall m, part m n -> gradient_types G U m.

Lemma below (m x : node F) : part m x -> array_types G x -> array_types G m.
Proof.
  intros P [A B]; split; [exact A|]; intros v Q; apply B; clear -P Q; induction P; try (constructor; assumption); assumption.
Qed.

Lemma once_typed (n n' : node F) s : array_types G n -> scalar_sums G n -> adjoint n t = Some n' ->
  typeof G n = Some (array_type s) -> all_once n -> typeof G n' = Some (array_type (s ++ T)).
Proof.
  intros Ga Sc A Tn H; destruct (gradient_decided G t T target n n' s Ga Sc A Tn) as [[_ D]|[N _]]; [exact D|destruct (N H)].
Qed.

Lemma all_of (C : node F -> Prop) n l : (forall m, part m n <-> m = n \/ Exists (part m) l) ->
  ((forall m, part m n -> C m) <-> C n /\ Forall (fun x => forall m, part m x -> C m) l).
Proof. apply all_types. Qed.

Lemma not_scalar s : Some (array_type (s ++ T)) <> Some KS.
Proof. destruct s; [destruct T; [congruence|discriminate]|discriminate]. Qed.
Lemma not_scalar0 : Some (array_type T) <> Some KS.
Proof. apply (not_scalar []). Qed.

Lemma twice_once_types (m : node F) : gradient_twice G T U m -> gradient_types G U m.
Proof.
  destruct m; cbn [gradient_twice gradient_types]; try tauto.
  - intros H s E; destruct (H s E); lia.
  - destruct axes; [|tauto]. intros (d & _ & -> & H1 & H2); right; left; split; [cbn; lia|auto].
Qed.

Lemma second_iff (n : node F) : forall n' n'' s,
  array_types G n -> scalar_sums G n -> adjoint n t = Some n' -> adjoint n' u = Some n'' ->
  typeof G n = Some (array_type s) ->
  (all_once n /\ all_second n' <-> all_twice n).
Proof.
  induction n; intros n' n'' sh Ga Sc A A2 Tn; cbn [adjoint] in A.
  - injection A as <-. unfold all_once, all_second, all_twice.
    rewrite (all_of (gradient_types G T) (Var i) []), (all_of (gradient_twice G T U) (Var i) []),
      (all_of (gradient_types G U) (VarAdj i t) []) by parts.
    cbn [gradient_types gradient_twice typeof] in *; rewrite Tn, target; cbn [obind].
    split.
    + intros [[H1 _] [H2 _]]; split; [|constructor]. intros s E; injection E as E; apply array_inj in E; subst s.
      destruct (H1 sh eq_refl) as [B1 B2]; split; [exact B1|].
      rewrite self_array, adj_array in H2; destruct (Nat.leb_spec (length sh) 3); [|lia].
      destruct (Nat.leb_spec (length sh + length T) 5); [|lia].
      specialize (H2 _ eq_refl); rewrite app_length in H2; exact H2.
    + intros [H _]. destruct (H sh eq_refl) as [B1 B2]. split; (split; [|constructor]).
      * intros s E; injection E as E; apply array_inj in E; subst s; lia.
      * intros s; rewrite self_array, adj_array. destruct (Nat.leb_spec (length sh) 3); [|lia].
        destruct (Nat.leb_spec (length sh + length T) 5); [|lia].
        intro E; injection E as E; apply array_inj in E; subst s; rewrite app_length; lia.
  - injection A as <-; discriminate.
  - injection A as <-; discriminate.
  - discriminate.
  - discriminate.
  - destruct (ident_eqb k t) eqn:E; [|discriminate].
    assert (Tm : typeof G n = Some (array_type sh)).
    { cbn [typeof] in Tn; destruct (typeof G n) as [km|] eqn:Em; [|discriminate]; destruct (G k) as [kc|]; [|discriminate]; cbn [obind] in Tn.
      destruct km, kc; try discriminate; try exact Tn. destruct (dims_eqb ds ds0); [exact Tn|discriminate]. }
    specialize (IHn n' n'' sh (below _ _ (part_cached n n k (part_self n)) Ga) Sc A A2 Tm).
    unfold all_once, all_second, all_twice in *.
    rewrite (all_of (gradient_types G T) (Cached n k) [n]), (all_of (gradient_twice G T U) (Cached n k) [n]) by parts.
    rewrite !Forall_cons_iff; cbn [gradient_types gradient_twice]; rewrite <- IHn; intuition constructor.
  - destruct (adjoint n t) as [m'|] eqn:Am; [|discriminate]; cbn [obind] in A.
    cbn [typeof] in Tn; pose proof (below _ _ (part_un n u0 n (part_self n)) Ga) as Gm.
    unfold all_once, all_second, all_twice.
    rewrite (all_of (gradient_types G T) (Un u0 n) [n]), (all_of (gradient_twice G T U) (Un u0 n) [n]) by parts.
    rewrite !Forall_cons_iff; cbn [gradient_types gradient_twice].
    assert (Q : affine u0 \/ ~ affine u0).
    { destruct u0; unfold affine; cbn [In]; (left; tauto) || (right; intuition discriminate). }
    destruct Q as [Q|Q].
    + assert (K : n' = m' \/ n' = Un Negate m' \/ n' = Un Double m').
      { unfold affine in Q; cbn [In] in Q.
        repeat (destruct Q as [<-|Q]); try (destruct Q; fail); cbn [un_adjoint] in A; injection A as <-; auto. }
      assert (exists m'', adjoint m' u = Some m'') as [m'' A3].
      { destruct K as [-> | [-> | ->]]; cbn [adjoint] in A2; [eauto| |]; destruct (adjoint m' u); try discriminate; eauto. }
      specialize (IHn m' m'' sh Gm Sc eq_refl A3 Tn).
      assert (K2 : all_second n' <-> all_second m').
      { destruct K as [-> | [-> | ->]]; unfold all_second; [tauto| |].
        - rewrite (all_of (gradient_types G U) (Un Negate m') [m']) by parts. rewrite Forall_cons_iff.
          cbn [gradient_types]; unfold affine; cbn [In]; intuition constructor.
        - rewrite (all_of (gradient_types G U) (Un Double m') [m']) by parts. rewrite Forall_cons_iff.
          cbn [gradient_types]; unfold affine; cbn [In]; intuition constructor. }
      unfold all_once, all_second, all_twice in *; rewrite K2; intuition.
    + split; [|tauto]. intros [[[H1|[H1|H1]] [H2 _]] H3]; exfalso; [tauto|tauto|].
      rewrite H1 in Tn; injection Tn as Tn; symmetry in Tn; apply array_scalar in Tn; subst sh.
      pose proof (once_typed n m' [] Gm Sc Am H1 H2) as Tm'. cbn [app] in Tm'.
      pose proof not_scalar0 as NS.
      assert (exists x a b, part x n' /\ (x = Mul a b \/ x = Div a b) /\ (typeof G a = Some (array_type T) \/ typeof G b = Some (array_type T))) as (x & a & b & P & K & H).
      { destruct u0; cbn [un_adjoint] in A; try discriminate; try (exfalso; apply Q; unfold affine; cbn [In]; tauto);
        injection A as <-;
        first [do 3 eexists; split; [apply part_self|split; [solve [left; reflexivity|right; reflexivity]|]]
              |do 3 eexists; split; [apply part_un, part_self|split; [solve [left; reflexivity|right; reflexivity]|]]];
        cbn [typeof]; rewrite ?H1, ?Tm'; cbn [obind]; rewrite ?zip_scalar, ?zip_scalar_r; auto. }
      specialize (H3 x P).
      destruct K as [-> | ->]; cbn [gradient_types] in H3; destruct H3 as [H3|[H3 H4]]; intuition congruence.
  - cbn [scalar_sums] in Sc; destruct Sc as [Tm Sc]. cbn [typeof] in Tn; rewrite Tm in Tn; injection Tn as Tn; symmetry in Tn; apply array_scalar in Tn; subst sh.
    specialize (IHn n' n'' [] (below _ _ (part_sum n n (part_self n)) Ga) Sc A A2 Tm).
    unfold all_once, all_second, all_twice in *.
    rewrite (all_of (gradient_types G T) (Sum n) [n]), (all_of (gradient_twice G T U) (Sum n) [n]) by parts.
    rewrite !Forall_cons_iff; cbn [gradient_types gradient_twice]; rewrite <- IHn; intuition constructor.
  - destruct (adjoint n1 t) as [l'|] eqn:Al; [|discriminate]; destruct (adjoint n2 t) as [r'|] eqn:Ar; [|discriminate].
    cbn [obind] in A; injection A as <-; destruct Sc as [Sl Sr].
    assert (Tl : typeof G n1 = Some KS) by (clear IHn1 IHn2; cbn [typeof] in Tn; destruct (typeof G n1) as [[]|], (typeof G n2) as [[]|]; try discriminate; reflexivity).
    split; [|intro H; destruct (H _ (part_self _))]. intros [H1 H2]; exfalso.
    pose proof (once_typed n1 l' [] (below _ _ (part_power_l n1 n1 n2 (part_self n1)) Ga) Sl Al Tl (fun m P => H1 m (part_power_l m n1 n2 P))) as D.
    specialize (H2 (Mul n2 l') ltac:(apply part_mul_r, part_add_l, part_self)).
    cbn [gradient_types] in H2; destruct H2 as [H2|[_ H2]]; [tauto|]. rewrite D in H2; exact (not_scalar0 H2).
  - destruct (adjoint n1 t) as [l'|] eqn:Al; [|discriminate]; destruct (adjoint n2 t) as [r'|] eqn:Ar; [|discriminate].
    cbn [obind] in A; injection A as <-; destruct Sc as [Sl Sr].
    pose proof (below _ _ (part_add_l n1 n1 n2 (part_self n1)) Ga) as Gl; pose proof (below _ _ (part_add_r n2 n1 n2 (part_self n2)) Ga) as Gr.
    cbn [adjoint] in A2; destruct (adjoint l' u) as [l''|] eqn:Al2; [|discriminate]; destruct (adjoint r' u) as [r''|] eqn:Ar2; [|discriminate].
    cbn [typeof] in Tn; destruct (typeof G n1) as [kl|] eqn:El; [|discriminate]; destruct (typeof G n2) as [kr|] eqn:Er; [|discriminate].
    destruct (typed_array G n1 t kl Gl ltac:(congruence) El) as [a ->], (typed_array G n2 t kr Gr ltac:(congruence) Er) as [b ->].
    specialize (IHn1 l' l'' a Gl Sl eq_refl Al2 eq_refl); specialize (IHn2 r' r'' b Gr Sr eq_refl Ar2 eq_refl).
    pose proof (once_typed n1 l' a Gl Sl Al El) as Dl; pose proof (once_typed n2 r' b Gr Sr Ar Er) as Dr.
    unfold all_once, all_second, all_twice in *.
    rewrite (all_of (gradient_types G T) (Add n1 n2) [n1; n2]), (all_of (gradient_twice G T U) (Add n1 n2) [n1; n2]),
      (all_of (gradient_types G U) (Add l' r') [l'; r']) by parts.
    rewrite !Forall_cons_iff, <- IHn1, <- IHn2; cbn [gradient_types gradient_twice]; rewrite El, Er.
    split.
    + intros [(H1 & H2 & H3 & _) (H4 & H5 & H6 & _)]. destruct H1 as [H1|H1]; [tauto|]. repeat split; auto.
    + intros (H1 & (H2 & H3) & (H4 & H5) & _). specialize (Dl H2); specialize (Dr H4).
      injection H1 as H1; apply array_inj in H1; subst b. rewrite Dl, Dr. repeat split; auto.
  - destruct (adjoint n1 t) as [l'|] eqn:Al; [|discriminate]; destruct (adjoint n2 t) as [r'|] eqn:Ar; [|discriminate].
    cbn [obind] in A; injection A as <-; destruct Sc as [Sl Sr].
    pose proof (below _ _ (part_sub_l n1 n1 n2 (part_self n1)) Ga) as Gl; pose proof (below _ _ (part_sub_r n2 n1 n2 (part_self n2)) Ga) as Gr.
    cbn [adjoint] in A2; destruct (adjoint l' u) as [l''|] eqn:Al2; [|discriminate]; destruct (adjoint r' u) as [r''|] eqn:Ar2; [|discriminate].
    cbn [typeof] in Tn; destruct (typeof G n1) as [kl|] eqn:El; [|discriminate]; destruct (typeof G n2) as [kr|] eqn:Er; [|discriminate].
    destruct (typed_array G n1 t kl Gl ltac:(congruence) El) as [a ->], (typed_array G n2 t kr Gr ltac:(congruence) Er) as [b ->].
    specialize (IHn1 l' l'' a Gl Sl eq_refl Al2 eq_refl); specialize (IHn2 r' r'' b Gr Sr eq_refl Ar2 eq_refl).
    pose proof (once_typed n1 l' a Gl Sl Al El) as Dl; pose proof (once_typed n2 r' b Gr Sr Ar Er) as Dr.
    unfold all_once, all_second, all_twice in *.
    rewrite (all_of (gradient_types G T) (Sub n1 n2) [n1; n2]), (all_of (gradient_twice G T U) (Sub n1 n2) [n1; n2]),
      (all_of (gradient_types G U) (Sub l' r') [l'; r']) by parts.
    rewrite !Forall_cons_iff, <- IHn1, <- IHn2; cbn [gradient_types gradient_twice]; rewrite El, Er.
    split.
    + intros [(H1 & H2 & H3 & _) (H4 & H5 & H6 & _)]. destruct H1 as [H1|H1]; [tauto|]. repeat split; auto.
    + intros (H1 & (H2 & H3) & (H4 & H5) & _). specialize (Dl H2); specialize (Dr H4).
      injection H1 as H1; apply array_inj in H1; subst b. rewrite Dl, Dr. repeat split; auto.
  - destruct (adjoint n1 t) as [l'|] eqn:Al; [|discriminate]; destruct (adjoint n2 t) as [r'|] eqn:Ar; [|discriminate].
    cbn [obind] in A; injection A as <-; destruct Sc as [Sl Sr].
    split; [|intro H; destruct (H _ (part_self _))]. intros [H1 H2]; exfalso.
    destruct (H1 _ (part_self _)) as [K|[Tl _]]; [tauto|].
    pose proof (once_typed n1 l' [] (below _ _ (part_mul_l n1 n1 n2 (part_self n1)) Ga) Sl Al Tl (fun m P => H1 m (part_mul_l m n1 n2 P))) as D.
    specialize (H2 (Mul l' n2) ltac:(apply part_add_l, part_self)).
    cbn [gradient_types] in H2; destruct H2 as [H2|[H2 _]]; [tauto|]. rewrite D in H2; exact (not_scalar0 H2).
  - destruct (adjoint n1 t) as [l'|] eqn:Al; [|discriminate]; destruct (adjoint n2 t) as [r'|] eqn:Ar; [|discriminate].
    cbn [obind] in A; injection A as <-; destruct Sc as [Sl Sr].
    split; [|intro H; destruct (H _ (part_self _))]. intros [H1 H2]; exfalso.
    destruct (H1 _ (part_self _)) as [K|[Tl _]]; [tauto|].
    pose proof (once_typed n1 l' [] (below _ _ (part_div_l n1 n1 n2 (part_self n1)) Ga) Sl Al Tl (fun m P => H1 m (part_div_l m n1 n2 P))) as D.
    specialize (H2 (Mul n2 l') ltac:(apply part_div_l, part_sub_l, part_self)).
    cbn [gradient_types] in H2; destruct H2 as [H2|[_ H2]]; [tauto|]. rewrite D in H2; exact (not_scalar0 H2).
  - destruct (adjoint n1 t) as [l'|] eqn:Al; [|discriminate]; destruct (adjoint n2 t) as [r'|] eqn:Ar; [|discriminate].
    cbn [obind] in A; injection A as <-; destruct Sc as [Sl Sr].
    pose proof (below _ _ (part_contract_l n1 axes n1 n2 (part_self n1)) Ga) as Gl; pose proof (below _ _ (part_contract_r n2 axes n1 n2 (part_self n2)) Ga) as Gr.
    cbn [adjoint] in A2; destruct (adjoint n1 u) as [l1|] eqn:Al1; [|discriminate]; destruct (adjoint r' u) as [r''|] eqn:Ar2; [|discriminate];
      destruct (adjoint l' u) as [l''|] eqn:Al2; [|discriminate]; destruct (adjoint n2 u) as [r1|] eqn:Ar1; [|discriminate].
    cbn [typeof] in Tn; destruct (typeof G n1) as [kl|] eqn:El; [|discriminate]; destruct (typeof G n2) as [kr|] eqn:Er; [|discriminate].
    destruct (typed_array G n1 t kl Gl ltac:(congruence) El) as [a ->], (typed_array G n2 t kr Gr ltac:(congruence) Er) as [b ->].
    specialize (IHn1 l' l'' a Gl Sl eq_refl Al2 eq_refl); specialize (IHn2 r' r'' b Gr Sr eq_refl Ar2 eq_refl).
    pose proof (once_typed n1 l' a Gl Sl Al El) as Dl; pose proof (once_typed n2 r' b Gr Sr Ar Er) as Dr.
    unfold all_once, all_second, all_twice in *.
    rewrite (all_of (gradient_types G T) (Contract axes n1 n2) [n1; n2]), (all_of (gradient_twice G T U) (Contract axes n1 n2) [n1; n2]) by parts.
    rewrite (all_of (gradient_types G U) (Add (Contract axes n1 r') (Contract axes l' n2)) [Contract axes n1 r'; Contract axes l' n2]) by parts.
    rewrite (Forall_cons_iff _ (Contract axes n1 r')), (Forall_cons_iff _ (Contract axes l' n2)).
    rewrite (all_of (gradient_types G U) (Contract axes n1 r') [n1; r']), (all_of (gradient_types G U) (Contract axes l' n2) [l'; n2]) by parts.
    rewrite !Forall_cons_iff, <- IHn1, <- IHn2; split.
    + intros [(H1 & H2 & H3 & _) (H4 & (H5 & H6 & H7 & _) & (H8 & H9 & H10 & _) & _)].
      specialize (Dl H2); specialize (Dr H3). repeat split; auto.
      destruct axes as [|axes]; cbn [gradient_types gradient_twice] in *; rewrite ?El, ?Er, ?Dl, ?Dr in *.
      * destruct H1 as [H1|[(_ & Ha & Hb)|[(d & n & -> & Ha & Hb)|(d & -> & Ha & Hb)]]]; [tauto| | |].
        -- injection Ha as Ha; injection Hb as Hb; apply array_scalar in Ha, Hb; subst a b.
           destruct H5 as [K|[(_ & _ & K)|[(? & ? & _ & K & _)|(d & -> & _ & K)]]]; [tauto|destruct (not_scalar0 K)|discriminate|].
           cbn [app] in K. injection K as K; apply (array_inj T [d]) in K. exists d; auto.
        -- exfalso. injection Ha as Ha; apply (array_inj a [n]) in Ha; injection Hb as Hb; apply array_scalar in Hb; subst.
           destruct H5 as [K|[(_ & K & _)|[(? & ? & _ & _ & K)|(? & _ & K & _)]]]; [tauto|discriminate|discriminate|discriminate].
        -- exfalso. injection Ha as Ha; apply array_scalar in Ha; injection Hb as Hb; apply (array_inj b [d]) in Hb; subst.
           destruct H5 as [K|[(_ & _ & K)|[(? & ? & _ & K & _)|(? & _ & _ & K)]]]; [tauto|discriminate|discriminate|discriminate].
      * exfalso. destruct H1 as [H1|(d & n & -> & Ha & Hb)]; [tauto|].
        injection Ha as Ha; apply (array_inj a [n]) in Ha; injection Hb as Hb; apply (array_inj b [n]) in Hb; subst.
        destruct H5 as [K|(? & ? & _ & _ & K)]; [tauto|discriminate].
    + intros (H1 & H2 & H3 & _).
      assert (All1 : forall m, part m n1 -> gradient_types G U m) by (intros m P; apply twice_once_types, IHn1; assumption).
      assert (All2 : forall m, part m n2 -> gradient_types G U m) by (intros m P; apply twice_once_types, IHn2; assumption).
      destruct H2 as [H2 H4], H3 as [H3 H5]. specialize (Dl H2); specialize (Dr H3).
      destruct axes as [|axes]; cbn [gradient_twice] in H1; [|tauto].
      destruct H1 as (d & Et & Eu & Ha & Hb); rewrite El in Ha; rewrite Er in Hb.
      injection Ha as Ha; injection Hb as Hb; apply array_scalar in Ha, Hb; subst a b.
      assert (Dl' : typeof G l' = Some (KA [d])) by (rewrite Dl, Et; reflexivity).
      assert (Dr' : typeof G r' = Some (KA [d])) by (rewrite Dr, Et; reflexivity).
      cbn [gradient_types typeof]; rewrite El, Er, Dl', Dr'; cbn [array_type obind contract_sty length].
      split; split; [right; left|split; [exact H2|split; [exact H3|constructor]]|auto|split; [|split; [|constructor]]].
      * rewrite Et; split; [cbn; lia|auto].
      * split; [right; right; right; exists d; auto|auto].
      * split; [right; right; left; exists d, d; auto|auto].
Qed.
End Twice.

Lemma adjoint_sums {F} G (n : node F) t : forall n', scalar_sums G n -> adjoint n t = Some n' -> scalar_sums G n'.
Proof.
  induction n; intros n' Sc A; cbn [adjoint] in A; cbn [scalar_sums] in Sc;
    try (injection A as <-; exact Logic.I); try discriminate.
  - destruct (ident_eqb k t); [auto|discriminate].
  - destruct (adjoint n t) as [m'|]; [|discriminate]; specialize (IHn m' Sc eq_refl); cbn [obind] in A.
    destruct u; cbn [un_adjoint] in A; try discriminate; injection A as <-; cbn [scalar_sums]; auto.
  - destruct Sc; auto.
  - destruct Sc; somes; subst n'; cbn [scalar_sums]; auto 10.
  - destruct Sc; somes; subst n'; cbn [scalar_sums]; auto 10.
  - destruct Sc; somes; subst n'; cbn [scalar_sums]; auto 10.
  - destruct Sc; somes; subst n'; cbn [scalar_sums]; auto 10.
  - destruct Sc; somes; subst n'; cbn [scalar_sums]; auto 10.
  - destruct Sc; somes; subst n'; cbn [scalar_sums]; auto 10.
Qed.

Lemma adjoint_consts {F} v (n : node F) t : forall n', adjoint n t = Some n' -> part (Const v) n' -> part (Const v) n.
Proof.
  assert (inv : forall x : node F, x <> Const v -> forall l, (forall m, part m x <-> m = x \/ Exists (part m) l) ->
    part (Const v) x -> Exists (part (Const v)) l).
  { intros x N l E P; apply E in P as [P|P]; [congruence|exact P]. }
  induction n; intros n' A P; cbn [adjoint] in A;
    try (injection A as <-; inversion P; subst; try assumption; fail); try discriminate.
  - destruct (ident_eqb k t); [|discriminate]; constructor; eauto.
  - destruct (adjoint n t) as [m'|]; [|discriminate]; specialize (IHn m' eq_refl); cbn [obind] in A; apply part_un.
    destruct u; cbn [un_adjoint] in A; try discriminate; injection A as <-;
      repeat match goal with P : part _ (_ _ _) |- _ => inversion P; clear P; subst end; auto.
  - constructor; eauto.
  - somes; subst n'; specialize (IHn1 _ eq_refl); specialize (IHn2 _ eq_refl);
      repeat match goal with P : part _ (_ _ _) |- _ => inversion P; clear P; subst end; auto using part_power_l, part_power_r.
  - somes; subst n'; specialize (IHn1 _ eq_refl); specialize (IHn2 _ eq_refl);
      repeat match goal with P : part _ (_ _ _) |- _ => inversion P; clear P; subst end; auto using part_add_l, part_add_r.
  - somes; subst n'; specialize (IHn1 _ eq_refl); specialize (IHn2 _ eq_refl);
      repeat match goal with P : part _ (_ _ _) |- _ => inversion P; clear P; subst end; auto using part_sub_l, part_sub_r.
  - somes; subst n'; specialize (IHn1 _ eq_refl); specialize (IHn2 _ eq_refl);
      repeat match goal with P : part _ (_ _ _) |- _ => inversion P; clear P; subst end; auto using part_mul_l, part_mul_r.
  - somes; subst n'; specialize (IHn1 _ eq_refl); specialize (IHn2 _ eq_refl);
      repeat match goal with P : part _ (_ _ _) |- _ => inversion P; clear P; subst end; auto using part_div_l, part_div_r.
  - somes; subst n'; specialize (IHn1 _ eq_refl); specialize (IHn2 _ eq_refl);
      repeat match goal with P : part _ (_ _ _) |- _ => inversion P; clear P; subst | P : part _ (Contract _ _ _) |- _ => inversion P; clear P; subst end; auto using part_contract_l, part_contract_r.
Qed.

Lemma gradient_twice_iff F G (n n' n'' : node F) t u k T U :
  array_types G n -> scalar_sums G n -> typeof G n = Some k ->
  G t = Some (array_type T) -> G u = Some (array_type U) -> T <> [] -> U <> [] ->
  adjoint n t = Some n' -> adjoint n' u = Some n'' ->
  (typeof G n' <> None /\ typeof G n'' <> None <-> forall m, part m n -> gradient_twice G T U m).
Proof.
  intros Ga Sc Tn Gt Gu Nt Nu A A2.
  destruct (typed_array G n t k Ga ltac:(congruence) Tn) as [s ->].
  rewrite <- (second_iff G t u T U Gt Gu Nt Nu n n' n'' s Ga Sc A A2 Tn).
  unfold all_once, all_second. rewrite <- (gradient_iff F G n n' t (array_type s) T Ga Sc Tn Gt A).
  destruct (typeof G n') as [k'|] eqn:T'; [|split; intros [H _]; congruence].
  assert (array_types G n' /\ scalar_sums G n') as [Ga' Sc'].
  { split; [|exact (adjoint_sums G n t n' Sc A)]. destruct Ga as [Gg Gc]; split; [exact Gg|].
    intros v P; apply Gc; exact (adjoint_consts v n t n' A P). }
  rewrite (gradient_iff F G n' n'' u k' U Ga' Sc' T' Gu A2). tauto.
Qed.

(** Second gradients that type-check are zero. *)
Section Zero.
Context {F : Type} {SF : Scalar F} (G : tenv) (t u : ident) (T U : list nat).
Hypothesis target2 : G u = Some (array_type U).
Hypothesis array2 : U <> [].

Lemma not_scalar2 : G u <> Some KS.
Proof. rewrite target2; destruct U; [congruence|discriminate]. Qed.

Lemma scalar_still (n : node F) : scalar_sums G n -> all_twice G T U n -> typeof G n = Some KS -> varies n u = false.
Proof.
  pose proof not_scalar2 as Ns; unfold all_twice.
  assert (Id : forall i, G i = Some KS -> ident_eqb i u = false).
  { intros i E; unfold ident_eqb; destruct (Nat.eqb_spec i u); [subst; congruence|reflexivity]. }
  induction n; intros Sc H Tn; cbn [typeof] in Tn; cbn [varies]; pose proof (H _ (part_self _)) as H0; cbn [gradient_twice] in H0;
    try contradiction; try reflexivity; cbn [scalar_sums] in Sc.
  - auto.
  - destruct (typeof G n) as [kn|] eqn:En; [|discriminate]; destruct (G k) as [kk|] eqn:Ek; [|discriminate]; cbn [obind] in Tn.
    destruct kn, kk; try discriminate; [|destruct (dims_eqb ds ds0); discriminate].
    apply orb_false_iff; split; [|apply IHn; auto; intros m P; apply H; constructor; exact P].
    specialize (Id k Ek). unfold ident_eqb in *; rewrite Nat.eqb_sym; exact Id.
  - apply IHn; auto; intros m P; apply H; constructor; exact P.
  - destruct Sc as [Tm Sc]; apply IHn; auto; intros m P; apply H; constructor; exact P.
  - assert (typeof G n1 = Some KS) as E1.
    { rewrite H0 in Tn; rewrite H0; destruct (typeof G n2) as [k|]; [|discriminate]; cbn [obind] in Tn.
      destruct k as [| | |ds]; try discriminate; [reflexivity|cbn in Tn; destruct (dims_eqb ds ds); discriminate]. }
    destruct Sc; apply orb_false_iff; split; [apply IHn1|apply IHn2]; auto; try congruence;
      intros m P; apply H; constructor; exact P.
  - assert (typeof G n1 = Some KS) as E1.
    { rewrite H0 in Tn; rewrite H0; destruct (typeof G n2) as [k|]; [|discriminate]; cbn [obind] in Tn.
      destruct k as [| | |ds]; try discriminate; [reflexivity|cbn in Tn; destruct (dims_eqb ds ds); discriminate]. }
    destruct Sc; apply orb_false_iff; split; [apply IHn1|apply IHn2]; auto; try congruence;
      intros m P; apply H; constructor; exact P.
  - destruct axes; [|contradiction]; destruct H0 as (d & _ & _ & E1 & E2).
    destruct Sc; apply orb_false_iff; split; [apply IHn1|apply IHn2]; auto; intros m P; apply H; constructor; exact P.
Qed.

Lemma second_still (n : node F) : forall n', scalar_sums G n -> all_twice G T U n -> adjoint n t = Some n' -> varies n' u = false.
Proof.
  unfold all_twice; induction n; intros n' Sc H A; pose proof (H _ (part_self _)) as H0; cbn [gradient_twice] in H0;
    cbn [adjoint] in A; cbn [scalar_sums] in Sc; try contradiction.
  - injection A as <-; reflexivity.
  - destruct (ident_eqb k t); [|discriminate]; apply IHn; auto; intros m P; apply H; constructor; exact P.
  - destruct (adjoint n t) as [m'|]; [|discriminate]; cbn [obind] in A.
    assert (varies m' u = false) by (apply IHn; auto; intros m P; apply H; constructor; exact P).
    unfold affine in H0; cbn [In] in H0.
    repeat (destruct H0 as [<-|H0]); try (destruct H0; fail); cbn [un_adjoint] in A; injection A as <-; assumption.
  - destruct Sc as [_ Sc]; apply IHn; auto; intros m P; apply H; constructor; exact P.
  - somes; subst n'; destruct Sc; cbn [varies]; apply orb_false_iff; split; [apply IHn1|apply IHn2]; auto;
      intros m P; apply H; constructor; exact P.
  - somes; subst n'; destruct Sc; cbn [varies]; apply orb_false_iff; split; [apply IHn1|apply IHn2]; auto;
      intros m P; apply H; constructor; exact P.
  - destruct axes; [|contradiction]; destruct H0 as (d & _ & _ & E1 & E2); somes; subst n'; destruct Sc; cbn [varies].
    rewrite !orb_false_iff; split; split.
    + apply scalar_still; auto; intros m P; apply H; constructor; exact P.
    + apply IHn2; auto; intros m P; apply H; constructor; exact P.
    + apply IHn1; auto; intros m P; apply H; constructor; exact P.
    + apply scalar_still; auto; intros m P; apply H; constructor; exact P.
Qed.

Lemma second_quotients (c : ctx F) (n : node F) : all_twice G T U n -> quotients_ok c n.
Proof.
  unfold all_twice; induction n; intros H; pose proof (H _ (part_self _)) as H0; cbn [gradient_twice] in H0;
    cbn [quotients_ok]; try contradiction; auto.
  - apply IHn; intros m P; apply H; constructor; exact P.
  - unfold affine in H0; cbn [In] in H0.
    repeat (destruct H0 as [<-|H0]); try (destruct H0; fail); apply IHn; intros m P; apply H; constructor; exact P.
  - apply IHn; intros m P; apply H; constructor; exact P.
  - split; [apply IHn1|apply IHn2]; intros m P; apply H; constructor; exact P.
  - split; [apply IHn1|apply IHn2]; intros m P; apply H; constructor; exact P.
  - split; [apply IHn1|apply IHn2]; intros m P; apply H; constructor; exact P.
Qed.

Lemma second_quotients' (c : ctx F) (n : node F) : forall n', all_twice G T U n -> adjoint n t = Some n' -> quotients_ok c n'.
Proof.
  unfold all_twice; induction n; intros n' H A; pose proof (H _ (part_self _)) as H0; cbn [gradient_twice] in H0;
    cbn [adjoint] in A; try contradiction.
  - injection A as <-; exact Logic.I.
  - destruct (ident_eqb k t); [|discriminate]; apply IHn; auto; intros m P; apply H; constructor; exact P.
  - destruct (adjoint n t) as [m'|]; [|discriminate]; cbn [obind] in A.
    assert (quotients_ok c m') by (apply IHn; auto; intros m P; apply H; constructor; exact P).
    unfold affine in H0; cbn [In] in H0.
    repeat (destruct H0 as [<-|H0]); try (destruct H0; fail); cbn [un_adjoint] in A; injection A as <-; assumption.
  - apply IHn; auto; intros m P; apply H; constructor; exact P.
  - somes; subst n'; cbn [quotients_ok]; split; [apply IHn1|apply IHn2]; auto;
      intros m P; apply H; constructor; exact P.
  - somes; subst n'; cbn [quotients_ok]; split; [apply IHn1|apply IHn2]; auto;
      intros m P; apply H; constructor; exact P.
  - somes; subst n'; cbn [quotients_ok]; split; split; [apply second_quotients|apply IHn2|apply IHn1|apply second_quotients]; auto;
      intros m P; apply H; constructor; exact P.
Qed.
End Zero.

Lemma gradient_twice_zero F (S : Scalar F) G (n n' n'' : node F) t u k T U (c c' : ctx F) w :
  exact F -> (forall y : F, y <> fzero -> fdiv fzero y = fzero) ->
  (forall y : F, y <> fzero -> fpow y ftwo <> fzero) ->
  array_types G n -> scalar_sums G n -> typeof G n = Some k ->
  G t = Some (array_type T) -> G u = Some (array_type U) -> T <> [] -> U <> [] ->
  adjoint n t = Some n' -> adjoint n' u = Some n'' -> typeof G n' <> None -> typeof G n'' <> None ->
  node_wf n -> ctx_wf c -> evaluate n'' c = (c', Ok w) ->
  forall ix, in_box (dims (vshape w)) ix -> vat fzero w ix = fzero.
Proof.
  intros EX D P Ga Sc Tn Gt Gu Nt Nu A A2 T1 T2 W Wc E.
  pose proof (proj1 (gradient_twice_iff F G n n' n'' t u k T U Ga Sc Tn Gt Gu Nt Nu A A2) (conj T1 T2)) as H.
  apply (absent_adjoints n' u c c' w EX D P (Zero_facts.adjoint_wf _ _ _ W A) Wc).
  - exact (second_still G t u T U Gu Nu n n' Sc H A).
  - exact (second_quotients' G t T U c n n' H A).
  - unfold evaluate_adjoint; rewrite A2; cbn; rewrite E; reflexivity.
Qed.
