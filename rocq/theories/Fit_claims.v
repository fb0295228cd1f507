(** When the gradient has only products of vectors with square matrices (property C93). *)
From Coq Require Import List Arith ZArith Reals Bool Lia Lra.
Import ListNotations.
From Verif Require Import Base Shapes Scalar Buffers Spec Contraction Node Eval Types Instances
  Vocab Math Math_claims Zero_facts Real_math Calculus Diff_math Fit_math Instance_facts Typing_facts Eval_facts Adjoint_facts Adjoint_claims
  Diff_claims Eval_claims Calculus_facts Jacobian_facts Calculus_claims.

Section Fit.
Context {F : Type}.
Variables (G : tenv) (t : ident) (kt : sty) (T : list nat).
Hypothesis Gt : G t = Some kt.
Hypothesis DT : sty_dims kt = Some T.

Lemma grad_dims (n n' : node F) k k' :
  scalar_sums G n -> adjoint n t = Some n' -> typeof G n = Some k -> typeof G n' = Some k' ->
  exists d, sty_dims k = Some d /\ sty_dims k' = Some (d ++ T).
Proof.
  intros Sc A Tn Tn'.
  destruct (adjoint_dims G t n n' k k' Sc A Tn Tn') as (d & T0 & k0 & D & G0 & D0 & D').
  assert (T0 = T) by congruence; subst T0; eauto.
Qed.

(** The condition splits over the operands. *)
Lemma fit_un (n m : node F) : (forall x, part x n <-> x = n \/ part x m) ->
  (forall l r, n <> Contract 1 l r) -> (fits G T n <-> fits G T m).
Proof.
  intros P N; unfold fits; split; intros H d l r E Q.
  - apply (H d l r E), P; auto.
  - apply P in Q; destruct Q as [Q|Q]; [symmetry in Q; destruct (N _ _ Q)|eauto].
Qed.
Lemma fit_bin (n l r : node F) : (forall x, part x n <-> x = n \/ part x l \/ part x r) ->
  (forall l r, n <> Contract 1 l r) -> (fits G T n <-> fits G T l /\ fits G T r).
Proof.
  intros P N; unfold fits; split.
  - intros H; split; intros d x y E Q; apply (H d x y E), P; auto.
  - intros [H1 H2] d x y E Q; apply P in Q; destruct Q as [Q|[Q|Q]]; [symmetry in Q; destruct (N _ _ Q)|eauto|eauto].
Qed.
Lemma fit_leaf (n : node F) : (forall x, part x n -> x = n) -> (forall l r, n <> Contract 1 l r) -> fits G T n.
Proof. intros P N d l r _ Q; apply P in Q; symmetry in Q; destruct (N _ _ Q). Qed.
Lemma fit_dot (l r : node F) : fits G T (Contract 1 l r) <->
  (forall d, T = [d] -> typeof G l = Some (KA [d]) /\ typeof G r = Some (KA [d])) /\ fits G T l /\ fits G T r.
Proof.
  unfold fits; split.
  - intro H; split; [intros d E; apply (H d l r E); constructor|].
    split; intros d x y E Q; apply (H d x y E); constructor; exact Q.
  - intros (H & H1 & H2) d x y E Q; inversion Q; subst; eauto.
Qed.

Ltac parts1 := intro x; split; [intro Q; inversion Q; subst; auto|intros [->|Q]; [constructor|constructor; exact Q]].
Ltac parts2 := intro x; split; [intro Q; inversion Q; subst; auto|intros [->|[Q|Q]]; constructor; exact Q].

Lemma fits_iff (n : node F) : forall n' k k',
  scalar_sums G n -> adjoint n t = Some n' -> typeof G n = Some k -> typeof G n' = Some k' -> square G n ->
  (square G n' <-> fits G T n).
Proof.
  induction n; intros n' k0 k' Sc A Tn Tn' Sq; cbn [adjoint] in A.
  - injection A as A; subst n'; split; [intros _|cbn; auto].
    apply fit_leaf; [intros x Q; inversion Q; reflexivity|discriminate].
  - injection A as A; subst n'; split; [intros _|cbn; auto].
    apply fit_leaf; [intros x Q; inversion Q; reflexivity|discriminate].
  - injection A as A; subst n'; split; [intros _|cbn; auto].
    apply fit_leaf; [intros x Q; inversion Q; reflexivity|discriminate].
  - discriminate.
  - discriminate.
  - destruct (ident_eqb k t); [|discriminate].
    rewrite (fit_un (Cached n k) n); [|parts1|discriminate].
    cbn [typeof scalar_sums square] in Tn, Sc, Sq; obs.
    match goal with H : typeof G n = Some ?k1 |- _ => exact (IHn n' k1 k' Sc A H Tn' Sq) end.
  - apply obind_some in A; destruct A as (m' & A & B).
    rewrite (fit_un (Un u n) n); [|parts1|discriminate].
    cbn [typeof scalar_sums square] in Tn, Sc, Sq.
    assert (M : (exists km', typeof G m' = Some km') /\ (square G n' <-> square G m')).
    { destruct u; cbn [un_adjoint] in B; try discriminate; injection B as B; subst n';
        cbn [typeof] in Tn'; cbn [square]; obs; split; eauto; tauto. }
    destruct M as ((km' & T1) & S1); rewrite S1; eapply IHn; eauto.
  - rewrite (fit_un (Sum n) n); [|parts1|discriminate].
    cbn [typeof scalar_sums square] in *; obs; destruct Sc; eapply IHn; eauto.
  - adj_inv A; rewrite (fit_bin (Power n1 n2) n1 n2); [|parts2|discriminate].
    cbn [typeof scalar_sums square] in *; obs; destruct_scal; unis; destruct Sc, Sq.
    rewrite <- (IHn1 _ _ _ ltac:(eassumption) eq_refl ltac:(eassumption) ltac:(eassumption)) by assumption.
    rewrite <- (IHn2 _ _ _ ltac:(eassumption) eq_refl ltac:(eassumption) ltac:(eassumption)) by assumption; tauto.
  - adj_inv A; rewrite (fit_bin (Add n1 n2) n1 n2); [|parts2|discriminate].
    cbn [typeof scalar_sums square] in *; obs; unis; destruct Sc, Sq.
    rewrite <- (IHn1 _ _ _ ltac:(eassumption) eq_refl ltac:(eassumption) ltac:(eassumption)) by assumption.
    rewrite <- (IHn2 _ _ _ ltac:(eassumption) eq_refl ltac:(eassumption) ltac:(eassumption)) by assumption; tauto.
  - adj_inv A; rewrite (fit_bin (Sub n1 n2) n1 n2); [|parts2|discriminate].
    cbn [typeof scalar_sums square] in *; obs; unis; destruct Sc, Sq.
    rewrite <- (IHn1 _ _ _ ltac:(eassumption) eq_refl ltac:(eassumption) ltac:(eassumption)) by assumption.
    rewrite <- (IHn2 _ _ _ ltac:(eassumption) eq_refl ltac:(eassumption) ltac:(eassumption)) by assumption; tauto.
  - adj_inv A; rewrite (fit_bin (Mul n1 n2) n1 n2); [|parts2|discriminate].
    cbn [typeof scalar_sums square] in *; obs; unis; destruct Sc, Sq.
    rewrite <- (IHn1 _ _ _ ltac:(eassumption) eq_refl ltac:(eassumption) ltac:(eassumption)) by assumption.
    rewrite <- (IHn2 _ _ _ ltac:(eassumption) eq_refl ltac:(eassumption) ltac:(eassumption)) by assumption; tauto.
  - adj_inv A; rewrite (fit_bin (Div n1 n2) n1 n2); [|parts2|discriminate].
    cbn [typeof scalar_sums square] in *; obs; unis; destruct Sc, Sq.
    rewrite <- (IHn1 _ _ _ ltac:(eassumption) eq_refl ltac:(eassumption) ltac:(eassumption)) by assumption.
    rewrite <- (IHn2 _ _ _ ltac:(eassumption) eq_refl ltac:(eassumption) ltac:(eassumption)) by assumption; tauto.
  - adj_inv A.
    cbn [typeof scalar_sums square] in *; obs; unis; destruct Sc as [Sc1 Sc2], Sq as (Sq1 & Sq2 & Sq3).
    assert (I1 := IHn1 n _ _ Sc1 eq_refl T6 T2 Sq1); assert (I2 := IHn2 n0 _ _ Sc2 eq_refl T7 T5 Sq2).
    destruct (grad_dims n1 n _ _ Sc1 E T6 T2) as (d1 & D1 & D1').
    destruct (grad_dims n2 n0 _ _ Sc2 E0 T7 T5) as (d2 & D2 & D2').
    destruct axes as [|[|axes]]; [| |destruct k4, k3; discriminate].
    + rewrite (fit_bin (Contract 0 n1 n2) n1 n2); [|parts2|discriminate].
      rewrite <- I1, <- I2; split; [tauto|intros [X Y]; repeat split; auto].
    + rewrite fit_dot, <- I1, <- I2, T2, T5, T6, T7.
      specialize (Sq3 _ _ T6 T7).
      enough (L : square_sty 1 k4 k5 /\ square_sty 1 k2 k3 <->
                  forall d, T = [d] -> Some k4 = Some (KA [d]) /\ Some k3 = Some (KA [d])).
      { rewrite <- L; split.
        - intros ((_ & X & Y) & X' & _ & Y'); split; [|tauto]; split; [apply Y|apply Y']; auto.
        - intros ((Y & Y') & X & X'); split; (split; [assumption|split; [assumption|]]); intros kl kr Q1 Q2;
            injection Q1 as <-; injection Q2 as <-; assumption. }
      clear I1 I2 IHn1 IHn2.
      destruct k4 as [| | |[|? [|? [|? ?]]]], k3 as [| | |[|? [|? [|? ?]]]]; try discriminate Tn;
        cbn [sty_dims] in D1, D2; injection D1 as <-; injection D2 as <-; cbn [app] in D1', D2';
        cbn [contract_sty square_sty] in Tn, Sq3;
        try (match type of Tn with (if ?b then _ else _) = _ => destruct b eqn:Q; [apply Nat.eqb_eq in Q; subst|discriminate] end);
        destruct T as [|p [|q T']];
        destruct k2 as [| | |[|? [|? [|? [|? ?]]]]], k5 as [| | |[|? [|? [|? [|? ?]]]]]; try discriminate;
        cbn [sty_dims] in D1', D2'; try discriminate D1'; try discriminate D2'; try discriminate T0; try discriminate T1;
        try (injection D1' as); try (injection D2' as); subst; cbn [square_sty];
        split; try (intros [X Y] d Hd); try (intros H); try (injection Hd as <-); try discriminate; auto;
        try (specialize (H _ eq_refl); destruct H as [H H']; injection H as H; injection H' as H'); subst; auto.
Qed.
End Fit.

(** Expressions whose dot products fit: the gradient evaluates. *)
Lemma fit_evaluates F (S : Scalar F) (G : tenv) (c : ctx F) (n n' : node F) t k' kt T :
  fof_total -> ctx_ok G c -> node_wf n -> scalar_sums G n -> square G n -> typeof G n <> None ->
  G t = Some kt -> sty_dims kt = Some T -> fits G T n ->
  adjoint n t = Some n' -> typeof G n' = Some k' -> (forall i, uses n i \/ i = t -> c i <> None) ->
  exists c' w, evaluate_adjoint n t c = Some (c', Ok w) /\ vwf w /\ sty_of (bty_of w) = k'.
Proof.
  intros FT O W Sc Sq Tn Gt DT Ft A Tn' U.
  destruct (typeof G n) as [k|] eqn:T1; [|congruence].
  assert (Q' : square G n') by (apply (fits_iff G t kt T Gt DT n n' k k'); auto).
  assert (N := gradient_novec _ _ _ _ A ltac:(rewrite Tn'; discriminate)).
  destruct (typed_progress G n' k' c FT (adjoint_wf _ _ _ W A) (adjoint_novec _ _ _ _ A N) Q' Tn' O) as [_ P].
  unfold evaluate_adjoint; rewrite A; cbn [option_map].
  destruct (evaluate n' c) as [c' r] eqn:E; cbn [snd] in P.
  destruct r as [w|e| |]; [eauto|exfalso|destruct P|destruct P].
  destruct P as (i & _ & Ui & Ci); destruct (adjoint_uses _ _ _ _ A Ui) as [X|X]; apply (U i); auto.
Qed.

(** C04 with a condition on the expression instead of its gradient. *)
Lemma fit_jacobian inf sp G (c : ctx R) t (n n' : node R) kt T :
  let S := R_scalar inf sp in
  ctx_ok G c -> (forall i, uses n i \/ i = t -> c i <> None) -> node_wf n -> cache_free n = true -> scalar_sums G n ->
  square G n -> typeof G n <> None -> G t = Some kt -> sty_dims kt = Some T -> fits G T n ->
  adjoint n t = Some n' -> typeof G n' <> None ->
  regular (real_un inf sp) c n -> smooth inf sp c t n ->
  exists v w x,
    evaluate n c = (c, Ok v) /\ evaluate_adjoint n t c = Some (c, Ok w) /\ c t = Some x /\
    dims (vshape w) = dims (vshape v) ++ dims (vshape x) /\
    forall i j, in_box (dims (vshape v)) i -> in_box (dims (vshape x)) j ->
      derivable_pt_lim (fun h => entry inf sp n (bump c t j h) i) 0%R (vat 0%R w (i ++ j)).
Proof.
  intros S O U W CF Sc Sq Tn Gt DT Ft A Tn' Rg Sm.
  apply (jacobian_real inf sp G c t n n'); auto; constructor; auto.
  destruct (typeof G n) as [k|] eqn:T1; [|congruence]; destruct (typeof G n') as [k'|] eqn:T2; [|congruence].
  apply (fits_iff G t kt T Gt DT n n' k k'); auto.
Qed.

(** Witnesses: [v . (w (x . y))], with [x] and [y] of another length than [v] and [w]. *)
Definition scaled_dot {F} : node F := Contract 1 (Var 0) (Contract 0 (Var 1) (Contract 1 (Var 2) (Var 3))).
Definition lengths (a b : nat) : tenv := fun i => match i with 0 | 1 => Some (KA [a]) | 2 | 3 => Some (KA [b]) | _ => None end.
Definition row {F} (xs : list F) : value F := VArr [length xs] (AN (map AF xs)).
Definition four {F} (v w x y : list F) : ctx F := fun i =>
  match i with 0 => Some (row v) | 1 => Some (row w) | 2 => Some (row x) | 3 => Some (row y) | _ => None end.

Lemma scaled_panics : exists G (c : ctx Z) (n n' : node Z) t v,
  let S := Z_scalar in
  ctx_ok G c /\ node_wf n /\ cache_free n = true /\ scalar_sums G n /\ square G n /\ (forall i, uses n i \/ i = t -> c i <> None) /\
  typeof G n <> None /\ adjoint n t = Some n' /\ typeof G n' <> None /\
  evaluate n c = (c, Ok v) /\ evaluate_adjoint n t c = Some (c, Panic).
Proof.
  exists (lengths 2 3), (four [1; 2] [3; 4] [1; 2; 3] [1; 1; 1])%Z, scaled_dot; eexists; exists 2, (VScal 66%Z).
  intro S; split; [intros [|[|[|[|i]]]] v E; inversion E; subst; repeat constructor|].
  split; [cbn; auto|split; [reflexivity|split; [cbn; auto|split]]].
  - cbn; repeat split; intros kl kr E1 E2; injection E1 as <-; injection E2 as <-; auto.
  - split; [intros i; cbn [uses scaled_dot]; intros [[->|[->|[->| ->]]] | ->]; discriminate|].
    split; [discriminate|split; [reflexivity|split; [discriminate|split; vm_compute; reflexivity]]].
Qed.

Lemma scaled_short : exists G (c : ctx R) (n n' : node R) t,
  ctx_ok G c /\ node_wf n /\ cache_free n = true /\ scalar_sums G n /\ square G n /\ (forall i, uses n i \/ i = t -> c i <> None) /\
  typeof G n <> None /\ adjoint n t = Some n' /\ typeof G n' <> None /\
  forall inf sp, let S := R_scalar inf sp in
  regular (real_un inf sp) c n /\ smooth inf sp c t n /\
  exists w, evaluate_adjoint n t c = Some (c, Ok w) /\ vshape w = St [1] /\
    derivable_pt_lim (fun h => entry inf sp n (bump c t [0] h) []) 0%R 10%R /\ vat 0%R w [0] = 5%R.
Proof.
  exists (lengths 2 1), (four [1; 1] [1; 1] [1] [5])%R, scaled_dot; eexists; exists 2.
  split; [intros [|[|[|[|i]]]] v E; inversion E; subst; repeat constructor|].
  split; [cbn; auto|split; [reflexivity|split; [cbn; auto|split]]].
  { cbn; repeat split; intros kl kr E1 E2; injection E1 as <-; injection E2 as <-; auto. }
  split; [intros i; cbn [uses scaled_dot]; intros [[->|[->|[->| ->]]] | ->]; discriminate|].
  split; [discriminate|split; [reflexivity|split; [discriminate|]]].
  intros inf sp S; split; [cbn; auto 9|split].
  - assert (Y2 : symmetric inf sp (four [1; 1] [1; 1] [1] [5])%R 2 (Var 2)).
    { intros p q d B H; inversion B as [|? ? ? ? B1 B2]; subst; inversion B2 as [|? ? ? ? B3 _]; subst.
      assert (p = 0) by lia; assert (q = 0) by lia; subst; exact H. }
    assert (Y0 : symmetric inf sp (four [1; 1] [1; 1] [1] [5])%R 2 (Var 0)).
    { intros p q d B H; assert (d = 0%R).
      { apply (uniqueness_limite (fun _ : R => tat (rden inf sp (four [1; 1] [1; 1] [1] [5])%R (Var 0)) [p]) 0%R); [exact H|].
        apply derivable_pt_lim_const. }
      subst d; unfold partial; apply (derivable_pt_lim_const (tat (rden inf sp (four [1; 1] [1; 1] [1] [5])%R (Var 0)) [q])). }
    cbn; auto 9.
  - assert (Z0 : R_eqb 0 0 = true) by (unfold R_eqb; destruct (Req_EM_T 0 0); congruence).
    unfold evaluate_adjoint; cbn; unfold eval_by_spec, both, varadj_spec, ok_or_undef; cbn.
    unfold is_zero; cbn.
    repeat (match goal with |- context [R_eqb ?x 0] =>
      let H := fresh in assert (H : R_eqb x 0 = true) by (rewrite <- Z0; f_equal; ring); rewrite !H; clear H end;
      cbn; unfold add_match, is_zero; cbn).
    eexists; split; [reflexivity|split; [reflexivity|split]].
    + apply lim_eq with (f := fun h => (10 + 10 * h)%R) (l := (0 + 10 * 1)%R); [intro h; ring|ring|].
      apply (derivable_pt_lim_plus (fun _ => 10%R) (fun h => (10 * h)%R)); [apply derivable_pt_lim_const|].
      apply (derivable_pt_lim_scal (fun h => h) 10%R); apply derivable_pt_lim_id.
    + cbn; ring.
Qed.
