(** Claims about gradients evaluated in floating point, in the form used by Properties_float.v. *)
From Coq Require Import List Arith ZArith Reals SpecFloat Bool Lia Lra.
Import ListNotations.
From Verif Require Import Base Shapes Scalar Buffers Spec Contraction Node Eval Types Instances
  Vocab Math Real_math Calculus Float_math Index_facts Buffers_facts Spec_facts Contraction_facts
  Contraction_entries Match_facts Eval_facts Typing_facts Progress_facts Exact_facts Math_facts
  Instance_facts Float_facts Shortcut_facts Float_claims Scalar_claims Error_facts
  Math_claims Adjoint_facts Zero_facts Calculus_facts Jacobian_facts Calculus_claims.
Local Open Scope R_scope.

(** Formats: precision and largest exponent. *)
Section Formats.
Context {prec emax : Z} {Fm : Format prec emax}.
Notation rnd := (Float_facts.rnd prec emax).
Notation uro := (Float_facts.uro prec).
Notation uro_pos := (Float_facts.uro_pos (prec := prec)).
Notation fvalid := (float_valid prec emax).
Notation foz := (float_of_Z prec emax).
Notation good := (Float_claims.good (prec := prec) (emax := emax)).
Notation grow_le := (Float_claims.grow_le (prec := prec)).
Notation grow := (Float_claims.grow (prec := prec)).
Notation from_zero := (Float_claims.from_zero (prec := prec) (emax := emax)).
Notation one_real := (Float_claims.one_real (prec := prec) (emax := emax)).
Notation one_valid := (Float_claims.one_valid (prec := prec) (emax := emax)).
Notation two_real := (Float_claims.two_real (prec := prec) (emax := emax)).
Notation two_valid := (Float_claims.two_valid (prec := prec) (emax := emax)).
Notation two_finite := (Float_claims.two_finite (prec := prec) (emax := emax)).
Notation one_finite := (Float_claims.one_finite (prec := prec) (emax := emax)).
Notation abs_real := (Float_claims.abs_real (prec := prec) (emax := emax)).
Notation small_int := (Float_claims.small_int (prec := prec) (emax := emax)).

(** Dimensions do not depend on the numbers. *)
Section Through.
Context {A B : Type} {SA : Scalar A} {SB : Scalar B}.
Variables (ua : unop -> A -> A) (ub : unop -> B -> B) (g : A -> B) (c : ctx A).

Lemma var_dims_through i : tdims (@var_tensor B SB (ctx_through g c) i) = tdims (@var_tensor A SA c i).
Proof.
  unfold var_tensor, ctx_through; destruct (c i) as [v|]; cbn [option_map]; [|reflexivity].
  unfold tensor_of, vshape; cbn [tdims]; rewrite vmap_bty; reflexivity.
Qed.

Lemma dims_through n : tdims (den ub (ctx_through g c) (node_through g n)) = tdims (den ua c n).
Proof.
  induction n; cbn [node_through den tdims].
  - apply var_dims_through.
  - rewrite !var_dims_through; reflexivity.
  - unfold tensor_of, vshape; cbn [tdims]; rewrite vmap_bty; reflexivity.
  - destruct s; try reflexivity; unfold tensor_of_spec, spec_through, tensor_of, vshape; cbn [tdims].
    rewrite vmap_bty; reflexivity.
  - rewrite IHn, var_dims_through; reflexivity.
  - exact IHn.
  - exact IHn.
  - reflexivity.
  - reflexivity.
  - unfold pointwise; cbn [tdims]; rewrite IHn1, IHn2; reflexivity.
  - unfold pointwise; cbn [tdims]; rewrite IHn1, IHn2; reflexivity.
  - unfold pointwise; cbn [tdims]; rewrite IHn1, IHn2; reflexivity.
  - unfold pointwise; cbn [tdims]; rewrite IHn1, IHn2; reflexivity.
  - destruct axes as [|axes].
    + unfold outer; cbn [tdims]; rewrite IHn1, IHn2; reflexivity.
    + unfold inner; rewrite IHn1, IHn2.
      destruct (tdims (den ua c n1)), (tdims (den ua c n2)); reflexivity.
Qed.

Lemma regular_through n : ring_tree n ->
  regular ub (ctx_through g c) (node_through g n) <-> regular ua c n.
Proof.
  induction n; intro H; try contradiction; cbn [node_through regular ring_tree] in *; try tauto.
  - apply IHn; destruct u; try contradiction; exact H.
  - destruct H as [H1 H2]; assert (I1 := IHn1 H1); assert (I2 := IHn2 H2).
    unfold keeps_order; rewrite !dims_through; tauto.
  - destruct H as [H1 H2]; assert (I1 := IHn1 H1); assert (I2 := IHn2 H2).
    destruct axes; unfold square_dims; rewrite ?dims_through; tauto.
Qed.

End Through.

Lemma un_adjoint_through {A B} (g : A -> B) u m m' :
  un_adjoint u (node_through g m) (node_through g m') = option_map (node_through g) (un_adjoint u m m').
Proof. destruct u; reflexivity. Qed.

Lemma adjoint_through {A B} (g : A -> B) n t :
  adjoint (node_through g n) t = option_map (node_through g) (adjoint n t).
Proof.
  induction n; cbn [node_through adjoint]; try reflexivity.
  - destruct (ident_eqb _ _); [exact IHn|reflexivity].
  - rewrite IHn; destruct (adjoint n t); cbn [option_map obind]; [apply un_adjoint_through|reflexivity].
  - exact IHn.
  - rewrite IHn1, IHn2; destruct (adjoint n1 t), (adjoint n2 t); reflexivity.
  - rewrite IHn1, IHn2; destruct (adjoint n1 t), (adjoint n2 t); reflexivity.
  - rewrite IHn1, IHn2; destruct (adjoint n1 t), (adjoint n2 t); reflexivity.
  - rewrite IHn1, IHn2; destruct (adjoint n1 t), (adjoint n2 t); reflexivity.
  - rewrite IHn1, IHn2; destruct (adjoint n1 t), (adjoint n2 t); reflexivity.
  - rewrite IHn1, IHn2; destruct (adjoint n1 t), (adjoint n2 t); reflexivity.
Qed.

Lemma ring_tree_facts {F} (n : node F) : ring_tree n -> sum_spine n = false /\ cache_free n = true.
Proof.
  induction n; intro H; try contradiction; cbn [ring_tree sum_spine cache_free] in *; auto.
  - split; [reflexivity|apply IHn; exact H].
  - apply IHn; destruct u; try contradiction; exact H.
  - destruct H as [H1 H2]; destruct (IHn1 H1) as [_ ->], (IHn2 H2) as [_ ->]; auto.
  - destruct H as [H1 H2]; destruct (IHn1 H1) as [_ ->], (IHn2 H2) as [_ ->]; auto.
  - destruct H as [H1 H2]; destruct (IHn1 H1) as [_ ->], (IHn2 H2) as [_ ->]; auto.
  - destruct H as [H1 H2]; destruct (IHn1 H1) as [_ ->], (IHn2 H2) as [_ ->]; auto.
Qed.

Section Tree.
Variables (pow : f64 -> f64 -> f64) (lib : libfn -> f64 -> f64) (inf : R) (sp : libfn -> R -> R).
#[local] Instance g64 : Scalar f64 := float_scalar prec emax pow lib.
Variable c : ctx f64.
Hypothesis Wc : ctx_wf c.

Definition sgood (k : nat) (s : spec f64) (e a : tensor R) : Prop :=
  spec_wf s /\ tdims_of (spec_bty s) = tdims e /\ tdims a = tdims e /\
  forall ix, in_box (tdims e) ix -> good k (sfun s ix) (tat e ix) (tat a ix).

Lemma sgood_le k l s e a : sgood k s e a -> (k <= l)%nat -> sgood l s e a.
Proof. intros (W & D & D' & H) L; split; [auto|split; [auto|split; [auto|]]]; intros ix Bx; eapply good_le; [apply H; auto|exact L]. Qed.

Lemma zero_good : good 0 f64_zero 0 0.
Proof. apply good_of_null; rewrite Rabs_R0; [lra|simpl; lra]. Qed.

Lemma one_good : good 0 (foz 1) 1 1.
Proof.
  assert (K := good_leaf _ one_valid); rewrite one_real in K; rewrite Rabs_pos_eq in K by lra; exact K.
Qed.

Lemma leaf_sgood v : vwf v -> entries_all fvalid v ->
  sgood 0 (Raw v) (@tensor_of R (R_scalar inf sp) (vmap f64_real v))
    (@tensor_of R size_scalar (vmap (fun x => Rabs (f64_real x)) v)).
Proof.
  intros W L; unfold sgood, tensor_of; cbn [tdims tat spec_wf spec_bty sfun]; unfold vshape; rewrite !vmap_bty.
  split; [exact W|split; [reflexivity|split; [reflexivity|]]]; intros ix Bx.
  rewrite !(vat_vmap _ _ fzero) by assumption; apply good_leaf, L; exact Bx.
Qed.

(** Elementwise operators. *)
Lemma zip_sgood k l m (Q : f64 -> f64 -> f64 -> Prop) (ope opa : R -> R -> R) x y s e f a b :
  sgood k x e a -> sgood l y f b -> zipl Q x y s ->
  (forall ix X e a Y f b Z,
     in_box (tdims_of (spec_bty x)) (pick (spec_bty x) ix) -> in_box (tdims_of (spec_bty y)) (pick (spec_bty y) ix) ->
     X = sfun x (pick (spec_bty x) ix) -> Y = sfun y (pick (spec_bty y) ix) ->
     good k X e a -> good l Y f b -> Q X Y Z -> good m Z (ope e f) (opa a b)) ->
  sgood m s (pointwise ope e f) (pointwise opa a b).
Proof.
  intros (Wx & Dx & Dx' & Hx) (Wy & Dy & Dy' & Hy) (t & Bt & T & W & E) K.
  destruct (bcast_ok _ _ _ (spec_wf_bty _ Wx) (spec_wf_bty _ Wy) Bt) as [D B].
  split; [exact W|]; unfold pointwise; cbn [tdims tat].
  rewrite T, D, Dx, Dy, Dx', Dy'; split; [reflexivity|split; [reflexivity|]].
  intros ix Bx; rewrite Dx, Dy in D; rewrite <- D in Bx; destruct (B ix Bx) as [B1 B2].
  assert (Px : pick (spec_bty x) ix = match tdims e with [] => [] | _ => ix end).
  { rewrite <- Dx; assert (N := dims_nil _ (spec_wf_bty _ Wx)).
    destruct (spec_bty x) as [| | |[|? ?]]; auto; destruct N as [N _]; discriminate (N eq_refl). }
  assert (Py : pick (spec_bty y) ix = match tdims f with [] => [] | _ => ix end).
  { rewrite <- Dy; assert (N := dims_nil _ (spec_wf_bty _ Wy)).
    destruct (spec_bty y) as [| | |[|? ?]]; auto; destruct N as [N _]; discriminate (N eq_refl). }
  unfold at_bc; rewrite Dx', Dy', <- Px, <- Py.
  apply (K ix (sfun x (pick (spec_bty x) ix)) _ _ (sfun y (pick (spec_bty y) ix))); auto.
  - apply Hx; rewrite <- Dx; exact B1.
  - apply Hy; rewrite <- Dy; exact B2.
Qed.

(** Unary operators. *)
Lemma un_sfun u s ix : spec_wf s -> in_box (tdims_of (spec_bty s)) ix ->
  spec_wf (un_spec_post u s) /\ spec_bty (un_spec_post u s) = spec_bty s /\
  sfun (un_spec_post u s) ix = un_fn u (sfun s ix).
Proof.
  intros W B.
  assert (G : forall v, vwf v -> in_box (tdims_of (bty_of v)) ix ->
     spec_wf (Raw (vmutate (un_fn u) v)) /\ spec_bty (Raw (vmutate (un_fn u) v)) = bty_of v /\
     sfun (Raw (vmutate (un_fn u) v)) ix = un_fn u (vat fzero v ix)).
  { intros v Wv Bv; rewrite vmutate_vmap; cbn [spec_wf spec_bty sfun]; split; [apply vmap_wf; auto|].
    split; [apply vmap_bty|]; apply (vat_vmap _ _ fzero); auto. }
  destruct s as [v|t x|t x]; unfold un_spec_post.
  - apply G; auto.
  - auto.
  - assert (Q := G (unwrap (Diagonal t x)) (unwrap_wf (Diagonal t x) W)).
    rewrite (unwrap_bty (Diagonal t x)) in Q; destruct (Q B) as (Q1 & Q2 & Q3); split; [exact Q1|split; [exact Q2|]].
    rewrite Q3; f_equal; apply (vat_unwrap fzero (Diagonal t x)); auto.
Qed.

Lemma un_wf u s : spec_wf s -> spec_wf (un_spec_post u s) /\ spec_bty (un_spec_post u s) = spec_bty s.
Proof.
  intro W; destruct s as [v|t x|t x]; unfold un_spec_post.
  - rewrite vmutate_vmap; cbn [spec_wf spec_bty]; rewrite vmap_bty; split; [apply vmap_wf; exact W|reflexivity].
  - auto.
  - rewrite vmutate_vmap; split; [apply vmap_wf; apply (unwrap_wf (Diagonal t x)); exact W|].
    cbn [spec_bty]; rewrite vmap_bty; apply (unwrap_bty (Diagonal t x)).
Qed.

(** Contractions. *)
Lemma contract_sgood axes k l x y s e f a b :
  sgood k x e a -> sgood l y f b -> (axes = 0%nat \/ square_dims e f) ->
  (forall ix jx, in_box (tdims_of (spec_bty x)) ix -> in_box (tdims_of (spec_bty y)) jx ->
     (axes = 0%nat \/ last ix 0%nat = hd 0%nat jx) -> (normal_product_in emax) (sfun x ix) (sfun y jx)) ->
  contract_spec axes x y = Ok s ->
  sgood (match axes with O => S (k + l) | _ => (2 + k + l + last (tdims e) 0)%nat end) s
    (match axes with O => @outer R (R_scalar inf sp) e f | _ => @inner R (R_scalar inf sp) e f end)
    (match axes with O => @outer R size_scalar a b | _ => @inner R size_scalar a b end).
Proof.
  intros (Wx & Dx & Dx' & Hx) (Wy & Dy & Dy' & Hy) SQ NP H.
  destruct (contract_bty axes (spec_bty x) (spec_bty y)) as [t|] eqn:C;
    [|rewrite contract_spec_none in H by auto; discriminate].
  assert (Ft := contract_spec_fits axes x y t Wx Wy C); rewrite H in Ft; destruct Ft as [T W].
  assert (Sq : sq axes (spec_bty x) (spec_bty y)).
  { unfold square_dims in SQ; rewrite <- Dx, <- Dy in SQ; clear - SQ.
    destruct axes as [|[|?]]; simpl; auto.
    destruct SQ as [SQ|SQ]; [discriminate|].
    destruct (spec_bty x) as [| |?|[|? [|? [|? ?]]]], (spec_bty y) as [| |?|[|? [|? [|? ?]]]]; auto. }
  assert (En := fun ix => contract_spec_like f64_mul_comm eq_refl axes x y t s ix Wx Wy C Sq H).
  subst t; split; [exact W|].
  assert (Ha : forall ix, in_box (tdims_of (spec_bty x)) ix -> good k (sfun x ix) (tat e ix) (tat a ix))
    by (rewrite Dx; exact Hx).
  assert (Hb : forall ix, in_box (tdims_of (spec_bty y)) ix -> good l (sfun y ix) (tat f ix) (tat b ix))
    by (rewrite Dy; exact Hy).
  assert (Na : (normal_product_in emax) (sfun x []) (sfun y []) \/ True) by auto; clear Na Hx Hy SQ H.
  destruct axes as [|[|?]]; [| |discriminate];
    destruct (spec_bty x) as [| |?|[|? [|? [|? ?]]]], (spec_bty y) as [| |?|[|? [|? [|? ?]]]];
    try discriminate; cbn [contract_bty] in C;
    try (destruct (Nat.eqb _ _) eqn:Q in C; [|discriminate]; apply Nat.eqb_eq in Q; subst);
    injection C as C'; rewrite <- C' in *; clear C'; unfold outer, inner; rewrite ?Dx', ?Dy', <- ?Dx, <- ?Dy;
    cbn [sq] in Sq; subst;
    (split; [reflexivity|split; [reflexivity|]]); cbn [tdims tat]; intros ix B;
    cbn in B; specialize (En ix B);
    try (apply in_box_nil in B; subst ix);
    try (apply box1_inv in B; destruct B as (i & -> & Hi));
    try (apply box2_inv in B; destruct B as (i & j & -> & Hi & Hj));
    cbn in En |- *.
  all: try (apply (good_mul_like pow lib k l) with (4 := En); [apply Ha|apply Hb|apply NP; auto];
            cbn; repeat constructor; assumption).
  - apply good_le with (S (k + l)); [|lia].
    apply (good_mul_like pow lib k l) with (4 := En); [apply Ha|apply Hb|apply NP; auto]; cbn; constructor.
  - apply (good_dot_like pow lib inf sp n0 k l (fun i => sfun x [i]) (fun i => sfun y [i])
             (fun i => tat e [i]) (fun i => tat f [i]) (fun i => tat a [i]) (fun i => tat b [i])); auto;
      intros; [apply Ha|apply Hb|apply NP; auto]; cbn; repeat constructor; assumption.
  - apply (good_dot_like pow lib inf sp n1 k l (fun q => sfun x [q]) (fun q => sfun y [q; i])
             (fun q => tat e [q]) (fun q => tat f [q; i]) (fun q => tat a [q]) (fun q => tat b [q; i])); auto;
      intros; [apply Ha|apply Hb|apply NP; auto]; cbn; repeat constructor; assumption.
  - apply (good_dot_like pow lib inf sp n0 k l (fun q => sfun x [i; q]) (fun q => sfun y [q])
             (fun q => tat e [i; q]) (fun q => tat f [q]) (fun q => tat a [i; q]) (fun q => tat b [q])); auto;
      intros; [apply Ha|apply Hb|apply NP; auto]; cbn; repeat constructor; assumption.
  - apply (good_dot_like pow lib inf sp n1 k l (fun q => sfun x [i; q]) (fun q => sfun y [q; j])
             (fun q => tat e [i; q]) (fun q => tat f [q; j]) (fun q => tat a [i; q]) (fun q => tat b [q; j])); auto;
      intros; [apply Ha|apply Hb|apply NP; auto]; cbn; repeat constructor; assumption.
Qed.

(** The whole tree. *)
Notation den64 := (@den f64 g64 un_fn c).
Notation ev := (exact_value inf sp c).
Notation sv := (size_value c).

Lemma spec_tat (s : spec f64) ix : tat (tensor_of_spec s) ix = sfun s ix.
Proof. destruct s as [v|t x|t x]; reflexivity. Qed.
Lemma spec_tdims (s : spec f64) : tdims (tensor_of_spec s) = tdims_of (spec_bty s).
Proof. destruct s as [v|t x|t x]; reflexivity. Qed.

Lemma ev_dims n : tdims (ev n) = tdims (den64 n).
Proof. apply dims_through. Qed.
Lemma sv_dims n : tdims (sv n) = tdims (den64 n).
Proof. apply dims_through. Qed.

Definition Gt (n : node f64) (t : bty) : Prop := bty_wf t /\ tdims_of t = tdims (den64 n).
Definition Gs (n : node f64) (s : spec f64) : Prop :=
  sgood (adjoint_roundings c n) s (ev n) (sv n) /\ snd (evaluate_spec n c) = Ok s.

Lemma tri_self (A : Type) (P : A -> Prop) (f : ctx f64 -> ctx f64 * res err A) :
  tri (eq c) P f -> tri (eq c) (fun a => P a /\ snd (f c) = Ok a) f.
Proof. intros H c0 <-; destruct (H c eq_refl) as [H1 H2]; split; auto. Qed.

Lemma gt_bcast (l r : node f64) op a b t :
  Gt l a -> Gt r b -> bcast_post a b = Ok t ->
  bty_wf t /\ tdims_of t = tdims (pointwise op (den64 l) (den64 r)).
Proof.
  intros [Wa Da] [Wb Db]; unfold bcast_post; destruct (bcast_bty a b) as [t'| | |] eqn:B; try discriminate.
  intro H; apply Ok_inj in H; subst t'; split; [eapply bcast_bty_wf; eauto|].
  destruct (bcast_ok _ _ _ Wa Wb B) as [-> _]; rewrite Da, Db; reflexivity.
Qed.

Lemma shape_good n : node_wf n -> ring_tree n -> regular un_fn c n -> tri (eq c) (Gt n) (f_shape (interp n)).
Proof.
  induction n; intros W Rt Rg; try contradiction.
  - (* Var *)
    apply tri_const; intros c0 x <-; unfold read_bty; destruct (c i) as [v|] eqn:E; simpl; try discriminate.
    intro Q; apply Ok_inj in Q; subst x; split; [exact (vwf_bty _ (Wc i v E))|].
    simpl; unfold var_tensor; rewrite E; reflexivity.
  - (* VarAdj *)
    apply tri_const; intros c0 x <-; unfold read_bty.
    destruct (c i) as [vi|] eqn:Ei; [|discriminate]; destruct (c t) as [vt|] eqn:Et; [|discriminate]; simpl.
    destruct (adj_bty (bty_of vi) (bty_of vt)) as [sa|] eqn:Ea; [|discriminate].
    intro Q; apply Ok_inj in Q; subst x; split; [eapply adj_bty_wf; eauto|].
    simpl; unfold var_tensor; rewrite Ei, Et; simpl; apply adj_bty_dims; auto.
  - (* Const *)
    simpl in W; apply tri_const; intros c0 x <- Q; apply Ok_inj in Q; subst x; split; cbn; auto using vwf_bty.
  - (* ConstAdj *)
    assert (Hh := IHn W Rt Rg).
    change (tri (eq c) (Gt (ConstAdj n t)) (constadj_shape (interp n) t)).
    intros c0 Hc; unfold constadj_shape; destruct (Hh c0 Hc) as [C1 G1].
    destruct (f_shape (interp n) c0) as [c1 [sv'|e| |]]; simpl in *; (split; [auto|]); intros a Q; try discriminate Q.
    unfold read in Q; subst c1; destruct (c t) as [vt|] eqn:Et; simpl in Q; try discriminate.
    destruct (adj_bty sv' (bty_of vt)) as [sa|] eqn:Ea; try discriminate; apply Ok_inj in Q; subst a.
    split; [eapply adj_bty_wf; eauto|]; simpl; unfold var_tensor; rewrite Et; simpl.
    destruct (G1 sv' eq_refl) as [_ <-]; apply adj_bty_dims; auto.
  - (* Un *)
    exact (IHn W (ltac:(destruct u; try contradiction; exact Rt)) Rg).
  - (* Add *)
    destruct W as [W1 W2], Rg as (R1 & R2), Rt as [T1 T2].
    eapply tri_both_shape; [exact (IHn1 W1 T1 R1)|exact (IHn2 W2 T2 R2)|]; intros; eapply gt_bcast; eauto.
  - (* Sub *)
    destruct W as [W1 W2], Rg as (R1 & R2 & R3), Rt as [T1 T2].
    eapply tri_both_shape; [exact (IHn1 W1 T1 R1)|exact (IHn2 W2 T2 R2)|]; intros; eapply gt_bcast; eauto.
  - (* Mul *)
    destruct W as [W1 W2], Rg as (R1 & R2), Rt as [T1 T2].
    eapply tri_both_shape; [exact (IHn1 W1 T1 R1)|exact (IHn2 W2 T2 R2)|]; intros; eapply gt_bcast; eauto.
  - (* Contract *)
    destruct W as [W1 W2], Rt as [T1 T2].
    assert (Rg' : regular un_fn c n1 /\ regular un_fn c n2 /\ (axes = 0%nat \/ square_dims (den64 n1) (den64 n2))).
    { destruct axes; simpl in Rg; tauto. }
    destruct Rg' as (R1 & R2 & R3).
    eapply tri_both_shape; [exact (IHn1 W1 T1 R1)|exact (IHn2 W2 T2 R2)|].
    intros a b t [Wa Da] [Wb Db] Q; destruct (contract_bty axes a b) as [t'|] eqn:C; [|discriminate].
    apply Ok_inj in Q; subst t'; split; [eapply contract_bty_wf; eauto|].
    assert (Sq : sq axes a b).
    { unfold square_dims in R3; rewrite <- Da, <- Db in R3; clear - R3.
      destruct axes as [|[|?]]; simpl; auto.
      destruct R3 as [SQ|SQ]; [discriminate|].
      destruct a as [| |?|[|? [|? [|? ?]]]], b as [| |?|[|? [|? [|? ?]]]]; auto. }
    assert (Dt : tdims_of t = tdims (match axes with O => outer (den64 n1) (den64 n2) | _ => inner (den64 n1) (den64 n2) end)).
    { clear - C Da Db Sq; destruct axes as [|[|?]]; [| |discriminate];
        destruct a as [| |?|[|? [|? [|? ?]]]], b as [| |?|[|? [|? [|? ?]]]];
        try discriminate; cbn [contract_bty] in C;
        try (destruct (Nat.eqb _ _) eqn:Q in C; [|discriminate]; apply Nat.eqb_eq in Q; subst);
        inversion C as [C']; unfold outer, inner; cbn [tdims]; rewrite <- Da, <- Db; cbn in *; subst; auto. }
    rewrite Dt; destruct axes; reflexivity.
Qed.

Lemma good_one k : good k (foz 1) 1 1.
Proof. apply good_le with 0%nat; [exact one_good|lia]. Qed.

Lemma tree_good n :
  node_wf n -> ring_tree n -> regular un_fn c n -> inputs_all fvalid c n -> no_tiny_product_in c emax n ->
  tri (eq c) (Gs n) (f_spec (interp n)).
Proof.
  intros W Rt Rg [Iv Ic] NT; revert W Rt Rg Ic NT; induction n; intros W Rt Rg Ic NT; try contradiction;
    apply tri_self.
  - (* Var *)
    apply tri_const; intros c0 x <-; unfold read_spec; destruct (c i) as [v|] eqn:E; simpl; try discriminate.
    intro Q; apply Ok_inj in Q; subst x; unfold exact_value, size_value, var_tensor, ctx_through.
    cbn [node_through den]; unfold var_tensor; rewrite E; cbn [option_map].
    apply leaf_sgood; [exact (Wc i v E)|exact (Iv i v E)].
  - (* VarAdj *)
    apply tri_const; intros c0 x <- H; unfold read_bty in H.
    destruct (c i) as [vi|] eqn:Ei; [|discriminate].
    destruct (c t) as [vt|] eqn:Et; [|discriminate]; cbn [res_bind res_map_err ok_or_undef option_map] in H.
    destruct (adj_bty (bty_of vi) (bty_of vt)) as [sa|] eqn:Ea; [|discriminate].
    destruct (varadj_spec_ok c i t vi vt sa Ei Et Ea) as (s' & Es & Ts & Ws & En).
    unfold varadj_spec, read_bty in Es; rewrite Ei, Et in Es; cbn [res_bind res_map_err ok_or_undef option_map] in Es.
    rewrite Ea in Es; apply (f_equal snd) in Es; cbn [snd] in Es; rewrite Es in H; apply Ok_inj in H; subst x.
    assert (Da := adj_bty_dims _ _ _ Ea).
    unfold exact_value, size_value, ctx_through; cbn [node_through den]; unfold var_tensor; rewrite Ei, Et.
    cbn [option_map]; unfold tensor_of, vshape; cbn [tdims tat]; rewrite !vmap_bty.
    split; [exact Ws|cbn [tdims tat]]; rewrite Ts; split; [exact Da|split; [reflexivity|]].
    intros ix B; apply in_box_app in B; destruct B as [B1 B2].
    rewrite <- (firstn_skipn (length (dims (bty_shape (bty_of vi)))) ix) at 1.
    rewrite En by auto; change (ident_eqb i t) with (Nat.eqb i t); change list_nat_eqb with ix_eqb.
    match goal with |- context [if ?q then _ else _] => destruct q end; [exact one_good|exact zero_good].
  - (* Const *)
    simpl in W; apply tri_const; intros c0 x <- Q; apply Ok_inj in Q; subst x; apply leaf_sgood; auto.
  - (* ConstAdj *)
    assert (S1 := shape_good (ConstAdj n t) W Rt Rg).
    apply (tri_post (eq c) _ _ (Gt (ConstAdj n t)) _ _ (res_map (fun sa => Full sa fzero)) S1).
    intros [sa| | |] s Hr Q; simpl in Q; try discriminate; apply Ok_inj in Q; subst s.
    destruct (Hr sa eq_refl) as [W1 D1]; split; [exact W1|].
    split; [rewrite ev_dims; exact D1|split; [rewrite sv_dims, ev_dims; reflexivity|]].
    intros ix Bx; exact zero_good.
  - (* Un *)
    assert (Rm : ring_tree n) by (destruct u; try contradiction; exact Rt).
    assert (Nm : no_tiny_product_in c emax n) by (destruct u; try contradiction; try exact NT; apply NT).
    assert (Hs := IHn W Rm Rg Ic Nm).
    apply (tri_post (eq c) _ _ (Gs n) _ _ (res_map (un_spec_post u)) Hs).
    intros [s| | |] s' Hr Q; simpl in Q; try discriminate; apply Ok_inj in Q; subst s'.
    destruct (Hr s eq_refl) as [(Ws & D & D' & H) Es].
    destruct (un_wf u s Ws) as [W' T']; split; [exact W'|]; rewrite T'.
    split; [exact D|split; [exact D'|]]; unfold exact_value, size_value in *; cbn [node_through den tdims tat] in *.
    intros ix Bx; assert (K := H ix Bx).
    assert (Bs : in_box (tdims_of (spec_bty s)) ix) by (rewrite D; exact Bx).
    destruct (un_sfun u s ix Ws Bs) as (_ & _ & ->); rewrite <- (real_un_fn inf sp u).
    destruct u; try contradiction; cbn [adjoint_roundings un_fn] in *; unfold ftwo in *;
      cbn [fsub fadd fone fmul fneg fabs g64 float_scalar R_scalar size_scalar] in *.
    + apply good_sub; auto using good_one.
    + apply good_sub; auto using good_one.
    + apply good_add; auto using good_one.
    + apply good_double; auto.
    + apply good_neg; auto.
    + match goal with |- good _ _ _ (Rabs ?m) => rewrite (Rabs_pos_eq m) by (eapply good_nonneg; exact K) end.
      apply good_abs; auto.
    + match goal with |- good ?k _ _ _ => replace k with (S (adjoint_roundings c n + S (adjoint_roundings c n))) by lia end.
      apply good_mul; auto.
      * apply good_sub; auto using good_one.
      * destruct NT as [_ NT].
        assert (E1 : snd (evaluate_spec (Un OneSub n) c) = Ok (un_spec_post OneSub s)).
        { unfold evaluate_spec in *; cbn [interp unary_fn f_spec].
          destruct (f_spec (interp n) c) as [c1 r]; cbn [snd] in Es; subst r; reflexivity. }
        destruct (un_sfun OneSub s ix Ws Bs) as (_ & T1 & F1).
        assert (X := NT _ _ Es E1 ix ix); rewrite !spec_tdims, !spec_tat, T1, F1 in X.
        apply X; auto.
  - (* Add *)
    destruct W as [W1 W2], Rt as [T1 T2], Rg as [R1 R2], Ic as [I1 I2], NT as [N1 N2].
    eapply tri_both; [exact (IHn1 W1 T1 R1 I1 N1)|exact (IHn2 W2 T2 R2 I2 N2)|].
    intros x y s [Hx Ex] [Hy Ey] Q; apply map_err_ok in Q.
    apply (zip_sgood (Nat.max (adjoint_roundings c n1) (adjoint_roundings c n2))
             (Nat.max (adjoint_roundings c n1) (adjoint_roundings c n2)) _ add_like Rplus Rplus x y s);
      try (eapply sgood_le; [eassumption|lia]).
    + apply add_zipl; try apply Hx; try apply Hy; auto; exact f64_add_comm.
    + intros; eapply good_add_like; eauto.
  - (* Sub *)
    destruct W as [W1 W2], Rt as [T1 T2], Rg as (R1 & R2 & R3), Ic as [I1 I2], NT as [N1 N2].
    eapply tri_both; [exact (IHn1 W1 T1 R1 I1 N1)|exact (IHn2 W2 T2 R2 I2 N2)|].
    intros x y s [Hx Ex] [Hy Ey] Q; apply map_err_ok in Q.
    apply (zip_sgood (Nat.max (adjoint_roundings c n1) (adjoint_roundings c n2))
             (Nat.max (adjoint_roundings c n1) (adjoint_roundings c n2)) _ sub_like Rminus Rplus x y s);
      try (eapply sgood_le; [eassumption|lia]).
    + apply sub_zipl; try apply Hx; try apply Hy; auto.
      destruct Hx as (_ & Da & _), Hy as (_ & Db & _); unfold keeps_order in R3.
      rewrite <- ev_dims, <- (ev_dims n2), <- Da, <- Db in R3.
      destruct (spec_bty x), (spec_bty y); auto; cbn [swapped tdims_of] in *; apply Nat.leb_gt; specialize (R3 eq_refl);
        unfold tdims_of in R3; simpl in R3; lia.
    + intros; eapply good_sub_like; eauto.
  - (* Mul *)
    destruct W as [W1 W2], Rt as [T1 T2], Rg as [R1 R2], Ic as [I1 I2], NT as (N1 & N2 & N3).
    eapply tri_both; [exact (IHn1 W1 T1 R1 I1 N1)|exact (IHn2 W2 T2 R2 I2 N2)|].
    intros x y s [Hx Ex] [Hy Ey] Q; apply map_err_ok in Q.
    apply (zip_sgood (adjoint_roundings c n1) (adjoint_roundings c n2) _ mul_like Rmult Rmult x y s); auto.
    + apply mul_zipl; try apply Hx; try apply Hy; auto; exact f64_mul_comm.
    + intros ix X e a Y f b Z B1 B2 -> -> G1 G2 L.
      apply (good_mul_like pow lib) with (4 := L); auto.
      assert (V := N3 _ _ Ex Ey (pick (spec_bty x) ix) (pick (spec_bty y) ix)).
      rewrite !spec_tdims, !spec_tat in V; apply V; auto.
      destruct (spec_bty x), (spec_bty y); cbn [pick]; auto.
  - (* Contract *)
    destruct W as [W1 W2], Rt as [T1 T2], Ic as [I1 I2], NT as (N1 & N2 & N3).
    assert (Rg' : regular un_fn c n1 /\ regular un_fn c n2 /\ (axes = 0%nat \/ square_dims (ev n1) (ev n2))).
    { unfold square_dims; rewrite !ev_dims; destruct axes; simpl in Rg; tauto. }
    destruct Rg' as (R1 & R2 & R3).
    eapply tri_both; [exact (IHn1 W1 T1 R1 I1 N1)|exact (IHn2 W2 T2 R2 I2 N2)|].
    intros x y s [Hx Ex] [Hy Ey] Q; apply map_err_ok in Q.
    assert (K := contract_sgood axes _ _ x y s _ _ _ _ Hx Hy R3).
    assert (V := N3 _ _ Ex Ey); setoid_rewrite spec_tdims in V; setoid_rewrite spec_tat in V.
    specialize (K V Q); rewrite ev_dims in K.
    destruct axes; exact K.
Qed.

End Tree.

(** Evaluation of such trees, and of gradients. *)
Section Claims.
Variables (pow : f64 -> f64 -> f64) (lib : libfn -> f64 -> f64) (inf : R) (sp : libfn -> R -> R).
#[local] Instance h64 : Scalar f64 := float_scalar prec emax pow lib.

Lemma tree_holds (c c' : ctx f64) (n : node f64) (v : value f64) :
  ctx_wf c -> node_wf n -> ring_tree n -> regular un_fn c n -> inputs_all fvalid c n ->
  no_tiny_product_in c emax n -> evaluate n c = (c', Ok v) ->
  dims (vshape v) = tdims (exact_value inf sp c n) /\
  forall ix, in_box (dims (vshape v)) ix ->
    good (adjoint_roundings c n) (vat f64_zero v ix) (tat (exact_value inf sp c n) ix) (tat (size_value c n) ix).
Proof.
  intros Wc W Rt Rg Iv NT E.
  assert (T := tree_good pow lib inf sp c Wc n W Rt Rg Iv NT c eq_refl); destruct T as [_ T].
  rewrite (sum_spine_agrees n (proj1 (ring_tree_facts n Rt)) c) in E.
  unfold evaluate_spec in E; destruct (f_spec (interp n) c) as [c1 r]; cbn [fst snd] in *.
  destruct r as [s| | |]; cbn [res_map] in E; try discriminate E.
  apply (f_equal snd) in E; cbn [snd] in E; apply Ok_inj in E; subst v.
  destruct (T s eq_refl) as [(Ws & D & _ & H) _].
  unfold vshape; rewrite unwrap_bty; fold (tdims_of (spec_bty s)); rewrite D; split; [reflexivity|].
  intros ix Bx; change f64_zero with (@fzero f64 h64); rewrite vat_unwrap by (auto; rewrite ?D; auto).
  apply H; exact Bx.
Qed.

Lemma tree_error (c c' : ctx f64) (n : node f64) (v : value f64) ix :
  ctx_wf c -> node_wf n -> ring_tree n -> regular un_fn c n -> inputs_all fvalid c n ->
  no_tiny_product_in c emax n -> evaluate n c = (c', Ok v) ->
  in_box (dims (vshape v)) ix -> finite (vat f64_zero v ix) ->
  Rabs (f64_real (vat f64_zero v ix) - tat (exact_value inf sp c n) ix)
    <= ((1 + / 2 ^ Z.to_nat prec) ^ adjoint_roundings c n - 1) * tat (size_value c n) ix.
Proof.
  intros Wc W Rt Rg Iv NT E Bx Fx; destruct (tree_holds c c' n v Wc W Rt Rg Iv NT E) as [_ H].
  destruct (H ix Bx) as (_ & _ & K); exact (K Fx).
Qed.

Lemma posed_regular G (c : ctx R) t n n' :
  posed G c t n n' -> @regular R (R_scalar inf sp) (real_un inf sp) c n -> smooth inf sp c t n ->
  @regular R (R_scalar inf sp) (real_un inf sp) c n'.
Proof.
  intros [O U W F Sc A Ty Ty' Q Q'] Rg Sm; assert (N := gradient_novec _ _ _ _ A Ty').
  destruct (typeof G n) as [k|] eqn:T; [|congruence]; destruct (typeof G n') as [k'|] eqn:T'; [|congruence].
  assert (Un : forall i, uses n i -> c i <> None) by auto.
  assert (Ct : c t <> None) by auto.
  destruct (adjoint_dims G t n n' k k' Sc A T T') as (d & TT & kt & D & Gt & DT & D').
  exact (regular_adj inf sp G c t TT kt O Ct Gt DT n n' k k' Sc A T T' Q Q' Un Sm Rg).
Qed.

Lemma constants_adjoint {A} (P : A -> Prop) (n n' : node A) t :
  constants_all P n -> adjoint n t = Some n' -> constants_all P n'.
Proof.
  revert n'; induction n; intros n' C A0; cbn [constants_all adjoint] in *; try discriminate;
    try (injection A0 as <-; cbn; auto; fail); auto.
  - destruct (ident_eqb _ _); [auto|discriminate].
  - destruct (adjoint n t) as [m'|] eqn:E; [|discriminate]; cbn [obind] in A0.
    assert (K := IHn m' C eq_refl).
    destruct u; cbn [un_adjoint] in A0; try discriminate; injection A0 as <-; cbn; auto.
  - destruct (adjoint n1 t) as [l'|] eqn:E1; [|discriminate]; destruct (adjoint n2 t) as [r'|] eqn:E2; [|discriminate].
    injection A0 as <-; destruct C as [C1 C2]; cbn; auto 10.
  - destruct (adjoint n1 t) as [l'|] eqn:E1; [|discriminate]; destruct (adjoint n2 t) as [r'|] eqn:E2; [|discriminate].
    injection A0 as <-; destruct C as [C1 C2]; cbn; auto 10.
  - destruct (adjoint n1 t) as [l'|] eqn:E1; [|discriminate]; destruct (adjoint n2 t) as [r'|] eqn:E2; [|discriminate].
    injection A0 as <-; destruct C as [C1 C2]; cbn; auto 10.
  - destruct (adjoint n1 t) as [l'|] eqn:E1; [|discriminate]; destruct (adjoint n2 t) as [r'|] eqn:E2; [|discriminate].
    injection A0 as <-; destruct C as [C1 C2]; cbn; auto 10.
  - destruct (adjoint n1 t) as [l'|] eqn:E1; [|discriminate]; destruct (adjoint n2 t) as [r'|] eqn:E2; [|discriminate].
    injection A0 as <-; destruct C as [C1 C2]; cbn; auto 10.
  - destruct (adjoint n1 t) as [l'|] eqn:E1; [|discriminate]; destruct (adjoint n2 t) as [r'|] eqn:E2; [|discriminate].
    injection A0 as <-; destruct C as [C1 C2]; cbn; auto 10.
Qed.

Lemma gradient_error G (c c' : ctx f64) t (n n' : node f64) (w x : value f64) i j :
  ctx_wf c -> node_wf n -> inputs_all fvalid c n -> adjoint n t = Some n' ->
  posed G (ctx_through f64_real c) t (node_through f64_real n) (node_through f64_real n') ->
  @regular R (R_scalar inf sp) (real_un inf sp) (ctx_through f64_real c) (node_through f64_real n) ->
  smooth inf sp (ctx_through f64_real c) t (node_through f64_real n) ->
  ring_tree n' -> no_tiny_product_in c emax n' ->
  evaluate_adjoint n t c = Some (c', Ok w) -> c t = Some x ->
  in_box (dims (vshape w)) (i ++ j) -> in_box (dims (vshape x)) j -> finite (vat f64_zero w (i ++ j)) ->
  exists d,
    derivable_pt_lim
      (fun h => entry inf sp (node_through f64_real n) (bump (ctx_through f64_real c) t j h) i) 0 d /\
    Rabs (f64_real (vat f64_zero w (i ++ j)) - d)
      <= ((1 + / 2 ^ Z.to_nat prec) ^ adjoint_roundings c n' - 1) * tat (size_value c n') (i ++ j).
Proof.
  intros Wc W [Iv Ic] A P Rg Sm Rt NT Ew Ex Bij Bj Fx.
  assert (Rg' := posed_regular _ _ _ _ _ P Rg Sm).
  assert (Rf : regular un_fn c n') by (exact (proj1 (regular_through un_fn (real_un inf sp) f64_real c n' Rt) Rg')).
  unfold evaluate_adjoint in Ew; rewrite A in Ew; cbn [option_map] in Ew; injection Ew as Ew.
  assert (Wn' := adjoint_wf _ _ _ W A).
  assert (Iv' : inputs_all fvalid c n') by (split; [exact Iv|exact (constants_adjoint _ _ _ _ Ic A)]).
  assert (TE := tree_error c c' n' w (i ++ j) Wc Wn' Rt Rf Iv' NT Ew Bij Fx).
  destruct (tree_holds c c' n' w Wc Wn' Rt Rf Iv' NT Ew) as [Dw _].
  destruct (jacobian_real inf sp G _ t _ _ P Rg Sm) as (vr & wr & xr & Ev & Er & Exr & D & J).
  assert (P' := P); destruct P' as [PO PU PW PF PS PA PT PT' PQ PQ'].
  unfold evaluate_adjoint in Er; rewrite PA in Er; cbn [option_map] in Er; injection Er as Er.
  assert (Wcr : ctx_wf (ctx_through f64_real c)) by (intros k v K; apply (PO k v K)).
  destruct (value_real inf sp _ _ _ wr (adjoint_wf _ _ _ PW PA) Wcr (adjoint_cache_free _ _ _ PF PA) Rg' Er)
    as [_ [H1 H2]].
  assert (Dx : dims (vshape xr) = dims (vshape x)).
  { unfold ctx_through in Exr; rewrite Ex in Exr; injection Exr as <-; unfold vshape; rewrite vmap_bty; reflexivity. }
  assert (Dww : dims (vshape w) = dims (vshape wr)) by (rewrite Dw, H1; reflexivity).
  assert (Bi : in_box (dims (vshape vr)) i).
  { rewrite Dww, D in Bij; assert (L := in_box_length _ _ Bij); rewrite !app_length in L.
    rewrite Dx in L; assert (Lj := in_box_length _ _ Bj).
    apply Index_facts.in_box_app in Bij; destruct Bij as [B1 _].
    rewrite firstn_app, firstn_all2 in B1 by lia.
    replace (length (dims (vshape vr)) - length i)%nat with 0%nat in B1 by lia.
    cbn [firstn] in B1; rewrite app_nil_r in B1; exact B1. }
  exists (vat 0 wr (i ++ j)); split; [apply J; [exact Bi|rewrite Dx; exact Bj]|].
  assert (K := H2 (i ++ j)%list); rewrite Dww in Bij; unfold exact_value in TE.
  change (@fzero R (R_scalar inf sp)) with 0 in K; rewrite K by (rewrite ?H1 in *; exact Bij); exact TE.
Qed.

End Claims.

End Formats.
