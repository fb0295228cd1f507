(** Claims about second derivatives, in the form used by Properties_hessian.v. *)
From Coq Require Import List Arith ZArith Reals Bool Lia Lra FunctionalExtensionality.
Import ListNotations.
From Verif Require Import Base Shapes Scalar Buffers Spec Contraction Node Eval Types Instances
  Vocab Math Real_math Calculus Index_facts Shapes_facts Buffers_facts Typing_facts Eval_facts
  Exact_facts Math_facts Instance_facts Eval_claims Math_claims Adjoint_facts Zero_facts Calculus_facts
  Jacobian_facts Adjoint_claims Calculus_claims Hessian_facts.
Local Open Scope R_scope.

Ltac inv_all := repeat match goal with
  | H : obind _ _ = Some _ |- _ => apply obind_some in H; destruct H as (? & ? & H); cbn [un_adjoint] in H; try discriminate H
  | H : Some _ = Some _ |- _ => inversion H; subst; clear H
  end.

Section Claims.
Variables (inf : R) (sp : libfn -> R -> R).
Notation S0 := (R_scalar inf sp).
Notation um := (real_un inf sp).
Notation den' := (rden inf sp).

(** Every operation of [n] is twice differentiable at [c]. *)
Fixpoint tame (c : ctx R) (n : node R) : Prop :=
  match n with
  | Var _ => True
  | Un u m => tame c m /\ twice_op u = true /\
              forall i, in_box (tdims (den' c m)) i -> smooth_at sp u (tat (den' c m) i)
  | Sum m => tame c m
  | Power b e => tame c b /\ tame c e /\ 0 < tat (den' c b) []
  | Add l r | Sub l r | Mul l r | Contract _ l r => tame c l /\ tame c r
  | Div l r => tame c l /\ tame c r /\ forall i, in_box (tdims (den' c r)) i -> tat (den' c r) i <> 0
  | _ => False
  end.


Lemma tame_of c t u G (n : node R) : forall n1 n12 k,
  ctx_ok G c -> (forall i, uses n i -> c i <> None) -> square G n -> typeof G n = Some k ->
  adjoint n t = Some n1 -> adjoint n1 u = Some n12 -> smooth inf sp c t n -> smooth inf sp c u n1 -> tame c n.
Proof.
  induction n; intros n1' n12 k0 O U Sq Ty A B S1 S2; cbn [adjoint] in A; try discriminate.
  - exact Logic.I.
  - injection A as <-; discriminate B.
  - injection A as <-; discriminate B.
  - destruct S1.
  - (* Un *)
    apply obind_some in A; destruct A as (m' & A & A'); cbn [typeof uses square smooth] in *.
    destruct S1 as [S1 S1'].
    assert (X : twice_op u0 = true /\ smooth inf sp c u m' /\ exists m'', adjoint m' u = Some m'').
    { destruct u0; cbn [un_adjoint] in A'; try discriminate; injection A' as <-; cbn [adjoint un_adjoint] in B;
        inv_all; cbn [smooth] in S2; (split; [reflexivity|split; [tauto|eauto]]). }
    destruct X as (X1 & X2 & m'' & X3); cbn [tame]; split; [eauto|split; auto].
  - cbn [typeof uses square smooth tame] in *.
    apply obind_some in Ty; destruct Ty as (km & Tm & _); eauto.
  - (* Power *)
    inv_all; cbn [adjoint] in B; inv_all; cbn [typeof uses square smooth tame] in *.
    apply obind_some in Ty; destruct Ty as (kb & Tb & Ty); apply obind_some in Ty; destruct Ty as (ke & Te & Ty).
    destruct S1 as (S1 & S1' & _).
    destruct S2 as (_ & (_ & S3) & (S4 & S5) & S6).
    destruct Sq as [Sq1 Sq2].
    split; [eauto|split; [eauto|]].
    destruct kb, ke; try discriminate.
    assert (D : tdims (den' c n2) = []) by (unfold rden; eapply typed_dims; eauto; reflexivity).
    assert (D1 : tdims (den' c n1) = []) by (unfold rden; eapply typed_dims; eauto; reflexivity).
    apply (S5 []); unfold dims_at; rewrite D1; constructor.
  - inv_all; cbn [adjoint] in B; inv_all; cbn [typeof uses square smooth tame] in *.
    apply obind_some in Ty; destruct Ty as (kb & Tb & Ty); apply obind_some in Ty; destruct Ty as (ke & Te & Ty).
    destruct S1, S2, Sq; split; eauto.
  - inv_all; cbn [adjoint] in B; inv_all; cbn [typeof uses square smooth tame] in *.
    apply obind_some in Ty; destruct Ty as (kb & Tb & Ty); apply obind_some in Ty; destruct Ty as (ke & Te & Ty).
    destruct S1, S2, Sq; split; eauto.
  - inv_all; cbn [adjoint] in B; inv_all; cbn [typeof uses square smooth tame] in *.
    apply obind_some in Ty; destruct Ty as (kb & Tb & Ty); apply obind_some in Ty; destruct Ty as (ke & Te & Ty).
    destruct S1, S2 as [[? ?] [? ?]], Sq; split; eauto.
  - inv_all; cbn [adjoint] in B; inv_all; cbn [typeof uses square smooth tame] in *.
    apply obind_some in Ty; destruct Ty as (kb & Tb & Ty); apply obind_some in Ty; destruct Ty as (ke & Te & Ty).
    destruct S1 as (? & ? & ?), S2 as [[[? ?] [? ?]] [? ?]], Sq; split; eauto.
  - inv_all; cbn [adjoint] in B; inv_all; cbn [typeof uses square tame] in *.
    apply obind_some in Ty; destruct Ty as (kb & Tb & Ty); apply obind_some in Ty; destruct Ty as (ke & Te & Ty).
    assert (Y : smooth inf sp c t n1 /\ smooth inf sp c t n2) by (cbn [smooth] in S1; destruct axes; tauto).
    destruct Y, Sq as (? & ? & _).
    destruct axes; cbn [smooth] in S2; destruct S2 as [(? & ? & _) (? & ? & _)]; split; eauto.
Qed.

Section Two.
Variables (G : tenv) (c : ctx R) (t u : ident) (j k : list nat).
Hypothesis OK : ctx_ok G c.
Let W : ctx_wf c.
Proof. intros i v E; destruct (OK i v E); auto. Qed.

Definition at2 (s h : R) : ctx R := bump (bump c u k h) t j s.

Lemma wf_bump a b h : ctx_wf (bump c a b h).
Proof. intros i v E; destruct (bump_ok G c a b h OK i v E); auto. Qed.

Lemma at2_dims s h n : tdims (den' (at2 s h) n) = tdims (den' c n).
Proof. unfold at2; rewrite !bump_dims; auto. Qed.

Lemma at2_00 n : den' (at2 0 0) n = den' c n.
Proof. unfold at2; rewrite bump0 by apply wf_bump; apply bump0; auto. Qed.

Lemma at2_bc s h n i : at_bc (den' (at2 s h) n) i = tat (den' (at2 s h) n) (sub_ix (tdims (den' c n)) i).
Proof. rewrite at_bc_sub, at2_dims; auto. Qed.

Lemma bump_at (c0 : ctx R) a b g i v ix : c0 i = Some v -> vwf v -> in_box (dims (vshape v)) ix ->
  exists v', bump c0 a b g i = Some v' /\ vwf v' /\ vshape v' = vshape v /\
             vat 0 v' ix = vat 0 v ix + (if Nat.eqb i a && ix_eqb ix b then 1 else 0) * g.
Proof.
  intros E V B; unfold bump; destruct (Nat.eqb_spec i a) as [<-|N]; cbn [andb].
  - exists (bump_value b g v); rewrite E; split; auto; split; [apply bump_wf; auto|split; [apply bump_shape|]].
    rewrite vat_bump by auto; destruct (ix_eqb ix b); ring.
  - exists v; split; auto; split; auto; split; auto; ring.
Qed.

Lemma sym_var i ix : c i <> None -> in_box (tdims (den' c (Var i))) ix ->
  sym (fun s h => tat (den' (at2 s h) (Var i)) ix).
Proof.
  intros N B.
  apply sym_ext with (f := fun s h => tat (den' c (Var i)) ix
    + (if Nat.eqb i t && ix_eqb ix j then 1 else 0) * s + (if Nat.eqb i u && ix_eqb ix k then 1 else 0) * h);
    [|apply sym_affine].
  intros s h; unfold rden in *; cbn [den] in *; unfold var_tensor in *.
  assert (V : forall v, c i = Some v -> vwf v) by (intros v Hv; eapply W; eauto).
  destruct (c i) as [v|] eqn:E; [|congruence]; specialize (V v eq_refl); cbn [tdims tat tensor_of] in *.
  destruct (bump_at c u k h i v ix E V B) as (v1 & E1 & V1 & S1 & A1).
  assert (B1 : in_box (dims (vshape v1)) ix) by (rewrite S1; auto).
  destruct (bump_at _ t j s i v1 ix E1 V1 B1) as (v2 & E2 & V2 & S2 & A2).
  unfold at2; rewrite E2; cbn [tat tensor_of].
  change (@fzero R S0) with 0; rewrite A2, A1; ring.
Qed.

Lemma sym_at_bc l d i a : tdims (den' c l) = a -> a = [] \/ a = d -> in_box d i ->
  (forall i, in_box a i -> sym (fun s h => tat (den' (at2 s h) l) i)) ->
  sym (fun s h => at_bc (den' (at2 s h) l) i).
Proof.
  intros D E B H; apply sym_ext with (f := fun s h => tat (den' (at2 s h) l) (sub_ix a i)).
  - intros s h; rewrite at2_bc, D; auto.
  - apply H; eapply sub_box; eauto.
Qed.

Lemma sym_pair l r kl kr kn d ix : typeof G l = Some kl -> typeof G r = Some kr -> zip_sty kl kr = Some kn ->
  sty_dims kn = Some d -> square G l -> square G r ->
  (forall i, uses l i -> c i <> None) -> (forall i, uses r i -> c i <> None) -> in_box d ix ->
  (forall kn d i, typeof G l = Some kn -> sty_dims kn = Some d -> in_box d i -> sym (fun s h => tat (den' (at2 s h) l) i)) ->
  (forall kn d i, typeof G r = Some kn -> sty_dims kn = Some d -> in_box d i -> sym (fun s h => tat (den' (at2 s h) r) i)) ->
  sym (fun s h => at_bc (den' (at2 s h) l) ix) /\ sym (fun s h => at_bc (den' (at2 s h) r) ix) /\
  in_box (tdims (den' c r)) (sub_ix (tdims (den' c r)) ix).
Proof.
  intros Kl Kr Z D Ql Qr Ul Ur B Hl Hr.
  destruct (zip_sty_back _ _ _ _ Z D) as (a & b & A & A'), (zip_sty_dims _ _ _ _ _ Z A A') as (d' & D' & Zd).
  assert (d' = d) by congruence; subst d'; destruct (zip_sub _ _ _ Zd) as [Za Zb].
  assert (Dl : tdims (den' c l) = a) by (unfold rden; eapply typed_dims; eauto).
  assert (Dr : tdims (den' c r) = b) by (unfold rden; eapply typed_dims; eauto).
  split; [|split].
  - eapply sym_at_bc; eauto.
  - eapply sym_at_bc; eauto.
  - rewrite Dr; eapply sub_box; eauto.
Qed.

Lemma sym_den n : forall kn d i, typeof G n = Some kn -> sty_dims kn = Some d -> square G n -> scalar_sums G n ->
  (forall i, uses n i -> c i <> None) -> tame c n -> in_box d i ->
  sym (fun s h => tat (den' (at2 s h) n) i).
Proof.
  induction n; intros kn d ix Ty D Sq Sc U Tm B; cbn [tame] in Tm; try contradiction.
  - apply sym_var; [apply U; reflexivity|]; unfold rden; erewrite typed_dims; eauto.
  - (* Un *)
    destruct Tm as (Tm & Tu & Sm); cbn [typeof square uses scalar_sums] in *.
    assert (Dn : tdims (den' c n) = d) by (unfold rden; eapply typed_dims; eauto).
    apply (sym_comp (um u0) (fun s h => tat (den' (at2 s h) n) ix)); [eapply IHn; eauto|].
    rewrite at2_00; apply twice_un; auto; apply Sm; rewrite Dn; auto.
  - (* Sum *)
    cbn [typeof square uses scalar_sums] in *; apply obind_some in Ty; destruct Ty as (km & Tym & Ty).
    destruct Sc as [Sc Sk]; assert (km = KS) by congruence; subst km.
    assert (Dn : tdims (den' c n) = []) by (unfold rden; eapply typed_dims; eauto; reflexivity).
    apply sym_ext with (f := fun s h => tat (den' (at2 s h) n) []).
    + intros s h.
      change (tat (den' (at2 s h) n) [] =
        @sum_over R S0 _ (all_ix (tdims (den' (at2 s h) n))) (tat (den' (at2 s h) n))).
      rewrite at2_dims, Dn; cbn; ring.
    + eapply IHn; eauto; [reflexivity|constructor].
  - (* Power *)
    cbn [typeof square uses scalar_sums] in *.
    apply obind_some in Ty; destruct Ty as (kl & Kl & Ty); apply obind_some in Ty; destruct Ty as (kr & Kr & Ty).
    destruct kl, kr; try discriminate; destruct Tm as (T1 & T2 & P), Sq as [Q1 Q2], Sc as [C1 C2].
    apply (sym_pow (fun s h => tat (den' (at2 s h) n1) []) (fun s h => tat (den' (at2 s h) n2) [])).
    + eapply IHn1; eauto; [reflexivity|constructor].
    + eapply IHn2; eauto; [reflexivity|constructor].
    + rewrite at2_00; auto.
  - cbn [typeof square uses scalar_sums] in *.
    apply obind_some in Ty; destruct Ty as (kl & Kl & Ty); apply obind_some in Ty; destruct Ty as (kr & Kr & Ty).
    destruct Tm as (T1 & T2), Sq as [Q1 Q2], Sc as [C1 C2].
    destruct (sym_pair n1 n2 kl kr kn d ix) as (A1 & A2 & _); auto; [intros; eapply IHn1; eauto|intros; eapply IHn2; eauto|].
    exact (sym_add _ _ A1 A2).
  - cbn [typeof square uses scalar_sums] in *.
    apply obind_some in Ty; destruct Ty as (kl & Kl & Ty); apply obind_some in Ty; destruct Ty as (kr & Kr & Ty).
    destruct Tm as (T1 & T2), Sq as [Q1 Q2], Sc as [C1 C2].
    destruct (sym_pair n1 n2 kl kr kn d ix) as (A1 & A2 & _); auto; [intros; eapply IHn1; eauto|intros; eapply IHn2; eauto|].
    exact (sym_sub _ _ A1 A2).
  - cbn [typeof square uses scalar_sums] in *.
    apply obind_some in Ty; destruct Ty as (kl & Kl & Ty); apply obind_some in Ty; destruct Ty as (kr & Kr & Ty).
    destruct Tm as (T1 & T2), Sq as [Q1 Q2], Sc as [C1 C2].
    destruct (sym_pair n1 n2 kl kr kn d ix) as (A1 & A2 & _); auto; [intros; eapply IHn1; eauto|intros; eapply IHn2; eauto|].
    exact (sym_mul _ _ A1 A2).
  - cbn [typeof square uses scalar_sums] in *.
    apply obind_some in Ty; destruct Ty as (kl & Kl & Ty); apply obind_some in Ty; destruct Ty as (kr & Kr & Ty).
    destruct Tm as (T1 & T2 & NZ), Sq as [Q1 Q2], Sc as [C1 C2].
    destruct (sym_pair n1 n2 kl kr kn d ix) as (A1 & A2 & A3); auto; [intros; eapply IHn1; eauto|intros; eapply IHn2; eauto|].
    apply (sym_div _ _ A1 A2); rewrite at2_bc, at2_00; auto.
  - cbn [typeof square uses scalar_sums] in *.
    apply obind_some in Ty; destruct Ty as (kl & Kl & Ty); apply obind_some in Ty; destruct Ty as (kr & Kr & Ty).
    destruct Tm as (T1 & T2), Sq as (Q1 & Q2 & Q3), Sc as [C1 C2].
    destruct (contract_sty_back _ _ _ _ Ty) as (a & b & A & A'), (contract_sty_dims _ _ _ _ _ _ Ty A A') as (d' & D' & Z).
    assert (d' = d) by congruence; subst d'.
    assert (Dl : tdims (den' c n1) = a) by (unfold rden; eapply typed_dims; eauto).
    assert (Dr : tdims (den' c n2) = b) by (unfold rden; eapply typed_dims; eauto).
    assert (L : forall i, in_box a i -> sym (fun s h => tat (den' (at2 s h) n1) i)) by (intros; eapply IHn1; eauto).
    assert (R' : forall i, in_box b i -> sym (fun s h => tat (den' (at2 s h) n2) i)) by (intros; eapply IHn2; eauto).
    specialize (Q3 kl kr Kl Kr).
    destruct axes as [|axes].
    + cbn [contract_dims] in Z; subst d.
      destruct (in_box_split _ _ _ B) as (x & y & -> & Bx & By).
      apply sym_ext with (f := fun s h => tat (den' (at2 s h) n1) x * tat (den' (at2 s h) n2) y).
      * intros s h; unfold rden; cbn [den outer tat].
        assert (E : length (tdims (@den R S0 um (at2 s h) n1)) = length x).
        { assert (Q := at2_dims s h n1); unfold rden in Q; rewrite Q; unfold rden in Dl; rewrite Dl.
          symmetry; apply in_box_length; auto. }
        rewrite E, firstn_length_app, skipn_length_app; reflexivity.
      * apply sym_mul; auto.
    + assert (Ti : forall s h, tat (den' (at2 s h) (Contract (S axes) n1 n2)) ix = tat (@inner R S0 (den' (at2 s h) n1) (den' (at2 s h) n2)) ix) by reflexivity.
      apply sym_ext with (f := fun s h => tat (@inner R S0 (den' (at2 s h) n1) (den' (at2 s h) n2)) ix); [intros; symmetry; apply Ti|].
      destruct Z as [(Ea & Eb & ->)|Z].
      { apply sym_ext with (f := fun s h => tat (den' (at2 s h) n1) [] * tat (den' (at2 s h) n2) []).
        - intros s h; unfold inner; rewrite !at2_dims, Dl, Dr, Ea, Eb; reflexivity.
        - apply sym_mul; [apply L; rewrite Ea|apply R'; rewrite Eb]; constructor. }
      assert (X : forall p, a <> [] \/ b <> [] -> (length a - 1)%nat = p ->
        (forall q, (q < last a 0)%nat -> in_box a (firstn p ix ++ [q])) ->
        (forall q, (q < last a 0)%nat -> in_box b (q :: skipn p ix)) ->
        sym (fun s h => tat (@inner R S0 (den' (at2 s h) n1) (den' (at2 s h) n2)) ix)).
      { intros p NE Lp Ha Hb.
        apply sym_ext with (f := fun s h => @sum_over R S0 nat (seq 0 (last a 0%nat))
           (fun q => tat (den' (at2 s h) n1) (firstn p ix ++ [q]) * tat (den' (at2 s h) n2) (q :: skipn p ix))).
        - intros s h; unfold inner; rewrite !at2_dims, Dl, Dr, Lp.
          destruct a, b; try reflexivity; exfalso; tauto.
        - apply (sym_sum nat inf sp (seq 0 (last a 0%nat)) (fun q s h =>
             tat (den' (at2 s h) n1) (firstn p ix ++ [q]) * tat (den' (at2 s h) n2) (q :: skipn p ix))).
          intros q Hq; apply in_seq in Hq; apply sym_mul; [apply L, Ha|apply R', Hb]; lia. }
      destruct Z as [(m & Ea & Eb & Ed)|[(m & p & Ea & Eb & Ed)|[(m & z & p & Ea & Eb & Ed)|(m & p & Ea & Eb & Ed)]]];
        rewrite Ed in B.
      * apply in_box_nil in B; subst ix; apply (X 0%nat); [left; rewrite Ea; discriminate|rewrite Ea; reflexivity|intros q Hq..];
          rewrite Ea in *; rewrite ?Eb; repeat constructor; auto.
      * assert (m = p).
        { clear - Ty A A' Q3 Ea Eb; subst a b; destruct axes as [|axes]; [|destruct kl, kr; discriminate].
          destruct kl, kr; try discriminate; simpl in A, A'; inversion A; inversion A'; subst; simpl in Q3; auto; discriminate Ty. }
        subst p; apply in_box_cons in B; destruct B as (x & y & -> & Bx & By); apply in_box_nil in By; subst y.
        apply (X 1%nat); [left; rewrite Ea; discriminate|rewrite Ea; reflexivity|intros q Hq..];
          rewrite Ea in *; rewrite ?Eb; repeat constructor; auto.
      * apply in_box_cons in B; destruct B as (x & y & -> & Bx & By); apply in_box_cons in By.
        destruct By as (x' & y' & -> & Bx' & By'); apply in_box_nil in By'; subst y'.
        apply (X 1%nat); [left; rewrite Ea; discriminate|rewrite Ea; reflexivity|intros q Hq..];
          rewrite Ea in *; rewrite ?Eb; repeat constructor; auto.
      * apply in_box_cons in B; destruct B as (x & y & -> & Bx & By); apply in_box_nil in By; subst y.
        apply (X 0%nat); [left; rewrite Ea; discriminate|rewrite Ea; reflexivity|intros q Hq..];
          rewrite Ea in *; rewrite ?Eb; repeat constructor; auto.
Qed.

(** The two shifts can be exchanged. *)
Lemma at2_swap s h n : den' (bump (bump c t j s) u k h) n = den' (at2 s h) n.
Proof.
  apply den_ext; intro i; unfold var_tensor, at2.
  destruct (c i) as [v|] eqn:E.
  - assert (V : vwf v) by (eapply W; eauto).
    assert (X : forall a p x b q y, exists v', bump (bump c a p x) b q y i = Some v' /\ bty_of v' = bty_of v /\ vwf v').
    { intros; unfold bump at 1; destruct (Nat.eqb_spec i b) as [<-|]; unfold bump; destruct (Nat.eqb_spec i a); rewrite ?E; subst; rewrite ?E; cbn [option_map];
        eexists; (split; [reflexivity|]); rewrite ?bump_bty; split; auto; repeat apply bump_wf; auto. }
    destruct (X t j s u k h) as (v1 & E1 & T1 & W1), (X u k h t j s) as (v2 & E2 & T2 & W2).
    rewrite E1, E2; f_equal; apply (value_ext 0); auto; [congruence|].
    intros ix B; rewrite T1 in B; assert (B0 : in_box (dims (vshape v)) ix) by (rewrite <- bty_shape_v; auto).
    destruct (bump_at c t j s i v ix E V B0) as (a1 & F1 & Y1 & Z1 & Q1).
    assert (B1 : in_box (dims (vshape a1)) ix) by (rewrite Z1; auto).
    destruct (bump_at _ u k h i a1 ix F1 Y1 B1) as (a2 & F2 & Y2 & Z2 & Q2).
    destruct (bump_at c u k h i v ix E V B0) as (b1 & H1 & Y3 & Z3 & Q3).
    assert (B2 : in_box (dims (vshape b1)) ix) by (rewrite Z3; auto).
    destruct (bump_at _ t j s i b1 ix H1 Y3 B2) as (b2 & H2 & Y4 & Z4 & Q4).
    assert (a2 = v1) by congruence; assert (b2 = v2) by congruence; subst a2 b2.
    rewrite Q2, Q1, Q4, Q3; ring.
  - assert (X : forall a p x b q y, bump (bump c a p x) b q y i = None).
    { intros; unfold bump at 1; destruct (Nat.eqb_spec i b) as [<-|]; unfold bump; destruct (Nat.eqb_spec i a); subst; rewrite ?E; auto. }
    rewrite !X; auto.
Qed.
End Two.

(** Entries of the evaluated adjoint are derivatives of the meaning. *)
Lemma adjoint_entry G c t n n' i j : posed G c t n n' -> @regular R S0 um c n -> smooth inf sp c t n ->
  in_box (tdims (den' c n)) i -> in_box (tdims (den' c (Var t))) j ->
  dpl (fun s => tat (den' (bump c t j s) n) i) 0 (entry inf sp n' c (i ++ j)).
Proof.
  intros [O U W F Sc A Ty Ty' Q Q'] Rg Sm Bi Bj; assert (N := gradient_novec _ _ _ _ A Ty').
  destruct (typeof G n) as [k|] eqn:T; [|congruence]; destruct (typeof G n') as [k'|] eqn:T'; [|congruence].
  assert (Un : forall i, uses n i -> c i <> None) by auto.
  assert (Un' : forall i, uses n' i -> c i <> None).
  { intros x Ux; destruct (adjoint_uses _ _ _ _ A Ux); auto. }
  assert (Ct : c t <> None) by auto.
  destruct (adjoint_dims G t n n' k k' Sc A T T') as (d & TT & kt & D & Gt & DT & D').
  assert (Rg' : @regular R S0 um c n').
  { exact (regular_adj inf sp G c t TT kt O Ct Gt DT n n' k k' Sc A T T' Q Q' Un Sm Rg). }
  assert (Dn : tdims (den' c n) = d) by (unfold rden; eapply typed_dims; eauto).
  assert (Dn' : tdims (den' c n') = (d ++ TT)%list) by (unfold rden; eapply typed_dims; eauto).
  assert (Dt : tdims (den' c (Var t)) = TT) by (unfold rden; cbn [den]; eapply var_dims; eauto).
  rewrite Dn in Bi; rewrite Dt in Bj.
  rewrite (entry_den inf sp G n' c k' (adjoint_wf _ _ _ W A) (adjoint_novec _ _ _ _ A N) Q' T'
     (adjoint_cache_free _ _ _ F A) O Un' Rg'); [|rewrite Dn'; apply in_box_both; auto].
  exact (adjoint_jac inf sp G c t TT kt O Ct Gt DT n n' k k' d Sc A T T' D Q Q' Un Sm i j Bi Bj).
Qed.

(** Near [c] entries of the value are entries of the meaning. *)
Lemma near_regular_entry G c t n n' i j : posed G c t n n' -> @regular R S0 um c n -> smooth inf sp c t n ->
  in_box (tdims (den' c n)) i -> in_box (tdims (den' c (Var t))) j ->
  exists q, 0 < q /\ forall s, Rabs s < q -> entry inf sp n (bump c t j s) i = tat (den' (bump c t j s) n) i.
Proof.
  intros [O U W F Sc A Ty Ty' Q Q'] Rg Sm Bi Bj; assert (N := gradient_novec _ _ _ _ A Ty').
  destruct (typeof G n) as [k|] eqn:T; [|congruence]; destruct (typeof G n') as [k'|] eqn:T'; [|congruence].
  assert (Un : forall i, uses n i -> c i <> None) by auto.
  assert (Ct : c t <> None) by auto.
  destruct (adjoint_dims G t n n' k k' Sc A T T') as (d & TT & kt & D & Gt & DT & D').
  assert (Dt : tdims (den' c (Var t)) = TT) by (unfold rden; cbn [den]; eapply var_dims; eauto).
  rewrite Dt in Bj.
  destruct (near_regular inf sp G c t TT kt O Ct Gt DT n n' k k' j Sc A T T' Q Q' Un Sm Rg Bj) as (e & Pe & Ne).
  exists e; split; auto; intros s Hs; apply (entry_den inf sp G n _ k); auto.
  - apply bump_ok; auto.
  - intros; apply bump_some; auto.
  - rewrite bump_dims; auto.
Qed.

(** The derivative of the entries of a first derivative. *)
Lemma second_entry G c t u n n' n'' e :
  posed G c t n n' -> adjoint n' u = Some n'' -> typeof G n'' <> None -> square G n'' -> c u <> None ->
  0 < e ->
  (forall k h, Rabs h < e -> @regular R S0 um (bump c u k h) n /\ smooth inf sp (bump c u k h) t n) ->
  smooth inf sp c u n' ->
  exists v w x y,
    @evaluate R S0 n c = (c, Ok v) /\ @evaluate_adjoint R S0 n' u c = Some (c, Ok w) /\
    c t = Some x /\ c u = Some y /\
    dims (vshape w) = (dims (vshape v) ++ dims (vshape x) ++ dims (vshape y))%list /\
    tdims (den' c n) = dims (vshape v) /\ (forall ix, in_box (dims (vshape v)) ix -> vat 0 v ix = tat (den' c n) ix) /\
    forall i j k g, in_box (dims (vshape v)) i -> in_box (dims (vshape x)) j -> in_box (dims (vshape y)) k ->
      forall e', 0 < e' ->
      (forall h, Rabs h < e' ->
         dpl (fun s => tat (den' (bump (bump c u k h) t j s) n) i) 0 (g h)) ->
      dpl g 0 (vat 0 w (i ++ j ++ k)).
Proof.
  intros P A2 Ty2 Q2 Cu Pe Near Sm2.
  destruct (hessian_real inf sp G c t u n n' n'' e P A2 Ty2 Q2 Cu Pe Near Sm2) as (v & w & x & y & Ev & Ew & Cx & Cy & Dw & H).
  assert (P' := P); destruct P' as [O U Wn F Sc A Ty Ty' Q Q']; assert (N := gradient_novec _ _ _ _ A Ty').
  destruct (typeof G n) as [kn|] eqn:T; [|congruence].
  assert (W : ctx_wf c) by (intros i0 v0 E0; destruct (O i0 v0 E0); auto).
  assert (Rg : @regular R S0 um c n).
  { destruct (Near [] 0) as [X _]; [rewrite Rabs_R0; auto|]; rewrite bump_zero in X; auto. }
  destruct (value_real_total inf sp G n kn c Wn N Q T F O (fun i h => U i (or_introl h)) Rg) as (v' & Ev' & _ & H1 & H2).
  assert (v' = v) by congruence; subst v'.
  exists v, w, x, y; split; auto; split; auto; split; auto; split; auto; split; auto.
  split; [exact (eq_sym H1)|split; [intros ix B; rewrite H1 in B; exact (H2 ix B)|]].
  intros i j k g Bi Bj Bk e' Pe' Hg.
  apply near_eq with (f := fun h => if Rlt_dec (Rabs h) (Rmin e e') then g h else entry inf sp n' (bump c u k h) (i ++ j)) (d := Rmin e e').
  - apply Rmin_pos; auto.
  - intros z Hz; rewrite Rminus_0_r in Hz; destruct (Rlt_dec (Rabs z) (Rmin e e')); auto; contradiction.
  - apply H; auto; intros h Hh.
    assert (Ph : posed G (bump c u k h) t n n').
    { constructor; auto; try congruence.
      - apply bump_ok; auto.
      - intros a Ha; apply bump_some; auto. }
    destruct (Near k h Hh) as [Rh Sh].
    assert (Bi' : in_box (tdims (den' (bump c u k h) n)) i).
    { rewrite bump_dims; unfold rden; rewrite <- H1; auto. }
    assert (Bj' : in_box (tdims (den' (bump c u k h) (Var t))) j).
    { rewrite bump_dims; unfold rden; cbn [den]; unfold var_tensor; rewrite Cx; exact Bj. }
    assert (AE := adjoint_entry G (bump c u k h) t n n' i j Ph Rh Sh Bi' Bj').
    assert (Eg : (if Rlt_dec (Rabs h) (Rmin e e') then g h else entry inf sp n' (bump c u k h) (i ++ j))
                 = entry inf sp n' (bump c u k h) (i ++ j)).
    { destruct (Rlt_dec (Rabs h) (Rmin e e')) as [Hm|]; auto.
      eapply uniqueness_limite; [|exact AE]; apply Hg; assert (M := Rmin_r e e'); lra. }
    rewrite Eg.
    destruct (near_regular_entry G (bump c u k h) t n n' i j Ph Rh Sh Bi' Bj') as (q & Pq & Nq).
    apply near_eq with (f := fun s => tat (den' (bump (bump c u k h) t j s) n) i) (d := q); auto.
    intros s Hs; rewrite Rminus_0_r in Hs; symmetry; apply Nq; auto.
Qed.

Lemma hessian_symmetric G c t u n n1 n12 n2 n21 e :
  posed G c t n n1 -> adjoint n1 u = Some n12 -> typeof G n12 <> None -> square G n12 ->
  posed G c u n n2 -> adjoint n2 t = Some n21 -> typeof G n21 <> None -> square G n21 ->
  0 < e ->
  (forall k h, Rabs h < e -> @regular R S0 um (bump c u k h) n /\ smooth inf sp (bump c u k h) t n) ->
  (forall k h, Rabs h < e -> @regular R S0 um (bump c t k h) n /\ smooth inf sp (bump c t k h) u n) ->
  smooth inf sp c u n1 -> smooth inf sp c t n2 ->
  exists v w12 w21 x y,
    @evaluate R S0 n c = (c, Ok v) /\ @evaluate_adjoint R S0 n1 u c = Some (c, Ok w12) /\
    @evaluate_adjoint R S0 n2 t c = Some (c, Ok w21) /\ c t = Some x /\ c u = Some y /\
    dims (vshape w12) = (dims (vshape v) ++ dims (vshape x) ++ dims (vshape y))%list /\
    dims (vshape w21) = (dims (vshape v) ++ dims (vshape y) ++ dims (vshape x))%list /\
    forall i j k, in_box (dims (vshape v)) i -> in_box (dims (vshape x)) j -> in_box (dims (vshape y)) k ->
      vat 0 w12 (i ++ j ++ k) = vat 0 w21 (i ++ k ++ j).
Proof.
  intros P1 A1 T1 Q1 P2 A2 T2 Q2 Pe N1 N2 S1 S2.
  assert (Cu : c u <> None) by (apply (p_def _ _ _ _ _ P2); auto).
  assert (Ct : c t <> None) by (apply (p_def _ _ _ _ _ P1); auto).
  destruct (second_entry G c t u n n1 n12 e P1 A1 T1 Q1 Cu Pe N1 S1) as (v & w12 & x & y & Ev & Ew & Cx & Cy & Dw & Dn & _ & H1).
  destruct (second_entry G c u t n n2 n21 e P2 A2 T2 Q2 Ct Pe N2 S2) as (v' & w21 & y' & x' & Ev' & Ew' & Cy' & Cx' & Dw' & _ & _ & H2).
  assert (v' = v) by congruence; assert (x' = x) by congruence; assert (y' = y) by congruence; subst v' x' y'.
  exists v, w12, w21, x, y; split; auto; split; auto; split; auto; split; auto; split; auto; split; auto; split; auto.
  intros i j k Bi Bj Bk.
  assert (O := p_ctx _ _ _ _ _ P1).
  assert (W : ctx_wf c) by (intros i0 v0 E0; destruct (O i0 v0 E0); auto).
  assert (Sm : smooth inf sp c t n).
  { destruct (N1 [] 0) as [_ X]; [rewrite Rabs_R0; auto|]; rewrite bump_zero in X; auto. }
  assert (Ty := p_ty _ _ _ _ _ P1); destruct (typeof G n) as [kn|] eqn:T; [|congruence].
  assert (Ty' := p_ty' _ _ _ _ _ P1); destruct (typeof G n1) as [kn'|] eqn:T'; [|congruence].
  assert (U : forall i, uses n i -> c i <> None) by (intros; apply (p_def _ _ _ _ _ P1); auto).
  assert (Tm : tame c n) by exact (tame_of c t u G n n1 n12 kn O U (p_sq _ _ _ _ _ P1) T (p_adj _ _ _ _ _ P1) A1 Sm S1).
  destruct (adjoint_dims G t n n1 kn kn' (p_sums _ _ _ _ _ P1) (p_adj _ _ _ _ _ P1) T T') as (d & TT & kt & D & _).
  assert (Dd : tdims (den' c n) = d) by (unfold rden; eapply typed_dims; eauto; apply (p_sq _ _ _ _ _ P1)).
  assert (Bd : in_box d i) by (rewrite <- Dd, Dn; auto).
  destruct (sym_den G c t u j k O n kn d i T D (p_sq _ _ _ _ _ P1) (p_sums _ _ _ _ _ P1) U Tm Bd)
    as (ft & fu & q & e0 & P0 & Ft & Fu & Dt & Du).
  transitivity q.
  - apply (uniqueness_limite ft 0); auto; apply (H1 i j k ft Bi Bj Bk e0 P0).
    intros h Hh; exact (Ft h Hh).
  - symmetry; apply (uniqueness_limite fu 0); auto; apply (H2 i k j fu Bi Bk Bj e0 P0).
    intros s Hs; eapply lim_eq; [|reflexivity|exact (Fu s Hs)].
    intro h; cbv beta; rewrite (at2_swap G c t u j k O s h n); auto.
Qed.
End Claims.
