(** Evaluation follows exact arithmetic through any relation between numbers that the operations
    and their short cuts respect. *)
From Coq Require Import List Arith Bool Lia.
Import ListNotations.
From Verif Require Import Base Shapes Scalar Buffers Spec Contraction Node Eval Types Instances
  Vocab Math Float_math Machine Machine_math Index_facts Buffers_facts Spec_facts Contraction_facts
  Contraction_entries Match_facts Eval_facts Typing_facts Progress_facts Exact_facts Math_facts
  Float_claims Shortcut_facts Gradient_claims.

Lemma integer_regular {A B} {SA : Scalar A} {SB : Scalar B} ua ub (g : A -> B) minus over c n :
  integer_ops minus over n -> regular ub (ctx_through g c) (node_through g n) <-> regular ua c n.
Proof.
  induction n; intro H; try contradiction; cbn [node_through regular integer_ops] in *; try tauto.
  - apply IHn; destruct u; try contradiction; tauto.
  - destruct H as (_ & H1 & H2); assert (I1 := IHn1 H1); assert (I2 := IHn2 H2).
    unfold keeps_order; rewrite !(dims_through ua ub g c); tauto.
  - destruct H as (_ & H1 & H2); assert (I1 := IHn1 H1); assert (I2 := IHn2 H2).
    unfold keeps_order; rewrite !(dims_through ua ub g c); tauto.
  - destruct H as [H1 H2]; assert (I1 := IHn1 H1); assert (I2 := IHn2 H2).
    destruct axes; unfold square_dims; rewrite ?(dims_through ua ub g c); tauto.
Qed.

Section Follow.
Context {F E A : Type} {SF : Scalar F} {SE : Scalar E} {SA : Scalar A}.
Variable Rl : F -> E -> A -> Prop.
Variables minus over pos : Prop.
Variable dok : E -> Prop.
Hypothesis add_comm : forall x y : F, fadd x y = fadd y x.
Hypothesis mul_comm : forall x y : F, fmul x y = fmul y x.
Hypothesis zero_zero : is_zero (@fzero F SF) = true.
Hypothesis r_zero : Rl fzero fzero fzero.
Hypothesis r_one : Rl fone fone fone.
Hypothesis r_add : forall x e a y f b, Rl x e a -> Rl y f b -> Rl (fadd x y) (fadd e f) (fadd a b).
Hypothesis r_sub : minus ->
  forall x e a y f b, Rl x e a -> Rl y f b -> Rl (fsub x y) (fsub e f) (fsub a b).
Hypothesis r_mul : forall x e a y f b, Rl x e a -> Rl y f b -> Rl (fmul x y) (fmul e f) (fmul a b).
Hypothesis r_neg : minus -> forall x e a, Rl x e a -> Rl (fneg x) (fneg e) (fneg a).
Hypothesis r_square : forall x e a, Rl x e a -> Rl (fpow x ftwo) (fpow e ftwo) (fpow a ftwo).
Hypothesis r_div : over -> forall x e a y f b, Rl x e a -> Rl y f b -> dok f ->
  Rl (fdiv x y) (fdiv e f) (fdiv a b).
Hypothesis r_add_l : forall x e a y f b, Rl x e a -> Rl y f b -> is_zero x = true ->
  Rl y (fadd e f) (fadd a b).
Hypothesis r_add_r : forall x e a y f b, Rl x e a -> Rl y f b -> is_zero y = true ->
  Rl x (fadd e f) (fadd a b).
Hypothesis r_sub_r : minus -> forall x e a y f b, Rl x e a -> Rl y f b -> is_zero y = true ->
  Rl x (fsub e f) (fsub a b).
Hypothesis r_null : forall x e a y f b, Rl x e a -> Rl y f b -> null x y ->
  Rl fzero (fmul e f) (fmul a b).
Hypothesis r_fill : forall (I : Type) (l : list I) m x (g : I -> E) (h : I -> A),
  (pos -> l <> []) -> fof_usize (length l) = Some m -> (forall k, In k l -> Rl x (g k) (h k)) ->
  Rl (fmul m x) (sum_over l g) (sum_over l h).
Hypothesis r_full : forall (I : Type) (l : list I) m x y (g g' : I -> E) (h h' : I -> A),
  (pos -> l <> []) -> fof_usize (length l) = Some m ->
  (forall k, In k l -> Rl x (g k) (h k)) -> (forall k, In k l -> Rl y (g' k) (h' k)) ->
  Rl (fmul (fmul m x) y) (sum_over l (fun k => fmul (g k) (g' k))) (sum_over l (fun k => fmul (h k) (h' k))).

(** Sums. *)
Lemma fold_follow (I : Type) (l : list I) (f : I -> F) (g : I -> E) (h : I -> A) x e a :
  (forall k, In k l -> Rl (f k) (g k) (h k)) -> Rl x e a ->
  Rl (fold_left (fun z k => fadd z (f k)) l x) (fold_left (fun z k => fadd z (g k)) l e)
     (fold_left (fun z k => fadd z (h k)) l a).
Proof.
  revert x e a; induction l as [|k l IH]; intros x e a H Hx; [exact Hx|].
  cbn [fold_left]; apply IH; [intros; apply H; right; assumption|apply r_add; [exact Hx|apply H; left; reflexivity]].
Qed.

Lemma sum_follow (I : Type) (l : list I) (f : I -> F) (g : I -> E) (h : I -> A) :
  (forall k, In k l -> Rl (f k) (g k) (h k)) -> Rl (sum_over l f) (sum_over l g) (sum_over l h).
Proof. intro H; apply fold_follow; auto. Qed.

Lemma nulls_follow (I : Type) (l : list I) (g : I -> E) (h : I -> A) x e a :
  (forall k, In k l -> Rl fzero (g k) (h k)) -> Rl x e a ->
  Rl x (fold_left (fun z k => fadd z (g k)) l e) (fold_left (fun z k => fadd z (h k)) l a).
Proof.
  revert e a; induction l as [|k l IH]; intros e a H Hx; [exact Hx|].
  cbn [fold_left]; apply IH; [intros; apply H; right; assumption|].
  eapply r_add_r; [exact Hx|apply H; left; reflexivity|exact zero_zero].
Qed.

Lemma dot_follow n (f g : nat -> F) (e e' : nat -> E) (a a' : nat -> A) z :
  (pos -> 0 < n) ->
  (forall k, k < n -> Rl (f k) (e k) (a k)) -> (forall k, k < n -> Rl (g k) (e' k) (a' k)) ->
  dot_like n f g z ->
  Rl z (sum_over (seq 0 n) (fun k => fmul (e k) (e' k))) (sum_over (seq 0 n) (fun k => fmul (a k) (a' k))).
Proof.
  intros Np Hf Hg [->|[(i & Hi & N & ->)|[[N ->]|(u & v & m & S & O & ->)]]].
  - apply (sum_follow nat (seq 0 n) (fun k => fmul (f k) (g k))); intros k Hk; apply in_seq in Hk.
    apply r_mul; [apply Hf|apply Hg]; lia.
  - assert (Sq : seq 0 n = seq 0 i ++ i :: seq (S i) (n - S i)).
    { replace n with (i + S (n - S i)) at 1 by lia; rewrite seq_app; reflexivity. }
    unfold sum_over; rewrite Sq, !fold_left_app; cbn [fold_left].
    apply nulls_follow.
    + intros k Hk; apply in_seq in Hk; eapply r_null; [apply Hf|apply Hg|apply N]; lia.
    + eapply r_add_l with (x := fzero); [|apply r_mul; [apply Hf|apply Hg]; lia|exact zero_zero].
      apply nulls_follow; [|exact r_zero].
      intros k Hk; apply in_seq in Hk; eapply r_null; [apply Hf|apply Hg|apply N]; lia.
  - apply nulls_follow; [|exact r_zero].
    intros k Hk; apply in_seq in Hk; eapply r_null; [apply Hf|apply Hg|apply N]; lia.
  - apply r_full with (x := u) (y := v).
    + intros P Q; specialize (Np P); destruct n; [lia|discriminate Q].
    + rewrite seq_length; exact O.
    + intros k Hk; apply in_seq in Hk; destruct (S k) as [<- _]; [lia|]; apply Hf; lia.
    + intros k Hk; apply in_seq in Hk; destruct (S k) as [_ <-]; [lia|]; apply Hg; lia.
Qed.

Lemma mul_follow x e a y f b z : Rl x e a -> Rl y f b -> mul_like x y z -> Rl z (fmul e f) (fmul a b).
Proof. intros Hx Hy [->|[N ->]]; [apply r_mul; auto|eapply r_null; eauto]. Qed.
Lemma add_follow x e a y f b z : Rl x e a -> Rl y f b -> add_like x y z -> Rl z (fadd e f) (fadd a b).
Proof. intros Hx Hy [->|[[N ->]|[N ->]]]; [apply r_add; auto|eapply r_add_l; eauto|eapply r_add_r; eauto]. Qed.
Lemma sub_follow x e a y f b z : minus -> Rl x e a -> Rl y f b -> sub_like x y z -> Rl z (fsub e f) (fsub a b).
Proof. intros M Hx Hy [->|[N ->]]; [apply r_sub; auto|eapply r_sub_r; eauto]. Qed.

(** Specs and buffers. *)
Definition positive (l : list nat) : Prop := pos -> Forall (fun d => 0 < d) l.
Definition sfollow (s : spec F) (e : tensor E) (a : tensor A) : Prop :=
  spec_wf s /\ tdims_of (spec_bty s) = tdims e /\ tdims a = tdims e /\ positive (tdims e) /\
  forall ix, in_box (tdims e) ix -> Rl (sfun s ix) (tat e ix) (tat a ix).
Definition vfollow (v : value F) (e : tensor E) (a : tensor A) : Prop :=
  vwf v /\ dims (vshape v) = tdims e /\ tdims a = tdims e /\ positive (tdims e) /\
  forall ix, in_box (tdims e) ix -> Rl (vat fzero v ix) (tat e ix) (tat a ix).

Lemma raw_follow v e a : vfollow v e a <-> sfollow (Raw v) e a.
Proof. reflexivity. Qed.

Lemma unwrap_follow s e a : sfollow s e a -> vfollow (unwrap s) e a.
Proof.
  intros (W & D & D' & P & H); split; [apply unwrap_wf; exact W|].
  unfold vshape; rewrite unwrap_bty; split; [exact D|split; [exact D'|split; [exact P|]]].
  intros ix Bx; rewrite vat_unwrap by (auto; rewrite D; exact Bx); apply H; exact Bx.
Qed.

Lemma positive_app l m : positive l -> positive m -> positive (l ++ m).
Proof. intros H K P; apply Forall_app; auto. Qed.

Lemma zip_sfollow_if (D : E -> Prop) (Q : F -> F -> F -> Prop) (ope : E -> E -> E) (opa : A -> A -> A) x y s e f a b :
  sfollow x e a -> sfollow y f b -> zipl Q x y s -> (forall ix, in_box (tdims f) ix -> D (tat f ix)) ->
  (forall X e a Y f b Z, Rl X e a -> Rl Y f b -> D f -> Q X Y Z -> Rl Z (ope e f) (opa a b)) ->
  sfollow s (pointwise ope e f) (pointwise opa a b).
Proof.
  rename D into Dk.
  intros (Wx & Dx & Dx' & Px & Hx) (Wy & Dy & Dy' & Py & Hy) (t & Bt & T & W & En) Hk K.
  destruct (bcast_ok _ _ _ (spec_wf_bty _ Wx) (spec_wf_bty _ Wy) Bt) as [D B].
  split; [exact W|]; unfold pointwise; cbn [tdims tat].
  rewrite T, D, Dx, Dy, Dx', Dy'; split; [reflexivity|split; [reflexivity|]].
  split; [destruct (tdims e); assumption|].
  intros ix Bx; rewrite Dx, Dy in D; rewrite <- D in Bx; destruct (B ix Bx) as [B1 B2].
  assert (Qx : pick (spec_bty x) ix = match tdims e with [] => [] | _ => ix end).
  { rewrite <- Dx; assert (N := dims_nil _ (spec_wf_bty _ Wx)).
    destruct (spec_bty x) as [| | |[|? ?]]; auto; destruct N as [N _]; discriminate (N eq_refl). }
  assert (Qy : pick (spec_bty y) ix = match tdims f with [] => [] | _ => ix end).
  { rewrite <- Dy; assert (N := dims_nil _ (spec_wf_bty _ Wy)).
    destruct (spec_bty y) as [| | |[|? ?]]; auto; destruct N as [N _]; discriminate (N eq_refl). }
  unfold at_bc; rewrite Dx', Dy', <- Qx, <- Qy.
  apply (K (sfun x (pick (spec_bty x) ix)) _ _ (sfun y (pick (spec_bty y) ix))); auto.
  - apply Hx; rewrite <- Dx; exact B1.
  - apply Hy; rewrite <- Dy; exact B2.
  - apply Hk; rewrite <- Dy; exact B2.
Qed.

Lemma zip_sfollow (Q : F -> F -> F -> Prop) (ope : E -> E -> E) (opa : A -> A -> A) x y s e f a b :
  sfollow x e a -> sfollow y f b -> zipl Q x y s ->
  (forall X e a Y f b Z, Rl X e a -> Rl Y f b -> Q X Y Z -> Rl Z (ope e f) (opa a b)) ->
  sfollow s (pointwise ope e f) (pointwise opa a b).
Proof. intros Hx Hy Z K; eapply (zip_sfollow_if (fun _ => True)); eauto. Qed.

Lemma contract_sfollow axes x y s e f a b :
  sfollow x e a -> sfollow y f b -> (axes = 0 \/ square_dims e f) ->
  contract_spec axes x y = Ok s ->
  sfollow s (match axes with O => outer e f | _ => inner e f end)
    (match axes with O => outer a b | _ => inner a b end).
Proof.
  intros (Wx & Dx & Dx' & Px & Hx) (Wy & Dy & Dy' & Py & Hy) SQ H.
  destruct (contract_bty axes (spec_bty x) (spec_bty y)) as [t|] eqn:C;
    [|rewrite contract_spec_none in H by auto; discriminate].
  assert (Ft := contract_spec_fits axes x y t Wx Wy C); rewrite H in Ft; destruct Ft as [T W].
  assert (Sq : sq axes (spec_bty x) (spec_bty y)).
  { unfold square_dims in SQ; rewrite <- Dx, <- Dy in SQ; clear - SQ.
    destruct axes as [|[|?]]; simpl; auto.
    destruct SQ as [SQ|SQ]; [discriminate|].
    destruct (spec_bty x) as [| |?|[|? [|? [|? ?]]]], (spec_bty y) as [| |?|[|? [|? [|? ?]]]]; auto. }
  assert (En := fun ix => contract_spec_like mul_comm zero_zero axes x y t s ix Wx Wy C Sq H).
  subst t; split; [exact W|].
  assert (Ha : forall ix, in_box (tdims_of (spec_bty x)) ix -> Rl (sfun x ix) (tat e ix) (tat a ix))
    by (rewrite Dx; exact Hx).
  assert (Hb : forall ix, in_box (tdims_of (spec_bty y)) ix -> Rl (sfun y ix) (tat f ix) (tat b ix))
    by (rewrite Dy; exact Hy).
  rewrite <- Dx in Px; rewrite <- Dy in Py; unfold positive in *; clear Hx Hy SQ H.
  destruct axes as [|[|?]]; [| |discriminate];
    destruct (spec_bty x) as [| |?|[|? [|? [|? ?]]]], (spec_bty y) as [| |?|[|? [|? [|? ?]]]];
    try discriminate; cbn [contract_bty] in C;
    try (destruct (Nat.eqb _ _) eqn:Q in C; [|discriminate]; apply Nat.eqb_eq in Q; subst);
    injection C as C'; rewrite <- C' in *; clear C'; unfold outer, inner; rewrite ?Dx', ?Dy', <- ?Dx, <- ?Dy;
    cbn [sq] in Sq; subst;
    (split; [reflexivity|split; [reflexivity|split;
       [intro P; specialize (Px P); specialize (Py P); cbn in Px, Py |- *;
        repeat match goal with K : Forall _ (_ :: _) |- _ => apply Forall_cons_iff in K; destruct K end;
        repeat first [apply Forall_nil|apply Forall_cons; [assumption|]]|]]]); cbn [tdims tat]; intros ix B;
    cbn in B; specialize (En ix B);
    try (apply in_box_nil in B; subst ix);
    try (apply box1_inv in B; destruct B as (i & -> & Hi));
    try (apply box2_inv in B; destruct B as (i & j & -> & Hi & Hj));
    cbn in En |- *.
  all: try (eapply mul_follow; [apply Ha|apply Hb|exact En]; cbn; repeat constructor; assumption).
  - apply (dot_follow n0 (fun i => sfun x [i]) (fun i => sfun y [i])
             (fun i => tat e [i]) (fun i => tat f [i]) (fun i => tat a [i]) (fun i => tat b [i])); [| | |exact En].
    + intro p; specialize (Px p); cbn in Px; apply Forall_cons_iff in Px; tauto.
    + intros; apply Ha; cbn; repeat constructor; assumption.
    + intros; apply Hb; cbn; repeat constructor; assumption.
  - apply (dot_follow n1 (fun q => sfun x [q]) (fun q => sfun y [q; i])
             (fun q => tat e [q]) (fun q => tat f [q; i]) (fun q => tat a [q]) (fun q => tat b [q; i])); [| | |exact En].
    + intro p; specialize (Px p); cbn in Px; apply Forall_cons_iff in Px; tauto.
    + intros; apply Ha; cbn; repeat constructor; assumption.
    + intros; apply Hb; cbn; repeat constructor; assumption.
  - apply (dot_follow n0 (fun q => sfun x [i; q]) (fun q => sfun y [q])
             (fun q => tat e [i; q]) (fun q => tat f [q]) (fun q => tat a [i; q]) (fun q => tat b [q])); [| | |exact En].
    + intro p; specialize (Py p); cbn in Py; apply Forall_cons_iff in Py; tauto.
    + intros; apply Ha; cbn; repeat constructor; assumption.
    + intros; apply Hb; cbn; repeat constructor; assumption.
  - apply (dot_follow n1 (fun q => sfun x [i; q]) (fun q => sfun y [q; j])
             (fun q => tat e [i; q]) (fun q => tat f [q; j]) (fun q => tat a [i; q]) (fun q => tat b [q; j])); [| | |exact En].
    + intro p; specialize (Py p); cbn in Py; apply Forall_cons_iff in Py; tauto.
    + intros; apply Ha; cbn; repeat constructor; assumption.
    + intros; apply Hb; cbn; repeat constructor; assumption.
Qed.

(** The whole tree. *)
Variables (ge : F -> E) (ga : F -> A) (c : ctx F).
Hypothesis Wc : ctx_wf c.
Hypothesis Pc : pos -> forall i v, c i = Some v -> inhabited v.
Hypothesis Ic : forall i v, c i = Some v -> entries_all (fun x => Rl x (ge x) (ga x)) v.

Local Notation ev n := (den (@un_fn E SE) (ctx_through ge c) (node_through ge n)).
Local Notation av n := (den (@un_fn A SA) (ctx_through ga c) (node_through ga n)).

Lemma ea_dims n : tdims (av n) = tdims (ev n).
Proof.
  rewrite (dims_through (@un_fn F SF) (@un_fn A SA) ga c), (dims_through (@un_fn F SF) (@un_fn E SE) ge c).
  reflexivity.
Qed.

Definition Ft (n : node F) (t : bty) : Prop :=
  bty_wf t /\ tdims_of t = tdims (ev n) /\ positive (tdims_of t).
Definition Fs (n : node F) (s : spec F) : Prop := sfollow s (ev n) (av n).
Definition Fv (n : node F) (v : value F) : Prop := vfollow v (ev n) (av n).

Lemma leaf_follow v : vwf v -> (pos -> inhabited v) -> entries_all (fun x => Rl x (ge x) (ga x)) v ->
  vfollow v (tensor_of (vmap ge v)) (tensor_of (vmap ga v)).
Proof.
  intros W P L; unfold vfollow, tensor_of; cbn [tdims tat]; unfold vshape; rewrite !vmap_bty.
  split; [exact W|split; [reflexivity|split; [reflexivity|split; [exact P|]]]]; intros ix Bx.
  rewrite !(vat_vmap _ _ fzero) by assumption; apply L; exact Bx.
Qed.

Lemma ft_bcast (l r : node F) op a b t :
  Ft l a -> Ft r b -> bcast_post a b = Ok t ->
  bty_wf t /\ tdims_of t = tdims (pointwise op (ev l) (ev r)) /\ positive (tdims_of t).
Proof.
  intros (Wa & Da & Pa) (Wb & Db & Pb); unfold bcast_post; destruct (bcast_bty a b) as [t'| | |] eqn:B; try discriminate.
  intro H; apply Ok_inj in H; subst t'; split; [eapply bcast_bty_wf; eauto|].
  destruct (bcast_ok _ _ _ Wa Wb B) as [-> _]; split; [rewrite Da, Db; reflexivity|].
  destruct (tdims_of a); assumption.
Qed.

Lemma square_sq axes a b l r :
  Ft l a -> Ft r b -> axes = 0 \/ square_dims (ev l) (ev r) -> sq axes a b.
Proof.
  intros (_ & Da & _) (_ & Db & _) R3; unfold square_dims in R3; rewrite <- Da, <- Db in R3; clear - R3.
  destruct axes as [|[|?]]; simpl; auto.
  destruct R3 as [SQ|SQ]; [discriminate|].
  destruct a as [| |?|[|? [|? [|? ?]]]], b as [| |?|[|? [|? [|? ?]]]]; auto.
Qed.

Lemma un_class u (n : node F) : integer_ops minus over (Un u n) -> integer_ops minus over n.
Proof. destruct u; cbn [integer_ops]; tauto. Qed.

Local Notation reg n := (regular (@un_fn E SE) (ctx_through ge c) (node_through ge n)).

Lemma shape_follow n : node_wf n -> integer_ops minus over n -> reg n ->
  (pos -> constants_inhabited n) -> tri (eq c) (Ft n) (f_shape (interp n)).
Proof.
  induction n; intros W Rt Rg Pn; try contradiction.
  - (* Var *)
    apply tri_const; intros c0 x <-; unfold read_bty; destruct (c i) as [v|] eqn:Ev; simpl; try discriminate.
    intro Q; apply Ok_inj in Q; subst x; split; [exact (vwf_bty _ (Wc i v Ev))|split].
    + simpl; unfold var_tensor, ctx_through; rewrite Ev; cbn; unfold vshape; rewrite vmap_bty; reflexivity.
    + intro p; exact (Pc p i v Ev).
  - (* VarAdj *)
    apply tri_const; intros c0 x <-; unfold read_bty.
    destruct (c i) as [vi|] eqn:Ei; [|discriminate]; destruct (c t) as [vt|] eqn:Et; [|discriminate]; simpl.
    destruct (adj_bty (bty_of vi) (bty_of vt)) as [sa|] eqn:Ea; [|discriminate].
    intro Q; apply Ok_inj in Q; subst x; split; [eapply adj_bty_wf; eauto|split].
    + simpl; unfold var_tensor, ctx_through; rewrite Ei, Et; cbn; unfold vshape; rewrite !vmap_bty.
      apply adj_bty_dims; auto.
    + rewrite (adj_bty_dims _ _ _ Ea); apply positive_app; intro p; [exact (Pc p i vi Ei)|exact (Pc p t vt Et)].
  - (* Const *)
    simpl in W; apply tri_const; intros c0 x <- Q; apply Ok_inj in Q; subst x; split; [cbn; auto using vwf_bty|split].
    + cbn; unfold vshape; rewrite vmap_bty; reflexivity.
    + intro p; exact (Pn p).
  - (* ConstAdj *)
    assert (Hh := IHn W Rt Rg Pn).
    change (tri (eq c) (Ft (ConstAdj n t)) (constadj_shape (interp n) t)).
    intros c0 Hc; unfold constadj_shape; destruct (Hh c0 Hc) as [C1 G1].
    destruct (f_shape (interp n) c0) as [c1 [sv'|e| |]]; simpl in *; (split; [auto|]); intros a Q; try discriminate Q.
    unfold read in Q; subst c1; destruct (c t) as [vt|] eqn:Et; simpl in Q; try discriminate.
    destruct (adj_bty sv' (bty_of vt)) as [sa|] eqn:Ea; try discriminate; apply Ok_inj in Q; subst a.
    destruct (G1 sv' eq_refl) as (_ & Dn & Pm).
    split; [eapply adj_bty_wf; eauto|split].
    + simpl; unfold var_tensor, ctx_through; rewrite Et; cbn; unfold vshape; rewrite vmap_bty.
      unfold ctx_through in Dn; rewrite <- Dn; apply adj_bty_dims; auto.
    + rewrite (adj_bty_dims _ _ _ Ea); apply positive_app; [exact Pm|intro p; exact (Pc p t vt Et)].
  - (* Un *)
    exact (IHn W (un_class _ _ Rt) Rg Pn).
  - (* Sum *)
    apply tri_const; intros c0 x <- Q; apply Ok_inj in Q; subst x; split; [exact I|split; [reflexivity|intro; constructor]].
  - (* Add *)
    destruct W as [W1 W2], Rg as (R1 & R2), Rt as [T1 T2].
    eapply tri_both_shape; [exact (IHn1 W1 T1 R1 (fun p => proj1 (Pn p)))|exact (IHn2 W2 T2 R2 (fun p => proj2 (Pn p)))|]; intros; eapply ft_bcast; eauto.
  - (* Sub *)
    destruct W as [W1 W2], Rg as (R1 & R2 & R3), Rt as (M & T1 & T2).
    eapply tri_both_shape; [exact (IHn1 W1 T1 R1 (fun p => proj1 (Pn p)))|exact (IHn2 W2 T2 R2 (fun p => proj2 (Pn p)))|]; intros; eapply ft_bcast; eauto.
  - (* Mul *)
    destruct W as [W1 W2], Rg as (R1 & R2), Rt as [T1 T2].
    eapply tri_both_shape; [exact (IHn1 W1 T1 R1 (fun p => proj1 (Pn p)))|exact (IHn2 W2 T2 R2 (fun p => proj2 (Pn p)))|]; intros; eapply ft_bcast; eauto.
  - (* Div *)
    destruct W as [W1 W2], Rg as (R1 & R2 & R3), Rt as (M & T1 & T2).
    eapply tri_both_shape; [exact (IHn1 W1 T1 R1 (fun p => proj1 (Pn p)))|exact (IHn2 W2 T2 R2 (fun p => proj2 (Pn p)))|]; intros; eapply ft_bcast; eauto.
  - (* Contract *)
    destruct W as [W1 W2], Rt as [T1 T2].
    assert (Rg' : reg n1 /\ reg n2 /\ (axes = 0 \/ square_dims (ev n1) (ev n2))).
    { destruct axes; simpl in Rg; tauto. }
    destruct Rg' as (R1 & R2 & R3).
    eapply tri_both_shape; [exact (IHn1 W1 T1 R1 (fun p => proj1 (Pn p)))|exact (IHn2 W2 T2 R2 (fun p => proj2 (Pn p)))|].
    intros a b t Ha Hb Q; destruct (contract_bty axes a b) as [t'|] eqn:C; [|discriminate].
    assert (Sq := square_sq axes a b _ _ Ha Hb R3); destruct Ha as (Wa & Da & Pa), Hb as (Wb & Db & Pb).
    apply Ok_inj in Q; subst t'; split; [eapply contract_bty_wf; eauto|].
    assert (Dt : tdims_of t = tdims (match axes with O => outer (ev n1) (ev n2) | _ => inner (ev n1) (ev n2) end)).
    { clear - C Da Db Sq; destruct axes as [|[|?]]; [| |discriminate];
        destruct a as [| |?|[|? [|? [|? ?]]]], b as [| |?|[|? [|? [|? ?]]]];
        try discriminate; cbn [contract_bty] in C;
        try (destruct (Nat.eqb _ _) eqn:Q in C; [|discriminate]; apply Nat.eqb_eq in Q; subst);
        inversion C as [C']; unfold outer, inner; cbn [tdims]; rewrite <- Da, <- Db; cbn in *; subst; auto. }
    split; [rewrite Dt; destruct axes; reflexivity|].
    intro P; specialize (Pa P); specialize (Pb P); clear - C Pa Pb Sq.
    destruct axes as [|[|?]]; [| |discriminate];
      destruct a as [| |?|[|? [|? [|? ?]]]], b as [| |?|[|? [|? [|? ?]]]];
      try discriminate; cbn [contract_bty] in C;
      try (destruct (Nat.eqb _ _) eqn:Q in C; [|discriminate]; apply Nat.eqb_eq in Q; subst);
      inversion C as [C']; cbn in *; subst;
      repeat match goal with K : Forall _ (_ :: _) |- _ => apply Forall_cons_iff in K; destruct K end;
      repeat first [apply Forall_nil|apply Forall_cons; [assumption|]].
Qed.

Lemma un_follow u x e a : integer_ops minus over (Un u (@Var F 0)) -> Rl x e a ->
  Rl (un_fn u x) (un_fn u e) (un_fn u a).
Proof.
  intros H Hx; assert (H2 : Rl ftwo ftwo ftwo) by (apply r_add; exact r_one).
  destruct u; try contradiction; cbn [integer_ops] in H; cbn [un_fn]; auto.
  - destruct H as [M _]; auto.
  - destruct H as [M _]; auto.
  - destruct H as [M _]; auto.
  - destruct H as [M _]; auto.
Qed.

Lemma un_sfollow u s e a : integer_ops minus over (Un u (@Var F 0)) -> sfollow s e a ->
  sfollow (un_spec_post u s) (Tensor (tdims e) (fun ix => un_fn u (tat e ix)))
    (Tensor (tdims a) (fun ix => un_fn u (tat a ix))).
Proof.
  intros U (W & D & D' & P & H).
  assert (G : forall v, vwf v -> tdims_of (bty_of v) = tdims e ->
     (forall ix, in_box (tdims e) ix -> Rl (vat fzero v ix) (tat e ix) (tat a ix)) ->
     sfollow (Raw (vmutate (un_fn u) v)) (Tensor (tdims e) (fun ix => un_fn u (tat e ix)))
       (Tensor (tdims a) (fun ix => un_fn u (tat a ix)))).
  { intros v Wv Dv Hv; rewrite vmutate_vmap; split; [apply vmap_wf; exact Wv|].
    cbn [spec_bty sfun tdims tat]; rewrite vmap_bty; split; [exact Dv|split; [exact D'|split; [exact P|]]].
    intros ix Bx; rewrite (vat_vmap _ _ fzero) by (auto; unfold vshape; fold (tdims_of (bty_of v)); rewrite Dv; exact Bx).
    apply un_follow; auto. }
  destruct s as [v|t x|t x]; unfold un_spec_post.
  - apply G; auto.
  - split; [exact W|split; [exact D|split; [exact D'|split; [exact P|]]]].
    cbn [tdims tat sfun] in *; intros ix Bx; apply un_follow; auto.
  - apply G; [apply (unwrap_wf (Diagonal t x)); exact W|rewrite unwrap_bty; exact D|].
    apply (unwrap_follow (Diagonal t x) e a); split; auto.
Qed.

Lemma sum_vfollow v e a : vfollow v e a ->
  vfollow (VScal (vsum v)) (Tensor [] (fun _ => sum_over (all_ix (tdims e)) (tat e)))
    (Tensor [] (fun _ => sum_over (all_ix (tdims a)) (tat a))).
Proof.
  intros (W & D & D' & P & H); split; [exact I|split; [reflexivity|split; [reflexivity|split; [intro; constructor|]]]].
  intros ix Bx; cbn [vat tat]; rewrite D'.
  replace (vsum v) with (sum_over (all_ix (tdims e)) (vat fzero v)).
  - apply sum_follow; intros jx Hj; apply H; rewrite all_ix_iproduct in Hj; apply in_iproduct; exact Hj.
  - rewrite <- D; unfold vsum; symmetry; rewrite (value_eta fzero v W) at 1; rewrite vfold_build.
    unfold sum_over; rewrite ?all_ix_iproduct; reflexivity.
Qed.

Lemma sum_sfollow s s' e a : sfollow s e a -> sum_spec_post s = Ok s' ->
  sfollow s' (Tensor [] (fun _ => sum_over (all_ix (tdims e)) (tat e)))
    (Tensor [] (fun _ => sum_over (all_ix (tdims a)) (tat a))).
Proof.
  intros H Q; assert (G := sum_vfollow _ _ _ (unwrap_follow _ _ _ H)).
  destruct s as [v|t x|t x]; unfold sum_spec_post in Q; try (apply Ok_inj in Q; subst s'; exact G).
  destruct (fof_usize _) as [m|] eqn:O; cbn [opt_unwrap res_bind] in Q; [|discriminate].
  apply Ok_inj in Q; subst s'; destruct H as (W & D & D' & P & H).
  split; [exact I|split; [reflexivity|split; [reflexivity|split; [intro; constructor|]]]].
  intros ix Bx; cbn [sfun tat]; rewrite D'; apply r_fill.
  - intros p Q; specialize (P p); clear - P Q; revert Q P; generalize (tdims e) as l.
    induction l as [|d l IH]; intros Q P; [discriminate|].
    apply Forall_cons_iff in P; destruct P as [P1 P2]; destruct d as [|d]; [lia|].
    apply IH; auto; cbn [all_ix seq flat_map] in Q; apply app_eq_nil in Q; destruct Q as [Q _].
    destruct (all_ix l); [reflexivity|discriminate].
  - rewrite <- O; f_equal; rewrite all_ix_iproduct; rewrite <- D; cbn [spec_bty].
    symmetry; apply cardinality_length.
  - intros k Hk; apply (H k); rewrite all_ix_iproduct in Hk; apply in_iproduct; exact Hk.
Qed.

Lemma tri_unwrap (n : node F) (sp : ctx F -> ctx F * res err (spec F)) :
  tri (eq c) (Fs n) sp -> tri (eq c) (Fv n) (eval_by_spec sp).
Proof.
  intros H c0 Hc; destruct (H c0 Hc) as [C G]; unfold eval_by_spec; destruct (sp c0) as [c1 r].
  cbn [fst snd] in *; split; [exact C|]; intros v Q; destruct r as [s| | |]; try discriminate Q.
  apply Ok_inj in Q; subst v; apply unwrap_follow; exact (G s eq_refl).
Qed.

Lemma tree_follow n :
  node_wf n -> integer_ops minus over n -> reg n -> (pos -> constants_inhabited n) ->
  constants_all (fun x => Rl x (ge x) (ga x)) n -> divisors_all dok (ctx_through ge c) (node_through ge n) ->
  tri (eq c) (Fs n) (f_spec (interp n)) /\ tri (eq c) (Fv n) (f_eval (interp n)).
Proof.
  induction n; intros W Rt Rg Pn In' Dv; try contradiction.
  - (* Var *)
    assert (L : forall v, c i = Some v -> Fv (Var i) v).
    { intros v Ev; unfold Fv; cbn [node_through den]; unfold var_tensor, ctx_through; rewrite Ev; cbn [option_map].
      apply leaf_follow; [exact (Wc i v Ev)|intro p; exact (Pc p i v Ev)|exact (Ic i v Ev)]. }
    split; apply tri_const; intros c0 x <-; unfold read_spec, read; destruct (c i) as [v|] eqn:Ev; simpl; try discriminate;
      intro Q; apply Ok_inj in Q; subst x; [apply raw_follow|]; apply L; reflexivity.
  - (* VarAdj *)
    assert (S : tri (eq c) (Fs (VarAdj i t)) (f_spec (interp (VarAdj i t)))).
    { apply tri_const; intros c0 x <- H; unfold read_bty in H.
      destruct (c i) as [vi|] eqn:Ei; [|discriminate].
      destruct (c t) as [vt|] eqn:Et; [|discriminate]; cbn [res_bind res_map_err ok_or_undef option_map] in H.
      destruct (adj_bty (bty_of vi) (bty_of vt)) as [sa|] eqn:Ea; [|discriminate].
      destruct (varadj_spec_ok c i t vi vt sa Ei Et Ea) as (s' & Es & Ts & Ws & En).
      unfold varadj_spec, read_bty in Es; rewrite Ei, Et in Es; cbn [res_bind res_map_err ok_or_undef option_map] in Es.
      rewrite Ea in Es; apply (f_equal snd) in Es; cbn [snd] in Es; rewrite Es in H; apply Ok_inj in H; subst x.
      assert (Da := adj_bty_dims _ _ _ Ea).
      unfold Fs, ctx_through; cbn [node_through den]; unfold var_tensor; rewrite Ei, Et.
      cbn [option_map]; unfold tensor_of, vshape; cbn [tdims tat]; rewrite !vmap_bty.
      split; [exact Ws|cbn [tdims tat]]; rewrite Ts; split; [exact Da|split; [reflexivity|split]].
      { apply positive_app; intro p; [exact (Pc p i vi Ei)|exact (Pc p t vt Et)]. }
      intros ix B; apply in_box_app in B; destruct B as [B1 B2].
      rewrite <- (firstn_skipn (length (dims (bty_shape (bty_of vi)))) ix) at 1.
      rewrite En by auto; change (ident_eqb i t) with (Nat.eqb i t); change list_nat_eqb with ix_eqb.
      match goal with |- context [if ?q then _ else _] => destruct q end; [exact r_one|exact r_zero]. }
    split; [exact S|exact (tri_unwrap _ _ S)].
  - (* Const *)
    assert (S : tri (eq c) (Fs (Const v)) (f_spec (interp (Const v)))).
    { simpl in W; apply tri_const; intros c0 x <- Q; apply Ok_inj in Q; subst x; apply raw_follow.
      apply leaf_follow; auto. }
    split; [exact S|exact (tri_unwrap _ _ S)].
  - (* ConstAdj *)
    assert (S : tri (eq c) (Fs (ConstAdj n t)) (f_spec (interp (ConstAdj n t)))).
    { assert (S1 := shape_follow (ConstAdj n t) W Rt Rg Pn).
      apply (tri_post (eq c) _ _ (Ft (ConstAdj n t)) _ _ (res_map (fun sa => Full sa fzero)) S1).
      intros [sa| | |] s Hr Q; simpl in Q; try discriminate; apply Ok_inj in Q; subst s.
      destruct (Hr sa eq_refl) as (W1 & D1 & P1); split; [exact W1|].
      split; [exact D1|split; [apply ea_dims|split; [rewrite <- D1; exact P1|]]].
      intros ix Bx; exact r_zero. }
    split; [exact S|exact (tri_unwrap _ _ S)].
  - (* Un *)
    destruct (IHn W (un_class _ _ Rt) Rg Pn In' Dv) as [Hs He].
    assert (U : integer_ops minus over (Un u (@Var F 0))) by (destruct u; cbn [integer_ops] in *; tauto).
    split.
    + apply (tri_post (eq c) _ _ (Fs n) _ _ (res_map (un_spec_post u)) Hs).
      intros [s| | |] s' Hr Q; simpl in Q; try discriminate; apply Ok_inj in Q; subst s'.
      apply (un_sfollow u s _ _ U (Hr s eq_refl)).
    + apply (tri_post (eq c) _ _ (Fv n) _ _ (res_map (vmutate (un_fn u))) He).
      intros [v| | |] v' Hr Q; simpl in Q; try discriminate; apply Ok_inj in Q; subst v'.
      apply raw_follow, (un_sfollow u (Raw v) _ _ U (Hr v eq_refl)).
  - (* Sum *)
    destruct (IHn W Rt Rg Pn In' Dv) as [Hs He]; split.
    + apply (tri_post (eq c) _ _ (Fs n) _ _ (fun r => res_bind r sum_spec_post) Hs).
      intros [s| | |] s' Hr Q; simpl in Q; try discriminate.
      exact (sum_sfollow s s' _ _ (Hr s eq_refl) Q).
    + apply (tri_post (eq c) _ _ (Fv n) _ _ (res_map (fun v => VScal (vsum v))) He).
      intros [v| | |] v' Hr Q; simpl in Q; try discriminate; apply Ok_inj in Q; subst v'.
      exact (sum_vfollow v _ _ (Hr v eq_refl)).
  - (* Add *)
    destruct W as [W1 W2], Rt as [T1 T2], Rg as [R1 R2], In' as [I1 I2], Dv as [D1 D2].
    destruct (IHn1 W1 T1 R1 (fun p => proj1 (Pn p)) I1 D1) as [S1 _], (IHn2 W2 T2 R2 (fun p => proj2 (Pn p)) I2 D2) as [S2 _].
    assert (S : tri (eq c) (Fs (Add n1 n2)) (f_spec (interp (Add n1 n2)))).
    { eapply tri_both; [exact S1|exact S2|]; intros x y s Hx Hy Q; apply map_err_ok in Q.
      eapply zip_sfollow; [exact Hx|exact Hy|apply add_zipl; try apply Hx; try apply Hy; auto|exact add_follow]. }
    split; [exact S|exact (tri_unwrap _ _ S)].
  - (* Sub *)
    destruct W as [W1 W2], Rt as (M & T1 & T2), Rg as (R1 & R2 & R3), In' as [I1 I2], Dv as [D1 D2].
    destruct (IHn1 W1 T1 R1 (fun p => proj1 (Pn p)) I1 D1) as [S1 _], (IHn2 W2 T2 R2 (fun p => proj2 (Pn p)) I2 D2) as [S2 _].
    assert (S : tri (eq c) (Fs (Sub n1 n2)) (f_spec (interp (Sub n1 n2)))).
    { eapply tri_both; [exact S1|exact S2|]; intros x y s Hx Hy Q; apply map_err_ok in Q.
      eapply zip_sfollow; [exact Hx|exact Hy| |intros *; exact (sub_follow _ _ _ _ _ _ _ M)].
      apply sub_zipl; try apply Hx; try apply Hy; auto.
      destruct Hx as (_ & Da & _), Hy as (_ & Db & _); unfold keeps_order in R3; rewrite <- Da, <- Db in R3.
      destruct (spec_bty x), (spec_bty y); auto; cbn [swapped tdims_of] in *; apply Nat.leb_gt; specialize (R3 eq_refl);
        unfold tdims_of in R3; simpl in R3; lia. }
    split; [exact S|exact (tri_unwrap _ _ S)].
  - (* Mul *)
    destruct W as [W1 W2], Rt as [T1 T2], Rg as [R1 R2], In' as [I1 I2], Dv as [D1 D2].
    destruct (IHn1 W1 T1 R1 (fun p => proj1 (Pn p)) I1 D1) as [S1 _], (IHn2 W2 T2 R2 (fun p => proj2 (Pn p)) I2 D2) as [S2 _].
    assert (S : tri (eq c) (Fs (Mul n1 n2)) (f_spec (interp (Mul n1 n2)))).
    { eapply tri_both; [exact S1|exact S2|]; intros x y s Hx Hy Q; apply map_err_ok in Q.
      eapply zip_sfollow; [exact Hx|exact Hy|apply mul_zipl; try apply Hx; try apply Hy; auto|exact mul_follow]. }
    split; [exact S|exact (tri_unwrap _ _ S)].
  - (* Div *)
    destruct W as [W1 W2], Rt as (M & T1 & T2), Rg as (R1 & R2 & R3), In' as [I1 I2], Dv as (D1 & D2 & D3).
    destruct (IHn1 W1 T1 R1 (fun p => proj1 (Pn p)) I1 D1) as [_ V1], (IHn2 W2 T2 R2 (fun p => proj2 (Pn p)) I2 D2) as [_ V2].
    assert (V : tri (eq c) (Fv (Div n1 n2)) (f_eval (interp (Div n1 n2)))).
    { eapply tri_both_eval; [exact V1|exact V2|]; intros x y s Hx Hy Q; apply map_err_ok in Q.
      apply raw_follow; apply (zip_sfollow_if dok (fun x y z => z = fdiv x y) fdiv fdiv (Raw x) (Raw y) (Raw s)); [exact Hx|exact Hy| |exact D3|].
      - apply (dense_zipl fdiv); [apply Hx|apply Hy|reflexivity| |].
        + intro Sw; exfalso; revert Sw.
          destruct Hx as (_ & Da & _), Hy as (_ & Db & _); unfold keeps_order in R3; rewrite <- Da, <- Db in R3.
          unfold vshape in R3; cbn [spec_bty].
          destruct (bty_of x), (bty_of y); try discriminate; cbn [swapped]; intro Sw; apply Nat.leb_le in Sw;
            specialize (R3 eq_refl); unfold tdims_of in R3; simpl in R3; lia.
        + unfold zip_dense; cbn [unwrap]; rewrite Q; reflexivity.
      - intros X e a Y f b Z HX HY HD ->; exact (r_div M _ _ _ _ _ _ HX HY HD). }
    split; [|exact V].
    apply (tri_post (eq c) _ _ (Fv (Div n1 n2)) (Fs (Div n1 n2)) _ (res_map Raw) V).
    intros [v| | |] s Hr Q; simpl in Q; try discriminate; apply Ok_inj in Q; subst s.
    apply raw_follow; exact (Hr v eq_refl).
  - (* Contract *)
    destruct W as [W1 W2], Rt as [T1 T2], In' as [I1 I2], Dv as [D1 D2].
    assert (Rg' : reg n1 /\ reg n2 /\ (axes = 0 \/ square_dims (ev n1) (ev n2))).
    { destruct axes; simpl in Rg; tauto. }
    destruct Rg' as (R1 & R2 & R3).
    destruct (IHn1 W1 T1 R1 (fun p => proj1 (Pn p)) I1 D1) as [S1 _], (IHn2 W2 T2 R2 (fun p => proj2 (Pn p)) I2 D2) as [S2 _].
    assert (S : tri (eq c) (Fs (Contract axes n1 n2)) (f_spec (interp (Contract axes n1 n2)))).
    { eapply tri_both; [exact S1|exact S2|]; intros x y s Hx Hy Q; apply map_err_ok in Q.
      assert (K := contract_sfollow axes x y s _ _ _ _ Hx Hy R3 Q); destruct axes; exact K. }
    split; [exact S|exact (tri_unwrap _ _ S)].
Qed.

Lemma value_follow n c' v :
  node_wf n -> integer_ops minus over n -> reg n -> (pos -> constants_inhabited n) ->
  constants_all (fun x => Rl x (ge x) (ga x)) n -> divisors_all dok (ctx_through ge c) (node_through ge n) -> evaluate n c = (c', Ok v) ->
  dims (vshape v) = tdims (ev n) /\
  forall d ix, in_box (dims (vshape v)) ix -> Rl (vat d v ix) (tat (ev n) ix) (tat (av n) ix).
Proof.
  intros W Rt Rg Pn In' Dv H; destruct (tree_follow n W Rt Rg Pn In' Dv) as [_ T].
  destruct (T c eq_refl) as [_ G]; unfold evaluate in H; rewrite H in G.
  destruct (G v eq_refl) as (Wv & D & _ & _ & K); split; [exact D|]; intros d ix Bx.
  rewrite (value_eta fzero v Wv), vat_build by exact Bx; apply K; rewrite <- D; exact Bx.
Qed.

End Follow.

(** Replacing numbers twice, and by themselves. *)
Section Compose.
Context {A B C : Type}.
Variables (f : A -> B) (g : B -> C) (h : A -> C).
Hypothesis gf : forall x, g (f x) = h x.

Lemma arr_map_compose : forall a : arr A, arr_map g (arr_map f a) = arr_map h a.
Proof.
  fix IH 1; intros [x|l]; cbn [arr_map]; [rewrite gf; reflexivity|].
  f_equal; induction l as [|a l Il]; [reflexivity|]; cbn [map]; rewrite IH, Il; reflexivity.
Qed.
Lemma vmap_compose (v : value A) : vmap g (vmap f v) = vmap h v.
Proof.
  destruct v as [x|x y|l|ds a]; cbn [vmap]; rewrite ?gf, ?arr_map_compose; try reflexivity.
  rewrite map_map; f_equal; apply map_ext; exact gf.
Qed.
Lemma node_compose (n : node A) : node_through g (node_through f n) = node_through h n.
Proof.
  induction n; cbn [node_through]; rewrite ?vmap_compose; try congruence.
  f_equal; destruct s; cbn [spec_through]; rewrite ?vmap_compose, ?gf; reflexivity.
Qed.
Lemma ctx_compose (c : ctx A) i : ctx_through g (ctx_through f c) i = ctx_through h c i.
Proof. unfold ctx_through; destruct (c i); cbn [option_map]; rewrite ?vmap_compose; reflexivity. Qed.
End Compose.

Section Same.
Context {A : Type}.
Variable f : A -> A.
Hypothesis fx : forall x, f x = x.

Lemma arr_map_same : forall a : arr A, arr_map f a = a.
Proof.
  fix IH 1; intros [x|l]; cbn [arr_map]; [rewrite fx; reflexivity|].
  f_equal; induction l as [|a l Il]; [reflexivity|]; cbn [map]; rewrite IH, Il; reflexivity.
Qed.
Lemma vmap_same (v : value A) : vmap f v = v.
Proof.
  destruct v as [x|x y|l|ds a]; cbn [vmap]; rewrite ?fx, ?arr_map_same; try reflexivity.
  f_equal; rewrite <- (map_id l) at 2; apply map_ext; exact fx.
Qed.
Lemma node_same (n : node A) : node_through f n = n.
Proof.
  induction n; cbn [node_through]; rewrite ?vmap_same; try congruence.
  f_equal; destruct s; cbn [spec_through]; rewrite ?vmap_same, ?fx; reflexivity.
Qed.
Lemma ctx_same (c : ctx A) i : ctx_through f c i = c i.
Proof. unfold ctx_through; destruct (c i); cbn [option_map]; rewrite ?vmap_same; reflexivity. Qed.
End Same.

Lemma den_ctx {A} {SA : Scalar A} um (c c' : ctx A) n : (forall i, c i = c' i) -> den um c n = den um c' n.
Proof.
  intro H; assert (V : forall i, var_tensor c i = var_tensor c' i) by (intro i; unfold var_tensor; rewrite H; reflexivity).
  induction n; cbn [den]; rewrite ?V, ?IHn, ?IHn1, ?IHn2; reflexivity.
Qed.
Lemma regular_ctx {A} {SA : Scalar A} um (c c' : ctx A) n : (forall i, c i = c' i) ->
  regular um c n -> regular um c' n.
Proof.
  intro H; induction n; cbn [regular]; rewrite ?(den_ctx um c' c) by (intro; symmetry; apply H); try tauto.
  destruct axes; rewrite ?(den_ctx um c' c) by (intro; symmetry; apply H); tauto.
Qed.

Lemma vwf_through {A B} (g : A -> B) (c : ctx A) : ctx_wf c -> ctx_wf (ctx_through g c).
Proof.
  intros W i v; unfold ctx_through; destruct (c i) as [u|] eqn:Q; [|discriminate]; intro H.
  injection H as <-; apply vmap_wf; exact (W i u Q).
Qed.
Lemma node_wf_through {A B} (g : A -> B) (n : node A) : node_wf n -> node_wf (node_through g n).
Proof.
  induction n; cbn [node_wf node_through]; try tauto; try apply vmap_wf.
  destruct s; cbn [spec_wf spec_through]; auto; apply vmap_wf.
Qed.
Lemma integer_through {A B} (g : A -> B) minus over (n : node A) : integer_ops minus over n -> integer_ops minus over (node_through g n).
Proof. induction n; cbn [integer_ops node_through]; try tauto; destruct u; tauto. Qed.
Lemma inhabited_through {A B} (g : A -> B) (v : value A) : inhabited v -> inhabited (vmap g v).
Proof. unfold inhabited, vshape; rewrite vmap_bty; auto. Qed.
Lemma constants_inhabited_through {A B} (g : A -> B) (n : node A) :
  constants_inhabited n -> constants_inhabited (node_through g n).
Proof. induction n; cbn [constants_inhabited node_through]; try tauto; apply inhabited_through. Qed.
Lemma entries_through {A B} (g : A -> B) (P : A -> Prop) (Q : B -> Prop) (a : A) (v : value A) : vwf v ->
  (forall x, P x -> Q (g x)) -> entries_all P v -> entries_all Q (vmap g v).
Proof.
  intros W H L d ix; unfold vshape; rewrite vmap_bty; intro Bx.
  rewrite (vat_vmap _ _ a) by assumption; apply H, L; exact Bx.
Qed.
Lemma constants_through {A B} (g : A -> B) (P : A -> Prop) (Q : B -> Prop) (a : A) (n : node A) :
  node_wf n -> (forall x, P x -> Q (g x)) -> constants_all P n -> constants_all Q (node_through g n).
Proof.
  intros W H; revert W; induction n; cbn [node_wf constants_all node_through]; try tauto.
  intros W L; exact (entries_through g P Q a v W H L).
Qed.
