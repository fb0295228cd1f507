(** Operators applied to all-zero operands, and the adjoint with respect to an absent variable. *)
From Coq Require Import List Arith Bool Lia Ring.
Import ListNotations.
From Verif Require Import Base Shapes Scalar Buffers Spec Contraction Node Eval Types Vocab Math
  Index_facts Shapes_facts Buffers_facts Spec_facts Contraction_facts Contraction_entries
  Match_facts Eval_facts Typing_facts Progress_facts Exact_facts Math_facts.

Ltac adj_inv A :=
  match type of A with
  | obind ?o _ = Some _ =>
      let E := fresh "E" in destruct o eqn:E; [cbn [obind] in A; adj_inv A|discriminate A]
  | Some _ = Some _ => inversion A; subst; clear A
  | _ => idtac
  end.

Section Zero.
Context {F : Type} {SF : Scalar F} (EX : exact F).
Add Ring FRing : (ex_ring EX).

Definition zs (s : spec F) : Prop := spec_wf s /\ forall ix, sfun s ix = fzero.

Lemma box_dec ds ix : in_box ds ix \/ ~ in_box ds ix.
Proof.
  revert ix; induction ds as [|d ds IH]; intros [|i ix]; try (right; intro H; inversion H; fail).
  - left; constructor.
  - destruct (IH ix) as [B|B]; [|right; intro H; inversion H; auto].
    destruct (lt_dec i d); [left; constructor; auto|right; intro H; inversion H; auto].
Qed.

Lemma vat_all_zero (v : value F) :
  vwf v -> (forall ix, in_box (tdims_of (bty_of v)) ix -> vat fzero v ix = fzero) ->
  forall ix, vat fzero v ix = fzero.
Proof.
  intros W H ix; destruct v as [x|x y|l|ds a]; cbn [vat].
  - apply (H []); constructor.
  - destruct ix as [|[|[|i]] [|? ?]]; auto.
    + apply (H [0]); repeat constructor.
    + apply (H [1]); repeat constructor.
  - destruct ix as [|i [|? ?]]; auto.
    destruct (Nat.lt_ge_cases i (length l)) as [L|L]; [|apply nth_overflow; auto].
    apply (H [i]); repeat constructor; auto.
  - destruct (arr_get ix a) as [x|] eqn:E; auto.
    assert (B : in_box ds ix).
    { destruct W as [W _]. 
      destruct (box_dec ds ix) as [B|B]; auto.
      rewrite (arr_get_out ds) in E by auto; discriminate. }
    specialize (H ix); cbn [vat] in H; rewrite E in H; apply H; auto.
Qed.

Lemma zs_raw (v : value F) :
  vwf v -> (forall ix, in_box (tdims_of (bty_of v)) ix -> vat fzero v ix = fzero) -> zs (Raw v).
Proof. intros W H; split; auto; simpl; apply vat_all_zero; auto. Qed.

Lemma zs_build t (f : list nat -> F) :
  bty_wf t -> (forall ix, f ix = fzero) -> zs (Raw (build t f)).
Proof.
  intros W H; apply zs_raw; [apply build_wf; auto|].
  intros ix B; rewrite build_bty in B; rewrite vat_build; auto.
Qed.

Lemma zs_unwrap (s : spec F) ix : zs s -> vat fzero (unwrap s) ix = fzero.
Proof.
  intros [W H]; apply vat_all_zero; [apply unwrap_wf; auto|].
  intros ix' B; rewrite unwrap_bty in B; rewrite vat_unwrap; auto.
Qed.

Lemma zs_full t : bty_wf t -> zs (spec_zeroes t).
Proof. intro W; split; auto. Qed.

Lemma zero_dense g (x y : spec F) s :
  (forall ix jx, g (sfun x ix) (sfun y jx) = fzero /\ g (sfun y jx) (sfun x ix) = fzero) ->
  spec_wf x -> spec_wf y -> zip_dense g x y = Ok s -> zs s.
Proof.
  intros G Wx Wy; rewrite zip_dense_eq by auto.
  assert (W := bcast_bty_wf (spec_bty x) (spec_bty y)).
  destruct (bcast_bty _ _) as [t| | |]; try discriminate.
  intro H; apply Ok_inj in H; subst s.
  apply zs_build; eauto; intro ix; destruct (swapped _ _); apply G.
Qed.

Lemma zero_bcast l r x (s : spec F) :
  x = fzero -> res_map (fun sz => Full sz x) (bcast_bty l r) = Ok s -> zs s.
Proof.
  intros ->; assert (W := bcast_bty_wf l r).
  destruct (bcast_bty _ _) as [t| | |]; try discriminate; intro H; apply Ok_inj in H; subst s.
  apply zs_full; eauto.
Qed.

Lemma zs_at (s : spec F) ix : zs s -> sfun s ix = fzero.
Proof. intros [_ H]; apply H. Qed.

Lemma zero_shape (v : value F) t s :
  zs (Raw v) -> bty_wf t -> res_map Raw (zip_shape v t) = Ok s -> zs s.
Proof.
  intros Z W; rewrite zip_shape_eq by (auto; apply Z).
  assert (Wb := bcast_bty_wf (bty_of v) t).
  destruct (bcast_bty _ _) as [t'| | |]; try discriminate; intro H; apply Ok_inj in H; subst s.
  apply zs_build; eauto; intro ix; apply (zs_at _ _ Z).
Qed.

Lemma zero_add (x y s : spec F) : zs x -> zs y -> add_match x y = Ok s -> zs s.
Proof.
  intros Zx Zy H.
  assert (D : zip_dense fadd x y = Ok s -> zs s).
  { intro D; refine (zero_dense fadd x y s _ (proj1 Zx) (proj1 Zy) D).
    intros; rewrite (zs_at x), (zs_at y) by auto; split; ring. }
  destruct x as [xv|tx fx|tx fx], y as [yv|ty fy|ty fy]; try (apply D; exact H); unfold add_match in H.
  - destruct (is_zero fy); auto; apply (zero_shape xv ty); auto; apply Zy.
  - destruct (is_zero fx); auto; apply map_err_ok in H; apply (zero_shape yv tx); auto; apply Zx.
  - eapply zero_bcast; [|exact H].
    rewrite (zs_at _ [] Zx : fx = fzero), (zs_at _ [] Zy : fy = fzero); ring.
Qed.

Lemma zero_sub (x y s : spec F) : zs x -> zs y -> sub_match x y = Ok s -> zs s.
Proof.
  intros Zx Zy H.
  assert (D : zip_dense fsub x y = Ok s -> zs s).
  { intro D; refine (zero_dense fsub x y s _ (proj1 Zx) (proj1 Zy) D).
    intros; rewrite (zs_at x), (zs_at y) by auto; split; ring. }
  destruct x as [xv|tx fx|tx fx], y as [yv|ty fy|ty fy]; try (apply D; exact H); unfold sub_match in H.
  - destruct (is_zero fy); auto; apply (zero_shape xv ty); auto; apply Zy.
  - eapply zero_bcast; [|exact H].
    rewrite (zs_at _ [] Zx : fx = fzero), (zs_at _ [] Zy : fy = fzero); ring.
Qed.

Lemma zero_mul (x y s : spec F) :
  spec_wf x -> spec_wf y -> zs x \/ zs y -> mul_match x y = Ok s -> zs s.
Proof.
  intros Wx Wy Z H.
  assert (D : zip_dense fmul x y = Ok s -> zs s).
  { intro D; refine (zero_dense fmul x y s _ Wx Wy D).
    intros; destruct Z as [Z|Z]; rewrite (zs_at _ _ Z); split; ring. }
  destruct x as [xv|tx fx|tx fx], y as [yv|ty fy|ty fy]; try (apply D; exact H); unfold mul_match in H;
    try (destruct (is_zero _); auto; unfold spec_zeroes in H; eapply zero_bcast; [|exact H]; auto; fail).
  eapply zero_bcast; [|exact H].
  destruct Z as [Z|Z]; apply (fun Z => zs_at _ [] Z) in Z; simpl in Z; rewrite Z; ring.
Qed.

Lemma zero_un u (s : spec F) : un_fn u fzero = fzero -> zs s -> zs (un_spec_post u s).
Proof.
  intros U Z; unfold un_spec_post.
  assert (R : zs (Raw (vmutate (un_fn u) (unwrap s)))).
  { rewrite vmutate_vmap, unwrap_build, vmap_build by apply Z.
    apply zs_build; [apply spec_wf_bty, Z|]; intro ix; rewrite (zs_at _ _ Z); auto. }
  destruct s as [v|t x|t x]; auto.
  split; [apply Z|]; intro ix; simpl; rewrite (zs_at _ [] Z : x = fzero); auto.
Qed.

Lemma lsum_zero n (g : nat -> F) : (forall k, g k = fzero) -> lsum n g = fzero.
Proof. intro H; rewrite lsum_over; apply sum_over_zero; auto. Qed.

Lemma centry_zero axes l r (f h : list nat -> F) ix :
  (forall jx, f jx = fzero) \/ (forall jx, h jx = fzero) -> centry axes l r f h ix = fzero.
Proof.
  intro Z.
  assert (M : forall a b, fmul (f a) (h b) = fzero) by (intros; destruct Z as [Z|Z]; rewrite Z; ring).
  assert (M' : forall a b, fmul (h a) (f b) = fzero) by (intros; destruct Z as [Z|Z]; rewrite Z; ring).
  destruct axes as [|[|axes]]; destruct l as [| |?|[|? [|? [|? ?]]]], r as [| |?|[|? [|? [|? ?]]]];
    cbn [centry]; auto using lsum_zero.
Qed.

Lemma dense_zero axes (x y s : spec F) t :
  spec_wf x -> spec_wf y -> zs x \/ zs y -> contract_bty axes (spec_bty x) (spec_bty y) = Some t ->
  contract_dense axes x y = Ok s -> zs s.
Proof.
  intros Wx Wy Z T H.
  destruct (narrow axes (spec_bty x) (spec_bty y)) eqn:N.
  - assert (W : bty_wf t).
    { apply contract_bty_wf in T; auto. }
    rewrite (contract_dense_ok axes x y t) in H by auto; apply Ok_inj in H; subst s.
    apply zs_build; auto; intro ix; apply centry_zero.
    destruct Z as [Z|Z]; [left|right]; intro; apply zs_at; auto.
  - unfold contract_dense in H; rewrite !unwrap_build in H by auto.
    rewrite (contract_wide _ _ _ _ _ _ T N) in H; discriminate.
Qed.

Lemma contract_zero axes (x y s : spec F) :
  spec_wf x -> spec_wf y -> zs x \/ zs y -> contract_spec axes x y = Ok s -> zs s.
Proof.
  intros Wx Wy Z E.
  destruct (contract_spec_wf _ _ _ _ Wx Wy E) as [Ws T].
  assert (D : forall s, contract_dense axes x y = Ok s -> zs s)
    by (intros s0 E0; exact (dense_zero axes x y s0 _ Wx Wy Z T E0)).
  assert (V : sq axes (spec_bty x) (spec_bty y) -> forall v, s = Raw v -> zs s).
  { intros Q v ->; apply zs_raw; auto; intros ix B.
    assert (K := contract_spec_entries EX axes x y _ (Raw v) ix Wx Wy T Q E B); simpl in K; rewrite K.
    apply centry_zero; destruct Z as [Z|Z]; [left|right]; intro; apply zs_at; auto. }
  assert (M : forall a b, fmul (sfun x a) (sfun y b) = fzero)
    by (intros; destruct Z as [Z|Z]; rewrite (zs_at _ _ Z); ring).
  assert (X : forall z t, bty_wf t -> z = fzero -> zs (Full t z)) by (intros; subst; apply zs_full; auto).
  unfold contract_spec in E.
  destruct axes as [|[|axes]]; [| |discriminate];
    destruct (spec_bty x) as [| |xn|[|n [|m [|? ?]]]] eqn:Tx;
    destruct (spec_bty y) as [| |yn|[|n' [|m' [|? ?]]]] eqn:Ty; try discriminate.
  - destruct (unwrap_scal x) as [a| | |] eqn:Ea; try discriminate;
    destruct (unwrap_scal y) as [b| | |] eqn:Eb; try discriminate;
    cbn [res_bind] in E; apply Ok_inj in E; subst s;
    apply unwrap_scal_sfun in Ea, Eb; auto; subst; apply X; auto; exact I.
  - unfold tp_field_l1 in E; destruct y; auto.
    destruct (unwrap_scal x) as [a| | |] eqn:Ea; try discriminate.
    cbn [res_bind] in E; apply Ok_inj in E; subst s; apply unwrap_scal_sfun in Ea; auto; subst.
    apply X; auto; apply (M [] []).
  - unfold tp_field_l2 in E; destruct y; auto.
    destruct (unwrap_scal x) as [a| | |] eqn:Ea; try discriminate.
    cbn [res_bind] in E; apply Ok_inj in E; subst s; apply unwrap_scal_sfun in Ea; auto; subst.
    apply X; auto; rewrite <- (M [] []); simpl; ring.
  - unfold tp_field_r in E; destruct x; auto.
    destruct (unwrap_scal y) as [a| | |] eqn:Ea; try discriminate.
    cbn [res_bind] in E; apply Ok_inj in E; subst s; apply unwrap_scal_sfun in Ea; auto; subst.
    apply X; auto; apply (M [] []).
  - assert (W2 : bty_wf (TA [n; n'])) by (simpl; lia).
    assert (O : forall v, s = Raw v -> zs s) by (intros v0 E0; exact (V I v0 E0)).
    unfold tp_vec_vec in E; destruct x as [xv|tx fx|tx fx], y as [yv|ty fy|ty fy]; try (apply D; exact E);
      try (destruct (is_zero _); [apply Ok_inj in E; subst s; apply zs_full; exact W2|]).
    + destruct (unwrap _); try discriminate; apply Ok_inj in E; eapply O; symmetry; exact E.
    + destruct (unwrap _); try discriminate; apply Ok_inj in E; eapply O; symmetry; exact E.
    + apply Ok_inj in E; subst s; apply X; auto; apply (M [] []).
    + destruct (unwrap _); try discriminate; apply Ok_inj in E; eapply O; symmetry; exact E.
    + destruct (unwrap _); try discriminate; apply Ok_inj in E; eapply O; symmetry; exact E.
  - unfold tp_field_r in E; destruct x; auto.
    destruct (unwrap_scal y) as [a| | |] eqn:Ea; try discriminate.
    cbn [res_bind] in E; apply Ok_inj in E; subst s; apply unwrap_scal_sfun in Ea; auto; subst.
    apply X; auto; apply (M [] []).
  - destruct (unwrap_scal x) as [a| | |] eqn:Ea; try discriminate;
    destruct (unwrap_scal y) as [b| | |] eqn:Eb; try discriminate;
    cbn [res_bind] in E; apply Ok_inj in E; subst s;
    apply unwrap_scal_sfun in Ea, Eb; auto; subst; apply X; auto; exact I.
  - destruct (Nat.eqb n n') eqn:Q; [|discriminate]; apply Nat.eqb_eq in Q; subst n'.
    assert (TT : spec_bty s = TS) by (simpl in T; rewrite Nat.eqb_refl in T; congruence).
    assert (K : sfun s [] = fzero).
    { rewrite (dot_vec_vec_entries EX n x y s [] Wx Wy Tx Ty E (proj2 (in_box_nil []) eq_refl)); apply lsum_zero; intro; apply M. }
    assert (O : forall v, s = Raw v -> zs s) by (intros v0 E0; exact (V I v0 E0)).
    destruct s as [v|t z|t z]; [apply (O v); auto| |]; split; auto; intro ix; simpl in *; subst; auto.
    destruct (is_diagonal ix); auto.
  - destruct (Nat.eqb n n') eqn:Q; [|discriminate]; apply Nat.eqb_eq in Q; subst n'.
    assert (TT : spec_bty s = TA [m']) by (simpl in T; rewrite Nat.eqb_refl in T; congruence).
    assert (W1 : bty_wf (TA [m'])) by (simpl; lia).
    cbn [sq] in V.
    unfold dot_vec_mat in E; destruct y as [yv|ty fy|ty fy].
    + destruct x; auto.
    + destruct (is_zero fy); [|destruct x; auto]; apply Ok_inj in E; subst; auto using zs_full.
    + assert (MM : fmul (sfun x []) fy = fzero) by apply (M [] []).
      destruct x as [xv|tx fx|tx fx]; try (apply Ok_inj in E; subst s; auto; fail).
      * destruct (Nat.eqb m' n) eqn:Q; [|auto]; apply Nat.eqb_eq in Q.
        destruct (cast_dims _ _) as [v| | |]; try discriminate; apply Ok_inj in E; eapply V; eauto.
      * destruct (Nat.eqb m' n) eqn:Q; [|auto]; apply Nat.eqb_eq in Q.
        destruct (cast_dims _ _) as [v| | |]; try discriminate; apply Ok_inj in E; eapply V; eauto.
  - destruct (Nat.eqb n n') eqn:Q; [|discriminate]; apply Nat.eqb_eq in Q; subst n'.
    assert (TT : spec_bty s = TA [m]) by (simpl in T; rewrite Nat.eqb_refl in T; congruence).
    assert (W1 : bty_wf (TA [m])) by (simpl; lia).
    cbn [sq] in V.
    unfold dot_mat_vec in E; destruct x as [xv|tx fx|tx fx]; auto.
    + destruct (is_zero fx); auto; apply Ok_inj in E; subst; auto using zs_full.
    + assert (MM : fmul fx (sfun y []) = fzero) by apply (M [] []).
      destruct y as [yv|ty fy|ty fy]; try (apply Ok_inj in E; subst s; auto; fail).
      * destruct (Nat.eqb m n) eqn:Q; [|auto]; apply Nat.eqb_eq in Q.
        destruct (cast_dims _ _) as [v| | |]; try discriminate; apply Ok_inj in E; eapply V; eauto.
      * destruct (Nat.eqb m n) eqn:Q; [|auto]; apply Nat.eqb_eq in Q.
        destruct (cast_dims _ _) as [v| | |]; try discriminate; apply Ok_inj in E; eapply V; eauto.
  - destruct (Nat.eqb m n') eqn:Q; [|discriminate]; apply Nat.eqb_eq in Q; subst n'.
    assert (TT : spec_bty s = TA [n; m']) by (simpl in T; rewrite Nat.eqb_refl in T; congruence).
    assert (W1 : bty_wf (TA [n; m'])) by (simpl; lia).
    unfold dot_mat_mat in E; destruct x as [xv|tx fx|tx fx], y as [yv|ty fy|ty fy]; auto.
    + rewrite (ex_of EX) in E; cbn [opt_unwrap res_bind] in E; apply Ok_inj in E; subst s.
      assert (MM : fmul fx fy = fzero) by apply (M [] []).
      apply X; auto; transitivity (fmul (Nat.iter m (fun a => fadd a fone) fzero) (fmul fx fy)); [ring|rewrite MM; ring].
    + destruct (_ && _); auto; apply Ok_inj in E; subst s.
      split; auto; intro ix; simpl; rewrite (M [] [] : fmul fx fy = fzero); destruct (is_diagonal ix); auto.
Qed.

(** Structure of adjoints. *)
Lemma adjoint_cache_free (n n' : node F) t :
  cache_free n = true -> adjoint n t = Some n' -> cache_free n' = true.
Proof.
  revert n'; induction n; intros n' Cf A; simpl in Cf, A; try discriminate;
    try (apply andb_true_iff in Cf; destruct Cf as [C1 C2]);
    try (inversion A; subst; simpl; auto; fail); auto.
  - adj_inv A; specialize (IHn _ Cf eq_refl); destruct u; inversion A; subst; simpl; rewrite ?Cf, ?IHn; auto.
  - adj_inv A; simpl; rewrite (IHn1 _ C1 eq_refl), (IHn2 _ C2 eq_refl), C1, C2; auto.
  - adj_inv A; simpl; rewrite (IHn1 _ C1 eq_refl), (IHn2 _ C2 eq_refl); auto.
  - adj_inv A; simpl; rewrite (IHn1 _ C1 eq_refl), (IHn2 _ C2 eq_refl); auto.
  - adj_inv A; simpl; rewrite (IHn1 _ C1 eq_refl), (IHn2 _ C2 eq_refl), C1, C2; auto.
  - adj_inv A; simpl; rewrite (IHn1 _ C1 eq_refl), (IHn2 _ C2 eq_refl), C1, C2; auto.
  - adj_inv A; simpl; rewrite (IHn1 _ C1 eq_refl), (IHn2 _ C2 eq_refl), C1, C2; auto.
Qed.

Lemma adjoint_wf (n n' : node F) t : node_wf n -> adjoint n t = Some n' -> node_wf n'.
Proof.
  revert n'; induction n; intros n' W A; simpl in W, A; try discriminate;
    try (inversion A; subst; simpl; auto; fail); try (destruct W as [W1 W2]); auto.
  - destruct (ident_eqb k t); [|discriminate]; auto.
  - adj_inv A; specialize (IHn _ W eq_refl); destruct u; inversion A; subst; simpl; auto.
  - adj_inv A; specialize (IHn1 _ W1 eq_refl); specialize (IHn2 _ W2 eq_refl); simpl; tauto.
  - adj_inv A; specialize (IHn1 _ W1 eq_refl); specialize (IHn2 _ W2 eq_refl); simpl; tauto.
  - adj_inv A; specialize (IHn1 _ W1 eq_refl); specialize (IHn2 _ W2 eq_refl); simpl; tauto.
  - adj_inv A; specialize (IHn1 _ W1 eq_refl); specialize (IHn2 _ W2 eq_refl); simpl; tauto.
  - adj_inv A; specialize (IHn1 _ W1 eq_refl); specialize (IHn2 _ W2 eq_refl); simpl; tauto.
  - adj_inv A; specialize (IHn1 _ W1 eq_refl); specialize (IHn2 _ W2 eq_refl); simpl; tauto.
Qed.

Lemma absent_cache_free (n n' : node F) t :
  varies n t = false -> adjoint n t = Some n' -> cache_free n = true.
Proof.
  revert n'; induction n; intros n' C A; simpl in *; auto; try discriminate;
    try (apply orb_false_iff in C; destruct C as [C1 C2]);
    try (destruct (adjoint _ _) as [a'|] eqn:E1 in A; [|discriminate A]; simpl in A);
    try (destruct (adjoint _ _) as [b'|] eqn:E2 in A; [|discriminate A]; simpl in A);
    try (erewrite IHn1, IHn2 by eauto; reflexivity); eauto.
  unfold ident_eqb in *; rewrite Nat.eqb_sym in C1; rewrite C1 in A; discriminate.
Qed.

(** Specs of the subtrees of a cache-free tree. *)
Section At.
Variable c : ctx F.
Hypothesis Wc : ctx_wf c.
Definition sv (n : node F) : res err (spec F) := snd (f_spec (interp n) c).

Lemma sv_wf (n : node F) s : node_wf n -> sv n = Ok s -> spec_wf s.
Proof.
  intros W E; destruct (wf_all n W) as (_ & Ws & _); destruct (Ws c Wc) as [_ K]; apply K; auto.
Qed.

Lemma sv_both (l r : node F) k s :
  cache_free l = true -> snd (both (f_spec (interp l)) (f_spec (interp r)) k c) = Ok s ->
  exists a b, sv l = Ok a /\ sv r = Ok b /\ k a b = Ok s.
Proof.
  intros Cf E; destruct (both _ _ _ _) as [c' x] eqn:B; simpl in E; subst x.
  apply both_inv in B; destruct B as (c1 & a & b & E1 & E2 & B).
  destruct (cache_free_ctx l Cf) as (_ & K & _); specialize (K c); rewrite E1 in K; simpl in K; subst c1.
  exists a, b; unfold sv; rewrite E1, E2; auto.
Qed.

Lemma sv_eval (n : node F) : snd (f_eval (interp n) c) = res_map unwrap (sv n).
Proof.
  assert (A := all_agree n (exact_sum_law EX) c); unfold evaluate, evaluate_spec in A.
  rewrite A; reflexivity.
Qed.

Lemma sv_div (l r : node F) s :
  cache_free l = true -> sv (Div l r) = Ok s ->
  exists a b v, sv l = Ok a /\ sv r = Ok b /\ zip_map_id fdiv (unwrap a) (unwrap b) = Ok v /\ s = Raw v.
Proof.
  intros Cf E; unfold sv in E; simpl in E; unfold default_spec in E.
  destruct (both_eval _ _ _ _) as [c' [v| | |]] eqn:B; simpl in E; try discriminate.
  apply Ok_inj in E; subst s.
  apply both_eval_inv in B; destruct B as (c1 & a & b & E1 & E2 & B).
  destruct (cache_free_ctx l Cf) as (K & _ & _); specialize (K c); rewrite E1 in K; simpl in K; subst c1.
  assert (A1 := sv_eval l); assert (A2 := sv_eval r); rewrite E1 in A1; rewrite E2 in A2; simpl in A1, A2.
  destruct (sv l) as [sl| | |]; try discriminate; destruct (sv r) as [sr| | |]; try discriminate.
  apply Ok_inj in A1, A2; subst; apply map_err_ok in B; eauto 8.
Qed.

Lemma bcast_TS l r : bty_wf l -> bty_wf r -> bcast_bty l r = Ok TS -> l = TS /\ r = TS.
Proof.
  intros Wl Wr; rewrite bcast_bty_table by auto; destruct l, r; intro H; try discriminate; auto;
    try (destruct (Nat.eqb _ _); discriminate); destruct (dims_eqb _ _); discriminate.
Qed.

Lemma zip_TS m (x y s : spec F) :
  zip_like m -> spec_wf x -> spec_wf y -> m x y = Ok s -> spec_bty s = TS ->
  spec_bty x = TS /\ spec_bty y = TS.
Proof.
  intros M Wx Wy E T; apply bcast_TS; auto using spec_wf_bty.
  rewrite <- T; eapply zip_like_bty; eauto.
Qed.

Lemma zip_TS_TS m (x y s : spec F) :
  zip_like m -> spec_wf x -> spec_wf y -> m x y = Ok s -> spec_bty x = TS -> spec_bty y = TS ->
  spec_bty s = TS.
Proof.
  intros M Wx Wy E Tx Ty; apply (zip_like_bty m x y s M Wx Wy) in E; rewrite Tx, Ty in E.
  unfold bcast_bty in E; simpl in E; congruence.
Qed.

Lemma adj_TS l r t : bty_wf l -> adj_bty l r = Some t -> t = TS -> l = TS.
Proof.
  intros W A ->; apply adj_bty_dims in A; unfold tdims_of in A.
  symmetry in A; apply app_eq_nil in A; destruct A as [A _].
  destruct l as [| |n|ds]; auto; simpl in A; try discriminate.
  subst; simpl in W; lia.
Qed.

Hypothesis div0 : forall y : F, y <> fzero -> fdiv fzero y = fzero.
Hypothesis pow2 : forall y : F, y <> fzero -> fpow y ftwo <> fzero.

Lemma zero_div (x y : value F) v :
  vwf x -> vwf y -> (forall ix, vat fzero x ix = fzero) ->
  (forall ix, in_box (dims (vshape y)) ix -> vat fzero y ix <> fzero) ->
  (bty_of x = TS -> bty_of y = TS) ->
  zip_map_id fdiv x y = Ok v -> zs (Raw v).
Proof.
  intros Wx Wy Zx Ny T E; rewrite div_eq in E by auto.
  destruct (bcast_bty _ _) as [t| | |] eqn:B; try discriminate; apply Ok_inj in E; subst v.
  apply zs_raw; [apply build_wf; eapply bcast_bty_wf; eauto|].
  intros ix Bx; rewrite build_bty in Bx; rewrite vat_build by auto.
  apply bcast_ok in B; auto using vwf_bty; destruct B as [_ B]; destruct (B ix Bx) as [_ By].
  replace (swapped (bty_of x) (bty_of y)) with false.
  - rewrite Zx; apply div0, Ny; auto.
  - destruct (bty_of x); auto; rewrite T by auto; auto.
Qed.

(** [zeroed n' X]: the tree evaluates to zeroes, and [X] holds if to a scalar. *)
Definition zeroed (n' : node F) (X : Prop) : Prop :=
  forall s', sv n' = Ok s' -> zs s' /\ (spec_bty s' = TS -> X).

Lemma zeroed_imp n' (X Y : Prop) : (X -> Y) -> zeroed n' X -> zeroed n' Y.
Proof. intros I Z s' E; destruct (Z s' E); auto. Qed.

Lemma zeroed_un u m X : un_fn u fzero = fzero -> zeroed m X -> zeroed (Un u m) X.
Proof.
  intros U Z s E; unfold sv in E; simpl in E.
  specialize (Z (match sv m with Ok a => a | _ => Full TS fzero end)); unfold sv in Z.
  destruct (f_spec (interp m) c) as [c' [a| | |]]; simpl in *; try discriminate.
  apply Ok_inj in E; subst s; destruct (Z eq_refl) as [Z1 Z2]; split.
  - apply zero_un; auto.
  - rewrite un_post_bty; auto.
Qed.

Lemma sv_match (m : spec F -> spec F -> res incompat (spec F)) (l r : node F) s :
  cache_free l = true -> node_wf l -> node_wf r ->
  snd (both (f_spec (interp l)) (f_spec (interp r)) (fun x y => res_map_err EOutput (m x y)) c) = Ok s ->
  exists a b, sv l = Ok a /\ sv r = Ok b /\ spec_wf a /\ spec_wf b /\ m a b = Ok s.
Proof.
  intros Cf Wl Wr E; apply sv_both in E; auto; destruct E as (a & b & E1 & E2 & E).
  apply map_err_ok in E; exists a, b; split; [|split; [|split; [|split]]]; eauto using sv_wf.
Qed.

Lemma zeroed_mul_l l r X :
  cache_free l = true -> node_wf l -> node_wf r -> zeroed l X -> zeroed (Mul l r) X.
Proof.
  intros Cf Wl Wr Z s E; apply sv_match in E; auto; destruct E as (a & b & E1 & E2 & Wa & Wb & E).
  destruct (Z a E1) as [Z1 Z2]; split; [exact (zero_mul a b s Wa Wb (or_introl Z1) E)|].
  intro T; apply Z2; destruct (zip_TS _ a b s mul_like Wa Wb E T); auto.
Qed.

Lemma zeroed_mul_r l r X :
  cache_free l = true -> node_wf l -> node_wf r -> zeroed r X -> zeroed (Mul l r) X.
Proof.
  intros Cf Wl Wr Z s E; apply sv_match in E; auto; destruct E as (a & b & E1 & E2 & Wa & Wb & E).
  destruct (Z b E2) as [Z1 Z2]; split; [exact (zero_mul a b s Wa Wb (or_intror Z1) E)|].
  intro T; apply Z2; destruct (zip_TS _ a b s mul_like Wa Wb E T); auto.
Qed.

Lemma zeroed_add l r X Y :
  cache_free l = true -> node_wf l -> node_wf r -> zeroed l X -> zeroed r Y -> zeroed (Add l r) (X /\ Y).
Proof.
  intros Cf Wl Wr Zl Zr s E; apply sv_match in E; auto; destruct E as (a & b & E1 & E2 & Wa & Wb & E).
  destruct (Zl a E1) as [Z1 Z2], (Zr b E2) as [Z3 Z4]; split; [exact (zero_add a b s Z1 Z3 E)|].
  intro T; destruct (zip_TS _ a b s add_like Wa Wb E T); auto.
Qed.

Lemma zeroed_sub l r X Y :
  cache_free l = true -> node_wf l -> node_wf r -> zeroed l X -> zeroed r Y -> zeroed (Sub l r) (X /\ Y).
Proof.
  intros Cf Wl Wr Zl Zr s E; apply sv_match in E; auto; destruct E as (a & b & E1 & E2 & Wa & Wb & E).
  destruct (Zl a E1) as [Z1 Z2], (Zr b E2) as [Z3 Z4]; split; [exact (zero_sub a b s Z1 Z3 E)|].
  intro T; destruct (zip_TS _ a b s sub_like Wa Wb E T); auto.
Qed.

(** Type of the value of [n], if it has one. *)
Definition sty_is (n : node F) (t : bty) : Prop := forall s, sv n = Ok s -> spec_bty s = t.

Lemma zeroed_mul_ty l r X :
  cache_free l = true -> node_wf l -> node_wf r -> zeroed r X -> zeroed (Mul l r) (sty_is l TS).
Proof.
  intros Cf Wl Wr Z s E; apply sv_match in E; auto; destruct E as (a & b & E1 & E2 & Wa & Wb & E).
  destruct (Z b E2) as [Z1 Z2]; split; [exact (zero_mul a b s Wa Wb (or_intror Z1) E)|].
  intros T s' E'; assert (s' = a) by congruence; subst.
  destruct (zip_TS _ a b s mul_like Wa Wb E T); auto.
Qed.

Lemma zeroed_div l r :
  cache_free l = true -> node_wf l -> node_wf r -> zeroed l (sty_is r TS) ->
  (forall s, sv r = Ok s -> forall ix, in_box (tdims_of (spec_bty s)) ix -> sfun s ix <> fzero) ->
  zeroed (Div l r) (sty_is r TS).
Proof.
  intros Cf Wl Wr Z N s E; apply sv_div in E; auto.
  destruct E as (a & b & v & E1 & E2 & E & ->); destruct (Z a E1) as [Z1 Z2].
  assert (Wa := sv_wf l a Wl E1); assert (Wb := sv_wf r b Wr E2); split.
  - apply (zero_div (unwrap a) (unwrap b)); auto using unwrap_wf, zs_unwrap.
    + unfold vshape; rewrite unwrap_bty; intros ix B; rewrite vat_unwrap; auto; apply (N b E2); auto.
    + rewrite !unwrap_bty; intro T; apply (Z2 T); auto.
  - simpl; intros T s' E'; assert (s' = b) by congruence; subst s'.
    apply div_ok in E; auto using unwrap_wf; destruct E as [_ E]; rewrite T, !unwrap_bty in E.
    apply bcast_TS in E; tauto || auto using spec_wf_bty.
Qed.

Lemma sv_un u m s : sv (Un u m) = Ok s -> exists a, sv m = Ok a /\ s = un_spec_post u a.
Proof.
  unfold sv; simpl; destruct (f_spec (interp m) c) as [c' [a| | |]]; simpl; try discriminate.
  intro E; apply Ok_inj in E; eauto.
Qed.

Lemma sty_un u m t : sty_is m t -> sty_is (Un u m) t.
Proof. intros T s E; apply sv_un in E; destruct E as (a & E & ->); rewrite un_post_bty; auto. Qed.

Lemma sty_un_inv u m t : sty_is (Un u m) t -> sty_is m t.
Proof.
  intros T s E; rewrite <- (un_post_bty u s); apply T.
  unfold sv in *; simpl; destruct (f_spec (interp m) c) as [c' [a| | |]]; simpl in *; congruence.
Qed.

Lemma un_entries u s ix :
  spec_wf s -> in_box (tdims_of (spec_bty s)) ix -> sfun (un_spec_post u s) ix = un_fn u (sfun s ix).
Proof.
  intros W B; destruct s as [v|t x|t x]; auto;
    unfold un_spec_post; cbn [sfun];
    rewrite vmutate_vmap, unwrap_build, vmap_build, vat_build by auto; reflexivity.
Qed.

Lemma no_zero_sv m s ix :
  node_wf m -> no_zero c m -> sv m = Ok s -> in_box (tdims_of (spec_bty s)) ix -> sfun s ix <> fzero.
Proof.
  intros W N E B; assert (Ws := sv_wf m s W E).
  unfold no_zero, evaluate in N; rewrite sv_eval, E in N; simpl in N.
  specialize (N _ eq_refl ix); unfold vshape in N; rewrite unwrap_bty in N.
  rewrite vat_unwrap in N by auto; auto.
Qed.

Lemma contract_TS0 l r : contract_bty 0 l r = Some TS -> l = TS /\ r = TS.
Proof. destruct l as [| |?|[|? [|? [|? ?]]]], r as [| |?|[|? [|? [|? ?]]]]; simpl; intro H; try discriminate; auto. Qed.

Lemma contract_TS1 l r :
  contract_bty 1 l r = Some TS -> (l = TS /\ r = TS) \/ (exists n, l = TA [n] /\ r = TA [n]).
Proof.
  destruct l as [| |?|[|? [|? [|? ?]]]], r as [| |?|[|? [|? [|? ?]]]]; simpl; intro H; try discriminate; auto;
    destruct (Nat.eqb _ _) eqn:Q in H; try discriminate.
  apply Nat.eqb_eq in Q; subst; eauto.
Qed.

Lemma contract_axes axes l r t : contract_bty axes l r = Some t -> axes = 0 \/ axes = 1.
Proof. destruct axes as [|[|axes]]; auto; discriminate. Qed.

Lemma zeroed_contract axes l r l' r' :
  cache_free l = true -> cache_free l' = true -> cache_free r' = true ->
  node_wf l -> node_wf r -> node_wf l' -> node_wf r' ->
  zeroed l' (sty_is l TS) -> zeroed r' (sty_is r TS) ->
  zeroed (Add (Contract axes l r') (Contract axes l' r)) (sty_is (Contract axes l r) TS).
Proof.
  intros C1 C2 C3 Wl Wr Wl' Wr' Zl Zr s E.
  apply sv_match in E; simpl; auto; [|rewrite C1, C3; auto].
  destruct E as (x & y & Ex & Ey & Wx & Wy & E).
  apply sv_match in Ex; auto; destruct Ex as (a & b' & Ea & Eb' & Wa & Wb' & Ex).
  apply sv_match in Ey; auto; destruct Ey as (a' & b & Ea' & Eb & Wa' & Wb & Ey).
  destruct (Zl a' Ea') as [Za Ta], (Zr b' Eb') as [Zb Tb]; split.
  - refine (zero_add x y s _ _ E).
    + exact (contract_zero axes a b' x Wa Wb' (or_intror Zb) Ex).
    + exact (contract_zero axes a' b y Wa' Wb (or_introl Za) Ey).
  - intros T s' E'; destruct (zip_TS _ x y s add_like Wx Wy E T) as [Tx Ty].
    apply sv_match in E'; auto; destruct E' as (a0 & b0 & Ea0 & Eb0 & _ & _ & E').
    assert (a0 = a) by congruence; assert (b0 = b) by congruence; subst a0 b0.
    apply contract_spec_wf in Ex, Ey, E'; auto.
    destruct Ex as [_ Ex], Ey as [_ Ey], E' as [_ E']; rewrite Tx in Ex; rewrite Ty in Ey.
    destruct (contract_axes _ _ _ _ Ex); subst axes.
    + apply contract_TS0 in Ex, Ey; destruct Ex as [Xa Xb'], Ey as [Xa' Xb].
      rewrite Xa, Xb in E'; simpl in E'; congruence.
    + apply contract_TS1 in Ex, Ey.
      destruct Ex as [[Xa Xb']|(k & Xa & Xb')], Ey as [[Xa' Xb]|(k' & Xa' & Xb)].
      * rewrite Xa, Xb in E'; simpl in E'; congruence.
      * specialize (Tb Xb' b Eb); congruence.
      * specialize (Ta Xa' a Ea); congruence.
      * rewrite Xa, Xb in E'; simpl in E'; destruct (Nat.eqb k k'); congruence.
Qed.

Lemma zeroed_constadj m t :
  node_wf m -> shape_pure m = true -> zeroed (ConstAdj m t) (sty_is m TS).
Proof.
  intros W P s E; unfold sv in E; simpl in E; unfold constadj_spec, constadj_shape in E.
  destruct (f_shape (interp m) c) as [c1 x] eqn:Q.
  destruct (res_map_err ELeft x) as [t1| | |] eqn:R; simpl in E; try discriminate.
  apply map_err_ok in R; subst x.
  destruct (read c1 t) as [vt|]; simpl in E; try discriminate.
  destruct (adj_bty t1 (bty_of vt)) as [sa|] eqn:A; simpl in E; try discriminate.
  apply Ok_inj in E; subst s; split; [apply zs_full; eapply adj_bty_wf; eauto|].
  simpl; intros T s E.
  destruct (shape_agrees m W P) as [_ Hs].
  unfold sv in E; destruct (f_spec (interp m) c) as [c2 x] eqn:Q2; simpl in E; subst x.
  assert (K := Hs c c2 s Wc Q2); rewrite Q in K; inversion K; subst t1.
  eapply adj_TS; eauto.
  destruct (wf_all m W) as (_ & _ & Wh); destruct (Wh c Wc) as [_ H]; rewrite Q in H; apply H; auto.
Qed.

Lemma un_zero : un_fn Negate fzero = (fzero : F) /\ un_fn Double fzero = (fzero : F).
Proof. split; simpl; ring. Qed.

Lemma adjoint_zero t (n n' : node F) :
  node_wf n -> varies n t = false -> adjoint n t = Some n' -> quotients_ok c n ->
  zeroed n' (sty_is n TS).
Proof.
  revert n'; induction n; intros n' W C A D; assert (Cf := absent_cache_free _ _ _ C A);
    assert (W' := adjoint_wf _ _ _ W A);
    assert (Cf' := adjoint_cache_free _ _ _ Cf A);
    simpl in W, C, A, D, Cf; try discriminate;
    try (apply orb_false_iff in C; destruct C as [C1 C2]; apply andb_true_iff in Cf;
         destruct Cf as [Cf1 Cf2]; destruct W as [W1 W2]).
  - (* Var *)
    inversion A; subst; clear A; intros s E; unfold sv in E; simpl in E.
    unfold varadj_spec in E; simpl in E; rewrite C in E; unfold read_bty in E.
    destruct (c i) as [vi|] eqn:Ei; [|discriminate]; destruct (c t) as [vt|] eqn:Et; [|discriminate].
    simpl in E; destruct (adj_bty (bty_of vi) (bty_of vt)) as [sa|] eqn:Ea; [|discriminate].
    apply Ok_inj in E; subst s; split; [apply zs_full; eapply adj_bty_wf; eauto|].
    simpl; intros T s E; unfold sv in E; simpl in E; unfold read_spec in E; rewrite Ei in E; simpl in E.
    apply Ok_inj in E; subst s; simpl; eapply adj_TS; [|eauto|auto]; apply vwf_bty; eapply Wc; eauto.
  - (* VarAdj *) inversion A; subst; apply zeroed_constadj; auto.
  - (* Const *) inversion A; subst; apply zeroed_constadj; auto.
  - (* Un *)
    destruct (adjoint n t) as [m'|] eqn:Am; [|discriminate]; cbn [obind] in A.
    assert (Dm : quotients_ok c n) by (destruct u; tauto).
    specialize (IHn _ W C eq_refl Dm).
    assert (Wm' := adjoint_wf _ _ _ W Am); assert (Cm' := adjoint_cache_free _ _ _ Cf Am).
    apply (zeroed_imp _ (sty_is n TS)); [apply sty_un|]; destruct un_zero as [U1 U2].
    destruct u; inversion A; subst; auto using zeroed_un;
      try (apply zeroed_mul_l; simpl; auto; fail); try (apply zeroed_mul_r; simpl; auto; fail).
    + apply zeroed_div; auto; intros s E ix B; exact (no_zero_sv n s ix W (proj2 D) E B).
    + apply zeroed_mul_l; simpl; auto; [rewrite Cm'; auto|]; apply zeroed_mul_l; simpl; auto.
    + apply zeroed_un; auto; apply zeroed_mul_l; simpl; auto.
  - (* Sum *)
    intros s E; destruct (IHn _ W C A D s E) as [Z _]; split; auto; intros _ s' E'.
    unfold sv in E'; simpl in E'.
    destruct (f_spec (interp n) c) as [c' [a| | |]]; simpl in E'; try discriminate.
    destruct a as [v|ta a|ta a]; simpl in E'; try (apply Ok_inj in E'; subst; reflexivity).
    destruct (fof_usize _); simpl in E'; try discriminate; apply Ok_inj in E'; subst; reflexivity.
  - (* Power *)
    destruct (adjoint n1 t) as [l'|] eqn:A1; [|discriminate]; cbn [obind] in A.
    destruct (adjoint n2 t) as [r'|] eqn:A2; [|discriminate]; cbn [obind] in A.
    inversion A; subst; clear A; destruct D as [D1 D2].
    specialize (IHn1 _ W1 C1 eq_refl D1); specialize (IHn2 _ W2 C2 eq_refl D2).
    simpl in W', Cf'; destruct W' as ((Wa & Wb) & (Wc' & Wd) & We & Wf).
    assert (Cl' := adjoint_cache_free _ _ _ Cf1 A1); assert (Cr' := adjoint_cache_free _ _ _ Cf2 A2).
    apply (zeroed_imp _ (sty_is n1 TS /\ sty_is n2 TS)).
    + intros _ s E; apply sv_both in E; auto; destruct E as (a & b & E1 & E2 & E).
      apply power_wf in E; [tauto| |]; eapply sv_wf; [|eauto| |eauto]; auto.
    + apply zeroed_mul_r; simpl; auto; [rewrite Cf1, Cf2; auto|].
      apply zeroed_add; simpl; auto; [rewrite Cf2; auto| |]; apply zeroed_mul_r; simpl; auto.
  - (* Add *)
    destruct (adjoint n1 t) as [l'|] eqn:A1; [|discriminate]; cbn [obind] in A.
    destruct (adjoint n2 t) as [r'|] eqn:A2; [|discriminate]; cbn [obind] in A.
    inversion A; subst; clear A; destruct D as [D1 D2]; destruct W' as [Wa Wb].
    assert (Cl' := adjoint_cache_free _ _ _ Cf1 A1).
    apply (zeroed_imp _ (sty_is n1 TS /\ sty_is n2 TS)); [|apply zeroed_add; auto].
    intros [T1 T2] s E; apply sv_match in E; auto; destruct E as (a & b & E1 & E2 & Wx & Wy & E).
    eapply (zip_TS_TS _ a b s add_like); eauto.
  - (* Sub *)
    destruct (adjoint n1 t) as [l'|] eqn:A1; [|discriminate]; cbn [obind] in A.
    destruct (adjoint n2 t) as [r'|] eqn:A2; [|discriminate]; cbn [obind] in A.
    inversion A; subst; clear A; destruct D as [D1 D2]; destruct W' as [Wa Wb].
    assert (Cl' := adjoint_cache_free _ _ _ Cf1 A1).
    apply (zeroed_imp _ (sty_is n1 TS /\ sty_is n2 TS)); [|apply zeroed_sub; auto].
    intros [T1 T2] s E; apply sv_match in E; auto; destruct E as (a & b & E1 & E2 & Wx & Wy & E).
    eapply (zip_TS_TS _ a b s sub_like); eauto.
  - (* Mul *)
    destruct (adjoint n1 t) as [l'|] eqn:A1; [|discriminate]; cbn [obind] in A.
    destruct (adjoint n2 t) as [r'|] eqn:A2; [|discriminate]; cbn [obind] in A.
    inversion A; subst; clear A; destruct D as [D1 D2]; simpl in W'; destruct W' as [[Wa Wb] [Wd We]].
    assert (Cl' := adjoint_cache_free _ _ _ Cf1 A1); assert (Cr' := adjoint_cache_free _ _ _ Cf2 A2).
    apply (zeroed_imp _ (sty_is n1 TS /\ sty_is n2 TS));
      [|apply zeroed_add; simpl; auto; [rewrite Cl', Cf2; auto| |]; apply zeroed_mul_l; auto].
    intros [T1 T2] s E; apply sv_match in E; auto; destruct E as (a & b & E1 & E2 & Wx & Wy & E).
    eapply (zip_TS_TS _ a b s mul_like); eauto.
  - (* Div *)
    destruct (adjoint n1 t) as [l'|] eqn:A1; [|discriminate]; cbn [obind] in A.
    destruct (adjoint n2 t) as [r'|] eqn:A2; [|discriminate]; cbn [obind] in A.
    inversion A; subst; clear A; destruct D as (D1 & D2 & D3).
    simpl in W'; destruct W' as [[[Wa Wb] [Wd We]] _].
    assert (Cl' := adjoint_cache_free _ _ _ Cf1 A1); assert (Cr' := adjoint_cache_free _ _ _ Cf2 A2).
    specialize (IHn1 _ W1 C1 eq_refl D1); specialize (IHn2 _ W2 C2 eq_refl D2).
    assert (NUM : zeroed (Sub (Mul n2 l') (Mul n1 r')) (sty_is n2 TS /\ sty_is n1 TS)).
    { apply zeroed_sub; simpl; auto; [rewrite Cf2, Cl'; auto| |]; eapply zeroed_mul_ty; eauto. }
    assert (DIV : zeroed (Div (Sub (Mul n2 l') (Mul n1 r')) (Un Square n2)) (sty_is (Un Square n2) TS)).
    { apply zeroed_div; simpl; auto.
      - rewrite Cf1, Cf2, Cl', Cr'; auto.
      - eapply zeroed_imp; [|exact NUM]; intros [H _]; apply sty_un; auto.
      - intros s E ix B; apply sv_un in E; destruct E as (a & E & ->); rewrite un_post_bty in B.
        rewrite un_entries; eauto using sv_wf; apply pow2; exact (no_zero_sv n2 a ix W2 D3 E B). }
    intros s E; destruct (DIV s E) as [Z T]; split; auto.
    intro Ts; specialize (T Ts); apply sty_un_inv in T.
    apply sv_div in E; [|simpl; rewrite Cf1, Cf2, Cl', Cr'; auto].
    destruct E as (a & b & v & Ea & Eb & E & ->).
    destruct (NUM a Ea) as [_ Tn].
    assert (Wxa : spec_wf a) by (eapply sv_wf; [|eauto]; simpl; auto).
    assert (Wxb : spec_wf b) by (eapply sv_wf; [|eauto]; simpl; auto).
    apply div_ok in E; auto using unwrap_wf; destruct E as [_ E]; simpl in Ts; rewrite Ts, !unwrap_bty in E.
    apply bcast_TS in E; auto using spec_wf_bty; destruct E as [Xa _]; destruct (Tn Xa) as [_ T1].
    intros s' E'; apply sv_div in E'; auto; destruct E' as (p & q & w & Ep & Eq & E' & ->).
    specialize (T1 p Ep); specialize (T q Eq); simpl.
    assert (Wp : spec_wf p) by (eapply sv_wf; [|eauto]; simpl; auto).
    assert (Wq : spec_wf q) by (eapply sv_wf; [|eauto]; simpl; auto).
    apply div_ok in E'; auto using unwrap_wf; destruct E' as [_ E']; rewrite !unwrap_bty, T1, T in E'.
    unfold bcast_bty in E'; simpl in E'; congruence.
  - (* Contract *)
    destruct (adjoint n1 t) as [l'|] eqn:A1; [|discriminate]; cbn [obind] in A.
    destruct (adjoint n2 t) as [r'|] eqn:A2; [|discriminate]; cbn [obind] in A.
    inversion A; subst; clear A; destruct D as [D1 D2]; simpl in W'; destruct W' as [[Wa Wb] [Wd We]].
    assert (Cl' := adjoint_cache_free _ _ _ Cf1 A1); assert (Cr' := adjoint_cache_free _ _ _ Cf2 A2).
    apply zeroed_contract; auto.
Qed.

End At.
End Zero.
