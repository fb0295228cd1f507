(** Entries of a dense contraction, and when it panics. *)
From Coq Require Import List Arith Bool Lia.
Import ListNotations.
From Verif Require Import Base Shapes Scalar Buffers Spec Contraction Vocab
  Index_facts Buffers_facts Spec_facts Contraction_facts.

Ltac split_nat_eqb :=
  match goal with
  | |- context [if Nat.eqb ?a ?b then _ else _] => destruct (Nat.eqb a b) eqn:?
  | H : context [if Nat.eqb ?a ?b then _ else _] |- _ => destruct (Nat.eqb a b) eqn:?
  end.

Section Entries.
Context {F : Type} {SF : Scalar F}.

(** Left-to-right sum of [g 0 .. g (n-1)], starting from zero. *)
Definition lsum (n : nat) (g : nat -> F) : F := fold_left (fun a k => fadd a (g k)) (seq 0 n) fzero.

(** What the loops compute. *)
Definition centry (axes : nat) (l r : bty) (f h : list nat -> F) (ix : list nat) : F :=
  match axes, l, r with
  | 0, TA [_], TA [_] => fmul (f [nth 0 ix 0]) (h [nth 1 ix 0])
  | 0, TA _, TS => fmul (f ix) (h [])
  | 0, TS, TA _ => fmul (h ix) (f [])
  | 1, TA [n], TA [_] => lsum n (fun k => fmul (f [k]) (h [k]))
  | 1, TA [n; m], TA [_] => lsum m (fun k => fmul (f [nth 0 ix 0; k]) (h [k]))
  | 1, TA [n; z], TA [_; _] => lsum z (fun k => fmul (f [nth 0 ix 0; k]) (h [k; nth 1 ix 0]))
  | 1, TA [n], TA [_; m] => lsum m (fun k => fmul (f [k]) (h [k; nth 0 ix 0]))
  | _, _, _ => fmul (f []) (h [])
  end.

(** The loops of matrix-vector and vector-matrix products stay inside the arrays. *)
Definition narrow (axes : nat) (l r : bty) : bool :=
  match axes, l, r with
  | 1, TA [n; m], TA [_] => m <=? n
  | 1, TA [n], TA [_; m] => m <=? n
  | _, _, _ => true
  end.

Lemma aix_build (E : Type) ds (f : list nat -> F) ix :
  in_box ds ix -> @aix F E (arr_build ds f) ix = Ok (f ix).
Proof. intro H; unfold aix; rewrite arr_get_build by auto; reflexivity. Qed.

Lemma aix_out (E : Type) ds (f : list nat -> F) ix :
  ~ in_box ds ix -> @aix F E (arr_build ds f) ix = Panic.
Proof. intro H; unfold aix; rewrite (arr_get_out ds) by auto using arr_build_wf; reflexivity. Qed.

Lemma box1 n i : i < n -> in_box [n] [i].
Proof. intro; repeat constructor; auto. Qed.
Lemma box2 n m i j : i < n -> j < m -> in_box [n; m] [i; j].
Proof. intros; repeat constructor; auto. Qed.
Lemma box1_inv n ix : in_box [n] ix -> exists i, ix = [i] /\ i < n.
Proof.
  intro H; apply in_box_cons in H; destruct H as (i & ix' & -> & Hi & H).
  apply in_box_nil in H; subst; eauto.
Qed.
Lemma box2_inv n m ix : in_box [n; m] ix -> exists i j, ix = [i; j] /\ i < n /\ j < m.
Proof.
  intro H; apply in_box_cons in H; destruct H as (i & ix' & -> & Hi & H).
  apply box1_inv in H; destruct H as (j & -> & Hj); eauto 6.
Qed.

Lemma contract_entries axes l r t (f h : list nat -> F) :
  contract_bty axes l r = Some t -> narrow axes l r = true ->
  contract axes (build l f) (build r h) = Ok (build t (centry axes l r f h)).
Proof.
  destruct axes as [|[|axes]]; destruct l as [| |xn|[|n [|m [|? ?]]]];
    destruct r as [| |yn|[|n' [|m' [|? ?]]]]; try discriminate; intros H N;
    try (cbn in H; inversion H; subst t; clear H; reflexivity);
    try (cbn in H; inversion H; subst t; clear H; unfold contract; cbn [build];
         rewrite arr_map_build; reflexivity).
  - (* outer *)
    cbn in H; inversion H; subst t; unfold contract; cbn [build].
    rewrite arr_bind_build; reflexivity.
  - (* vec vec *)
    cbn in H; destruct (Nat.eqb n n') eqn:E; inversion H; subst t; apply Nat.eqb_eq in E; subst n'.
    unfold contract; cbn [build]; rewrite Nat.eqb_refl.
    unfold zip_fold; rewrite dims_eqb_refl.
    erewrite (fold_zip_loop _ incompat _ _ _ f h).
    + simpl; f_equal; f_equal; unfold lsum; rewrite fold_left_map; reflexivity.
    + intros ix Hx; apply (get_unchecked_build _ (TA [n])), in_iproduct; exact Hx.
    + intros ix Hx; apply (get_unchecked_build _ (TA [n])), in_iproduct; exact Hx.
  - (* vec mat *)
    cbn in H; destruct (Nat.eqb n n') eqn:E; inversion H; subst t; apply Nat.eqb_eq in E; subst n'.
    cbn in N; apply Nat.leb_le in N.
    unfold contract; cbn [build]; rewrite Nat.eqb_refl.
    rewrite (try_build_ok _ [m'] _ (centry 1 (TA [n]) (TA [n; m']) f h)); [reflexivity|].
    intros ix Hx; apply box1_inv in Hx; destruct Hx as (i & -> & Hi).
    unfold centry, lsum; cbn [nth]; apply sum_loop_ok; intros k Hk.
    rewrite !aix_build; [reflexivity | apply box2; lia | apply box1; lia].
  - (* mat vec *)
    cbn in H; destruct (Nat.eqb n n') eqn:E; inversion H; subst t; apply Nat.eqb_eq in E; subst n'.
    cbn in N; apply Nat.leb_le in N.
    unfold contract; cbn [build]; rewrite Nat.eqb_refl.
    rewrite (try_build_ok _ [m] _ (centry 1 (TA [n; m]) (TA [n]) f h)); [reflexivity|].
    intros ix Hx; apply box1_inv in Hx; destruct Hx as (i & -> & Hi).
    unfold centry, lsum; cbn [nth]; apply sum_loop_ok; intros k Hk.
    rewrite !aix_build; [reflexivity | apply box1; lia | apply box2; lia].
  - (* mat mat *)
    cbn in H; destruct (Nat.eqb m n') eqn:E; inversion H; subst t; apply Nat.eqb_eq in E; subst n'.
    unfold contract; cbn [build]; rewrite Nat.eqb_refl.
    rewrite (try_build_ok _ [n; m'] _ (centry 1 (TA [n; m]) (TA [m; m']) f h)); [reflexivity|].
    intros ix Hx; apply box2_inv in Hx; destruct Hx as (i & j & -> & Hi & Hj).
    unfold centry, lsum; cbn [nth]; apply sum_loop_ok; intros k Hk.
    rewrite !aix_build; [reflexivity | apply box2; lia | apply box2; lia].
Qed.

Lemma sum_loop_panic (E : Type) n (f : nat -> res E F) :
  (forall k, plain (f k)) -> (exists k, k < n /\ f k = Panic) -> sum_loop n f = Panic.
Proof.
  intros P (k & Hk & Ek); unfold sum_loop.
  assert (Z : forall l, fold_left (fun acc k => res_bind acc (fun a => res_bind (f k)
     (fun x => Ok (fadd a x)))) l Panic = Panic) by (induction l; simpl; auto).
  assert (G : forall l z, In k l ->
    fold_left (fun acc k => res_bind acc (fun a => res_bind (f k) (fun x => Ok (fadd a x)))) l (Ok z) = Panic).
  { induction l as [|j l IH]; intros z Hin; [destruct Hin|]; simpl.
    specialize (P j); destruct (f j) as [y| | |] eqn:Ej; simpl in *; try tauto.
    - destruct Hin as [->|Hin]; [congruence|auto].
    - apply Z. }
  apply G, in_seq; lia.
Qed.

Lemma try_build1_panic (E : Type) m (f : list nat -> res E F) :
  (forall ix, plain (f ix)) -> (exists i, i < m /\ f [i] = Panic) -> try_build [m] f = Panic.
Proof.
  intros P (i & Hi & Ei); simpl.
  assert (G : forall l, In i l -> try_list (map (fun i => res_map AF (f [i])) l) = Panic).
  { induction l as [|j l IH]; intro Hin; [destruct Hin|]; simpl.
    assert (Pj := P [j]); destruct (f [j]) as [y| | |] eqn:Ej; simpl in *; try tauto.
    destruct Hin as [->|Hin]; [congruence|]; rewrite IH by auto; reflexivity. }
  rewrite G by (apply in_seq; lia); reflexivity.
Qed.

Lemma contract_wide axes l r t (f h : list nat -> F) :
  contract_bty axes l r = Some t -> narrow axes l r = false ->
  contract axes (build l f) (build r h) = Panic.
Proof.
  destruct axes as [|[|axes]]; destruct l as [| |xn|[|n [|m [|? ?]]]];
    destruct r as [| |yn|[|n' [|m' [|? ?]]]]; try discriminate; intros H N.
  - cbn in H; destruct (Nat.eqb n n') eqn:E; inversion H; subst t; apply Nat.eqb_eq in E; subst n'.
    unfold narrow in N; apply Nat.leb_gt in N.
    unfold contract; cbn [build]; rewrite Nat.eqb_refl.
    rewrite try_build1_panic; auto.
    + intro ix; apply sum_loop_plain; intro k; apply prod_plain.
    + exists n; split; auto; apply sum_loop_panic; [intro k; apply prod_plain|].
      exists n; split; auto; cbn [nth]; rewrite (aix_out _ [n]); [reflexivity|].
      intro B; apply box1_inv in B; destruct B as (i & Q & Hi); inversion Q; lia.
  - cbn in H; destruct (Nat.eqb n n') eqn:E; inversion H; subst t; apply Nat.eqb_eq in E; subst n'.
    unfold narrow in N; apply Nat.leb_gt in N.
    unfold contract; cbn [build]; rewrite Nat.eqb_refl.
    rewrite try_build1_panic; auto.
    + intro ix; apply sum_loop_plain; intro k; apply prod_plain.
    + exists n; split; auto; apply sum_loop_panic; [intro k; apply prod_plain|].
      exists 0; split; [lia|]; cbn [nth]; rewrite (aix_out _ [n; m]); [reflexivity|].
      intro B; apply box2_inv in B; destruct B as (i & j & Q & Hi & Hj); inversion Q; lia.
Qed.

Lemma contract_dense_ok axes x y t :
  spec_wf x -> spec_wf y -> contract_bty axes (spec_bty x) (spec_bty y) = Some t ->
  narrow axes (spec_bty x) (spec_bty y) = true ->
  contract_dense axes x y =
  Ok (Raw (build t (centry axes (spec_bty x) (spec_bty y) (sfun x) (sfun y)))).
Proof.
  intros Wx Wy H N; unfold contract_dense; rewrite !unwrap_build by auto.
  rewrite (contract_entries _ _ _ _ _ _ H N); reflexivity.
Qed.

Lemma fits_ok t (r : res incompat (spec F)) : fits t r -> r <> Panic -> exists s, r = Ok s /\ spec_bty s = t /\ spec_wf s.
Proof. destruct r; simpl; intros; try tauto; eauto. Qed.

Lemma contract_spec_not_panic axes x y t :
  fof_total -> spec_wf x -> spec_wf y -> contract_bty axes (spec_bty x) (spec_bty y) = Some t ->
  narrow axes (spec_bty x) (spec_bty y) = true ->
  contract_spec axes x y <> Panic.
Proof.
  intros FT Wx Wy H N.
  assert (D : contract_dense axes x y <> Panic)
    by (rewrite (contract_dense_ok _ _ _ _ Wx Wy H N); discriminate).
  unfold contract_spec.
  destruct axes as [|[|axes]]; [| |discriminate];
    destruct (spec_bty x) as [| |xn|[|n [|m [|? ?]]]] eqn:Hx;
    destruct (spec_bty y) as [| |yn|[|n' [|m' [|? ?]]]] eqn:Hy; try discriminate H.
  - destruct (unwrap_scal_ok incompat x Hx) as [a ->], (unwrap_scal_ok incompat y Hy) as [b ->]; discriminate.
  - unfold tp_field_l1; destruct y; auto; destruct (unwrap_scal_ok incompat x Hx) as [a ->]; discriminate.
  - unfold tp_field_l2; destruct y; auto; destruct (unwrap_scal_ok incompat x Hx) as [a ->]; discriminate.
  - unfold tp_field_r; destruct x; auto; destruct (unwrap_scal_ok incompat y Hy) as [a ->]; discriminate.
  - unfold tp_vec_vec.
    assert (Bx := unwrap_bty x); assert (By := unwrap_bty y); rewrite Hx in Bx; rewrite Hy in By.
    destruct (bty_TA _ _ Bx) as [a Ea]; destruct (bty_TA _ _ By) as [b Eb]; rewrite Ea, Eb.
    destruct x, y; try destruct (is_zero _); try discriminate; auto.
  - unfold tp_field_r; destruct x; auto; destruct (unwrap_scal_ok incompat y Hy) as [a ->]; discriminate.
  - destruct (unwrap_scal_ok incompat x Hx) as [a ->], (unwrap_scal_ok incompat y Hy) as [b ->]; discriminate.
  - split_nat_eqb; [|discriminate]; apply Nat.eqb_eq in Heqb; subst n'.
    unfold dot_vec_vec.
    assert (Z : res_map (fun z => Raw (VScal z))
        (zip_fold (fun acc p => fadd acc (fmul (fst p) (snd p))) fzero (unwrap x) (unwrap y)) <> Panic).
    { unfold contract_dense in D; assert (Bx := unwrap_bty x); assert (By := unwrap_bty y);
        rewrite Hx in Bx; rewrite Hy in By.
      destruct (bty_TA _ _ Bx) as [a Ea]; destruct (bty_TA _ _ By) as [b Eb]; rewrite Ea, Eb in *.
      unfold contract in D; rewrite Nat.eqb_refl in D.
      destruct (zip_fold _ _ _ _); simpl in *; congruence. }
    destruct x, y; auto; try discriminate.
    specialize (FT n); destruct (fof_usize n); simpl; congruence.
  - split_nat_eqb; [|discriminate]; apply Nat.eqb_eq in Heqb; subst n'.
    unfold dot_vec_mat; destruct x as [xv|tx fx|tx fx], y as [yv|ty fy|ty fy]; auto;
      try (destruct (is_zero fy); [discriminate|auto]; fail); try discriminate.
    + destruct (Nat.eqb m' n); auto.
      simpl in Hx; destruct (bty_TA _ _ Hx) as [a ->]; simpl; discriminate.
    + destruct (Nat.eqb m' n); auto.
      simpl in Hx; subst tx; simpl; discriminate.
  - split_nat_eqb; [|discriminate]; apply Nat.eqb_eq in Heqb; subst n'.
    unfold dot_mat_vec; destruct x as [xv|tx fx|tx fx], y as [yv|ty fy|ty fy]; auto;
      try (destruct (is_zero fx); [discriminate|auto]; fail); try discriminate.
    + destruct (Nat.eqb m n); auto.
      simpl in Hy; destruct (bty_TA _ _ Hy) as [a ->]; simpl; discriminate.
    + destruct (Nat.eqb m n); auto.
      simpl in Hy; subst ty; simpl; discriminate.
  - split_nat_eqb; [|discriminate]; apply Nat.eqb_eq in Heqb; subst n'.
    unfold dot_mat_mat; destruct x as [xv|tx fx|tx fx], y as [yv|ty fy|ty fy]; auto.
    + specialize (FT m); destruct (fof_usize m); simpl; congruence.
    + destruct (_ && _); auto; discriminate.
Qed.

End Entries.
