(** What the structural short cuts on [Full] and [Diagonal] operands do to single entries, without
    assuming the laws of exact arithmetic. *)
From Coq Require Import List Arith Bool Lia.
Import ListNotations.
From Verif Require Import Base Shapes Scalar Buffers Spec Contraction Node Eval Types Vocab Math
  Index_facts Buffers_facts Spec_facts Contraction_facts Contraction_entries Match_facts Eval_facts
  Typing_facts Progress_facts Exact_facts Math_facts.

Section Shortcuts.
Context {F : Type} {SF : Scalar F}.
Hypothesis add_comm : forall x y : F, fadd x y = fadd y x.
Hypothesis mul_comm : forall x y : F, fmul x y = fmul y x.
Hypothesis zero_zero : is_zero (@fzero F SF) = true.

(** The operation itself or its short cut. *)
Definition add_like (X Y Z : F) : Prop :=
  Z = fadd X Y \/ (is_zero X = true /\ Z = Y) \/ (is_zero Y = true /\ Z = X).
Definition sub_like (X Y Z : F) : Prop := Z = fsub X Y \/ (is_zero Y = true /\ Z = X).
Definition null (X Y : F) : Prop := is_zero X = true \/ is_zero Y = true.
Definition mul_like (X Y Z : F) : Prop := Z = fmul X Y \/ (null X Y /\ Z = fzero).
Definition dot_like (n : nat) (f g : nat -> F) (Z : F) : Prop :=
  Z = lsum n (fun k => fmul (f k) (g k)) \/
  (exists i, i < n /\ (forall k, k < n -> k <> i -> null (f k) (g k)) /\ Z = fmul (f i) (g i)) \/
  ((forall k, k < n -> null (f k) (g k)) /\ Z = fzero) \/
  (exists a b m, (forall k, k < n -> f k = a /\ g k = b) /\ fof_usize n = Some m /\
     Z = fmul (fmul m a) b).

Definition zipl (R : F -> F -> F -> Prop) (x y s : spec F) : Prop :=
  exists t, bcast_bty (spec_bty x) (spec_bty y) = Ok t /\ spec_bty s = t /\ spec_wf s /\
    forall ix, in_box (tdims_of t) ix ->
      R (sfun x (pick (spec_bty x) ix)) (sfun y (pick (spec_bty y) ix)) (sfun s ix).

Lemma dense_zipl op (R : F -> F -> F -> Prop) x y s :
  spec_wf x -> spec_wf y -> (forall X Y, R X Y (op X Y)) ->
  (swapped (spec_bty x) (spec_bty y) = true -> forall u v : F, op u v = op v u) ->
  zip_dense op x y = Ok s -> zipl R x y s.
Proof.
  intros Wx Wy HR C H; rewrite zip_dense_eq in H by auto.
  destruct (bcast_bty _ _) as [t|e| |] eqn:B; try discriminate.
  apply Ok_inj in H; subst s; exists t; split; auto; cbn [spec_bty spec_wf sfun].
  split; [apply build_bty|split; [apply build_wf; eapply bcast_bty_wf; eauto|]].
  intros ix Bx; rewrite vat_build by auto.
  destruct (swapped _ _); [rewrite C by auto|]; apply HR.
Qed.

Lemma full_zipl (R : F -> F -> F -> Prop) x y s z :
  spec_wf x -> spec_wf y ->
  res_map (fun t => Full t z) (bcast_bty (spec_bty x) (spec_bty y)) = Ok s ->
  (forall ix, R (sfun x (pick (spec_bty x) ix)) (sfun y (pick (spec_bty y) ix)) z) ->
  zipl R x y s.
Proof.
  intros Wx Wy H E; destruct (bcast_bty _ _) as [t|e| |] eqn:B; try discriminate.
  apply Ok_inj in H; subst s; exists t; split; auto; cbn [spec_bty spec_wf sfun].
  split; auto; split; [eapply bcast_bty_wf; eauto|auto].
Qed.

Lemma add_zipl x y s : spec_wf x -> spec_wf y -> add_match x y = Ok s -> zipl add_like x y s.
Proof.
  intros Wx Wy H.
  assert (D : zip_dense fadd x y = Ok s -> zipl add_like x y s).
  { apply dense_zipl; auto; left; reflexivity. }
  destruct x as [xv|tx fx|tx fx], y as [yv|ty fy|ty fy]; try (apply D; exact H); unfold add_match in H.
  - destruct (is_zero fy) eqn:Z; [|apply D; exact H].
    simpl in Wx, Wy; rewrite zip_shape_eq in H by auto.
    destruct (bcast_bty _ _) as [t|e| |] eqn:B; try discriminate.
    apply Ok_inj in H; subst s; exists t; split; auto; cbn [spec_bty spec_wf sfun].
    split; [apply build_bty|split; [apply build_wf; eapply bcast_bty_wf; eauto|]].
    intros ix Bx; rewrite vat_build by auto; right; right; auto.
  - destruct (is_zero fx) eqn:Z; [|apply D; exact H].
    simpl in Wx, Wy; rewrite zip_shape_eq in H by auto.
    assert (Rv := bcast_rev tx (bty_of yv) Wx (vwf_bty _ Wy)).
    destruct (bcast_bty (bty_of yv) tx) as [t|e| |] eqn:B; try discriminate.
    apply Ok_inj in H; subst s; exists t; split; auto; cbn [spec_bty spec_wf sfun].
    split; [apply build_bty|split; [apply build_wf; eapply bcast_bty_wf; eauto|]].
    intros ix Bx; rewrite vat_build by auto; right; left; auto.
  - eapply full_zipl; eauto; intro; left; reflexivity.
Qed.

Lemma sub_zipl x y s :
  spec_wf x -> spec_wf y -> swapped (spec_bty x) (spec_bty y) = false ->
  sub_match x y = Ok s -> zipl sub_like x y s.
Proof.
  intros Wx Wy C H.
  assert (D : zip_dense fsub x y = Ok s -> zipl sub_like x y s).
  { apply dense_zipl; auto; [left; reflexivity|congruence]. }
  destruct x as [xv|tx fx|tx fx], y as [yv|ty fy|ty fy]; try (apply D; exact H); unfold sub_match in H.
  - destruct (is_zero fy) eqn:Z; [|apply D; exact H].
    simpl in Wx, Wy; rewrite zip_shape_eq in H by auto.
    destruct (bcast_bty _ _) as [t|e| |] eqn:B; try discriminate.
    apply Ok_inj in H; subst s; exists t; split; auto; cbn [spec_bty spec_wf sfun].
    split; [apply build_bty|split; [apply build_wf; eapply bcast_bty_wf; eauto|]].
    intros ix Bx; rewrite vat_build by auto; right; auto.
  - eapply full_zipl; eauto; intro; left; reflexivity.
Qed.

Lemma mul_zipl x y s : spec_wf x -> spec_wf y -> mul_match x y = Ok s -> zipl mul_like x y s.
Proof.
  intros Wx Wy H.
  assert (D : zip_dense fmul x y = Ok s -> zipl mul_like x y s).
  { apply dense_zipl; auto; left; reflexivity. }
  destruct x as [xv|tx fx|tx fx], y as [yv|ty fy|ty fy]; try (apply D; exact H); unfold mul_match in H;
    try (destruct (is_zero _) eqn:Z in H; [|apply D; exact H];
         unfold spec_zeroes in H; eapply full_zipl; eauto; intro ix; cbn [sfun];
         right; split; [unfold null; auto|reflexivity]).
  eapply full_zipl; eauto; intro; left; reflexivity.
Qed.

(** Outer product of two vectors. *)
Lemma tp_vec_vec_like n m x y s ix :
  spec_wf x -> spec_wf y -> spec_bty x = TA [n] -> spec_bty y = TA [m] ->
  tp_vec_vec n m x y = Ok s -> in_box [n; m] ix ->
  mul_like (sfun x [nth 0 ix 0]) (sfun y [nth 1 ix 0]) (sfun s ix).
Proof.
  intros Wx Wy Tx Ty E B.
  assert (D : forall s, contract_dense 0 x y = Ok s ->
    mul_like (sfun x [nth 0 ix 0]) (sfun y [nth 1 ix 0]) (sfun s ix)).
  { intros s' E'; left; rewrite (dense_entries 0 x y (TA [n; m]) s' ix) by
      (auto; rewrite Tx, Ty; reflexivity); rewrite Tx, Ty; reflexivity. }
  assert (L : forall fx s, (match unwrap y with
        | VArr _ b => Ok (Raw (VArr [n; m] (AN (repeat (arr_map (fun yi => fmul fx yi) b) n))))
        | _ => Stuck end : res incompat (spec F)) = Ok s -> sfun s ix = fmul fx (sfun y [nth 1 ix 0])).
  { intros fx s'; rewrite (unwrap_arr y [m]) by auto; intro E'; apply Ok_inj in E'; subst s'.
    apply box2_inv in B; destruct B as (i & j & -> & Hi & Hj).
    cbn [sfun vat]; rewrite get_repeat by auto.
    rewrite arr_map_build; rewrite arr_get_build by (apply box1; auto); reflexivity. }
  assert (Rr : forall fy s, (match unwrap x with
        | VArr _ a => Ok (Raw (VArr [n; m] (arr_bind (fun xi => AN (repeat (AF (fmul xi fy)) m)) a)))
        | _ => Stuck end : res incompat (spec F)) = Ok s -> sfun s ix = fmul (sfun x [nth 0 ix 0]) fy).
  { intros fy s'; rewrite (unwrap_arr x [n]) by auto; intro E'; apply Ok_inj in E'; subst s'.
    apply box2_inv in B; destruct B as (i & j & -> & Hi & Hj).
    assert (X : forall a : list (arr F), arr_get [i; j] (AN a) = match nth_error a i with Some b => arr_get [j] b | None => None end) by reflexivity.
    cbn [sfun vat arr_build arr_bind]; rewrite X, map_map, nth_error_map_seq by auto.
    cbn [arr_bind]; rewrite get_repeat by auto; reflexivity. }
  unfold tp_vec_vec in E.
  destruct x as [xv|tx fx|tx fx], y as [yv|ty fy|ty fy]; try (apply D; exact E); cbn [sfun];
    try (destruct (is_zero fx) eqn:Z; [apply Ok_inj in E; subst s; right; split; [left; exact Z|reflexivity]|]);
    try (destruct (is_zero fy) eqn:Z; [apply Ok_inj in E; subst s; right; split; [right; exact Z|reflexivity]|]);
    try (left; exact (L _ _ E)); try (left; exact (Rr _ _ E)).
  apply Ok_inj in E; subst s; left; reflexivity.
Qed.

Lemma dot_vec_vec_like n x y s ix :
  spec_wf x -> spec_wf y -> spec_bty x = TA [n] -> spec_bty y = TA [n] ->
  dot_vec_vec n x y = Ok s -> in_box [] ix ->
  dot_like n (fun k => sfun x [k]) (fun k => sfun y [k]) (sfun s ix).
Proof.
  intros Wx Wy Tx Ty E B; apply in_box_nil in B; subst ix.
  assert (D : forall s, (res_map (fun z => Raw (VScal z))
        (zip_fold (fun acc p => fadd acc (fmul (fst p) (snd p))) fzero (unwrap x) (unwrap y))) = Ok s ->
        dot_like n (fun k => sfun x [k]) (fun k => sfun y [k]) (sfun s [])).
  { intros s' E'; left.
    assert (K := dense_entries 1 x y TS s' [] Wx Wy).
    rewrite Tx, Ty in K; cbn [contract_bty narrow centry] in K; rewrite Nat.eqb_refl in K.
    apply K; auto; [|constructor].
    unfold contract_dense; rewrite (unwrap_arr x [n]), (unwrap_arr y [n]) in * by auto.
    unfold contract; rewrite Nat.eqb_refl; rewrite <- E'.
    destruct (zip_fold _ _ _ _); reflexivity. }
  unfold dot_vec_vec in E.
  destruct x as [xv|tx fx|tx fx], y as [yv|ty fy|ty fy]; try (apply D; exact E);
    try (apply Ok_inj in E; subst s; left; cbn [sfun];
         first [rewrite (vfold_sum (fun z => fmul z fy) _ n) by auto
               |rewrite (vfold_sum (fun z => fmul fx z) _ n) by auto]; reflexivity).
  destruct (fof_usize n) as [m|] eqn:O; [|discriminate]; apply Ok_inj in E; subst s; cbn [sfun].
  right; right; right; exists fx, fy, m; auto.
Qed.

Lemma dot_mat_vec_like n x y s ix :
  spec_wf x -> spec_wf y -> spec_bty x = TA [n; n] -> spec_bty y = TA [n] ->
  dot_mat_vec n n x y = Ok s -> in_box [n] ix ->
  dot_like n (fun k => sfun x [nth 0 ix 0; k]) (fun k => sfun y [k]) (sfun s ix).
Proof.
  intros Wx Wy Tx Ty E B.
  assert (D : forall s, contract_dense 1 x y = Ok s ->
    dot_like n (fun k => sfun x [nth 0 ix 0; k]) (fun k => sfun y [k]) (sfun s ix)).
  { intros s' E'; left; assert (K := dense_entries 1 x y (TA [n]) s' ix Wx Wy).
    rewrite Tx, Ty in K; cbn [contract_bty narrow centry] in K; rewrite Nat.eqb_refl, Nat.leb_refl in K.
    apply K; auto. }
  apply box1_inv in B; destruct B as (i & -> & Hi); cbn [nth] in *.
  unfold dot_mat_vec in E; rewrite Nat.eqb_refl in E.
  destruct x as [xv|tx fx|tx fx].
  - apply D; exact E.
  - destruct (is_zero fx) eqn:Z.
    + apply Ok_inj in E; subst s; right; right; left; split; [|reflexivity]; intros; left; exact Z.
    + apply D; exact E.
  - assert (Q : forall s', (res_map Raw (cast_dims [n] (vmutate (fun yi => fmul fx yi) (unwrap y)))) = Ok s' ->
       sfun s' [i] = fmul fx (sfun y [i])).
    { intros s'; rewrite vmutate_vmap, (unwrap_arr y [n]) by auto; cbn [vmap cast_dims].
      rewrite arr_map_build; intro Q; apply Ok_inj in Q; subst s'; cbn [sfun vat].
      rewrite arr_get_build by (apply box1; auto); reflexivity. }
    assert (S : sfun s [i] = fmul fx (sfun y [i])).
    { destruct y; try (apply Q; exact E); apply Ok_inj in E; subst s; reflexivity. }
    right; left; exists i; split; auto; cbn [sfun]; split.
    + intros k Hk Ne; left; rewrite diag2; replace (Nat.eqb i k) with false; [exact zero_zero|].
      symmetry; apply Nat.eqb_neq; auto.
    + rewrite diag2, Nat.eqb_refl; exact S.
Qed.

Lemma dot_vec_mat_like n x y s ix :
  spec_wf x -> spec_wf y -> spec_bty x = TA [n] -> spec_bty y = TA [n; n] ->
  dot_vec_mat n n x y = Ok s -> in_box [n] ix ->
  dot_like n (fun k => sfun x [k]) (fun k => sfun y [k; nth 0 ix 0]) (sfun s ix).
Proof.
  intros Wx Wy Tx Ty E B.
  assert (D : forall s, contract_dense 1 x y = Ok s ->
    dot_like n (fun k => sfun x [k]) (fun k => sfun y [k; nth 0 ix 0]) (sfun s ix)).
  { intros s' E'; left; assert (K := dense_entries 1 x y (TA [n]) s' ix Wx Wy).
    rewrite Tx, Ty in K; cbn [contract_bty narrow centry] in K; rewrite Nat.eqb_refl, Nat.leb_refl in K.
    apply K; auto. }
  apply box1_inv in B; destruct B as (i & -> & Hi); cbn [nth] in *.
  unfold dot_vec_mat in E; rewrite Nat.eqb_refl in E.
  destruct y as [yv|ty fy|ty fy].
  - apply D; destruct x; exact E.
  - destruct (is_zero fy) eqn:Z.
    + apply Ok_inj in E; subst s; right; right; left; split; [|reflexivity]; intros; right; exact Z.
    + apply D; destruct x; exact E.
  - assert (Q : forall s', (res_map Raw (cast_dims [n] (vmutate (fun xi => fmul xi fy) (unwrap x)))) = Ok s' ->
       sfun s' [i] = fmul (sfun x [i]) fy).
    { intros s'; rewrite vmutate_vmap, (unwrap_arr x [n]) by auto; cbn [vmap cast_dims].
      rewrite arr_map_build; intro Q; apply Ok_inj in Q; subst s'; cbn [sfun vat].
      rewrite arr_get_build by (apply box1; auto); reflexivity. }
    assert (S : sfun s [i] = fmul (sfun x [i]) fy).
    { destruct x; try (apply Q; exact E); apply Ok_inj in E; subst s; reflexivity. }
    right; left; exists i; split; auto; cbn [sfun]; split.
    + intros k Hk Ne; right; rewrite diag2; replace (Nat.eqb k i) with false; [exact zero_zero|].
      symmetry; apply Nat.eqb_neq; auto.
    + rewrite diag2, Nat.eqb_refl; exact S.
Qed.

Lemma dot_mat_mat_like n z m x y s ix :
  spec_wf x -> spec_wf y -> spec_bty x = TA [n; z] -> spec_bty y = TA [z; m] ->
  dot_mat_mat n z m x y = Ok s -> in_box [n; m] ix ->
  dot_like z (fun k => sfun x [nth 0 ix 0; k]) (fun k => sfun y [k; nth 1 ix 0]) (sfun s ix).
Proof.
  intros Wx Wy Tx Ty E B.
  assert (D : forall s, contract_dense 1 x y = Ok s ->
    dot_like z (fun k => sfun x [nth 0 ix 0; k]) (fun k => sfun y [k; nth 1 ix 0]) (sfun s ix)).
  { intros s' E'; left; assert (K := dense_entries 1 x y (TA [n; m]) s' ix Wx Wy).
    rewrite Tx, Ty in K; cbn [contract_bty narrow centry] in K; rewrite Nat.eqb_refl in K.
    apply K; auto. }
  apply box2_inv in B; destruct B as (i & j & -> & Hi & Hj); cbn [nth] in *.
  unfold dot_mat_mat in E.
  destruct x as [xv|tx fx|tx fx], y as [yv|ty fy|ty fy]; try (apply D; exact E).
  - destruct (fof_usize z) as [m'|] eqn:O; [|discriminate]; apply Ok_inj in E; subst s; cbn [sfun].
    right; right; right; exists fx, fy, m'; auto.
  - destruct (Nat.eqb n z && Nat.eqb m n) eqn:Q; [|apply D; exact E].
    apply andb_true_iff in Q; destruct Q as [Q1 Q2]; apply Nat.eqb_eq in Q1, Q2; subst z m.
    apply Ok_inj in E; subst s; cbn [sfun].
    assert (N : forall k, k <> i \/ i <> j ->
      null (if is_diagonal [i; k] then fx else fzero) (if is_diagonal [k; j] then fy else fzero)).
    { intros k Hk; rewrite !diag2.
      destruct (Nat.eqb i k) eqn:E1; [|left; exact zero_zero].
      destruct (Nat.eqb k j) eqn:E2; [|right; exact zero_zero].
      apply Nat.eqb_eq in E1, E2; lia. }
    rewrite (diag2 i j); destruct (Nat.eqb i j) eqn:Eij.
    + apply Nat.eqb_eq in Eij; subst j; right; left; exists i; split; auto; split.
      * intros k Hk Ne; apply N; auto.
      * rewrite diag2, Nat.eqb_refl; reflexivity.
    + apply Nat.eqb_neq in Eij; right; right; left; split; auto.
Qed.

(** Every contraction, entry by entry: a product (rank zero on one side or the outer product), or
    an inner product. *)
Definition contract_like (axes : nat) (l r : bty) (f h : list nat -> F) (ix : list nat) (Z : F) : Prop :=
  match axes, l, r with
  | 0, TA [_], TA [_] => mul_like (f [nth 0 ix 0]) (h [nth 1 ix 0]) Z
  | 0, TA _, TS => mul_like (f ix) (h []) Z
  | 0, TS, TA _ => mul_like (f []) (h ix) Z
  | 1, TA [n], TA [_] => dot_like n (fun k => f [k]) (fun k => h [k]) Z
  | 1, TA [n; m], TA [_] => dot_like m (fun k => f [nth 0 ix 0; k]) (fun k => h [k]) Z
  | 1, TA [n; z], TA [_; _] => dot_like z (fun k => f [nth 0 ix 0; k]) (fun k => h [k; nth 1 ix 0]) Z
  | 1, TA [n], TA [_; m] => dot_like m (fun k => f [k]) (fun k => h [k; nth 0 ix 0]) Z
  | _, _, _ => mul_like (f []) (h []) Z
  end.

Lemma contract_spec_like axes x y t s ix :
  spec_wf x -> spec_wf y -> contract_bty axes (spec_bty x) (spec_bty y) = Some t ->
  sq axes (spec_bty x) (spec_bty y) ->
  contract_spec axes x y = Ok s -> in_box (tdims_of t) ix ->
  contract_like axes (spec_bty x) (spec_bty y) (sfun x) (sfun y) ix (sfun s ix).
Proof.
  intros Wx Wy H S E B.
  assert (D : forall s, contract_dense axes x y = Ok s ->
              contract_like axes (spec_bty x) (spec_bty y) (sfun x) (sfun y) ix (sfun s ix)).
  { intros s' E'; rewrite (dense_entries axes x y t s' ix) by (auto; eapply sq_narrow; eauto).
    destruct axes as [|[|axes]]; [| |discriminate];
    destruct (spec_bty x) as [| |xn|[|n [|m [|? ?]]]];
    destruct (spec_bty y) as [| |yn|[|n' [|m' [|? ?]]]]; try discriminate; cbn [contract_like centry];
    try (left; reflexivity); left; apply mul_comm. }
  assert (SS : forall a b, spec_bty x = TS -> spec_bty y = TS ->
     @unwrap_scal F SF incompat x = Ok a -> @unwrap_scal F SF incompat y = Ok b ->
     a = sfun x [] /\ b = sfun y []).
  { intros; split; eapply unwrap_scal_sfun; eauto. }
  unfold contract_spec in E.
  destruct axes as [|[|axes]]; [| |discriminate];
    destruct (spec_bty x) as [| |xn|[|n [|m [|? ?]]]] eqn:Tx;
    destruct (spec_bty y) as [| |yn|[|n' [|m' [|? ?]]]] eqn:Ty; try discriminate;
    cbn [contract_bty] in H;
    try (destruct (Nat.eqb _ _) eqn:Q in H; [|discriminate]; rewrite Q in E; apply Nat.eqb_eq in Q; subst);
    inversion H; subst t; clear H; cbn [contract_like sq] in *; subst;
    try (destruct (unwrap_scal x) as [a| | |] eqn:Ea; try discriminate;
         destruct (unwrap_scal y) as [b| | |] eqn:Eb; try discriminate;
         cbn [res_bind] in E; apply Ok_inj in E; subst s;
         destruct (SS a b eq_refl eq_refl eq_refl eq_refl) as [-> ->]; left; reflexivity);
    try (eapply tp_vec_vec_like; eauto; fail);
    try (eapply dot_vec_vec_like; eauto; fail);
    try (eapply dot_mat_vec_like; eauto; fail);
    try (eapply dot_vec_mat_like; eauto; fail);
    try (eapply dot_mat_mat_like; eauto; fail);
    try (unfold tp_field_l1, tp_field_l2 in E; destruct y as [yv|ty fy|ty fy]; try (apply D; exact E);
         destruct (unwrap_scal x) as [a| | |] eqn:Ea; try discriminate;
         cbn [res_bind] in E; apply Ok_inj in E; subst s;
         apply unwrap_scal_sfun in Ea; auto; subst a; cbn [sfun]; left; first [reflexivity|apply mul_comm]);
    (unfold tp_field_r in E; destruct x as [xv|tx fx|tx fx]; try (apply D; exact E);
         destruct (unwrap_scal y) as [a| | |] eqn:Ea; try discriminate;
         cbn [res_bind] in E; apply Ok_inj in E; subst s;
         apply unwrap_scal_sfun in Ea; auto; subst a; cbn [sfun]; left; first [reflexivity|apply mul_comm]).
Qed.

End Shortcuts.
