(** Consequences of exact arithmetic: sums, and the short cuts of contractions. *)
From Coq Require Import List Arith Bool Lia Ring.
Import ListNotations.
From Verif Require Import Base Shapes Scalar Buffers Spec Contraction Node Eval Vocab Math
  Index_facts Buffers_facts Spec_facts Contraction_facts Contraction_entries.

Section Exact.
Context {F : Type} {SF : Scalar F} (EX : exact F).
Add Ring FRing : (ex_ring EX).

Lemma is_zero_eq (x : F) : is_zero x = true <-> x = fzero.
Proof. apply (ex_eq EX). Qed.

Lemma sum_over_cons (A : Type) (a : A) l (f : A -> F) : sum_over (a :: l) f = fadd (f a) (sum_over l f).
Proof.
  unfold sum_over; simpl.
  assert (G : forall l z, fold_left (fun a x => fadd a (f x)) l z =
                          fadd z (fold_left (fun a x => fadd a (f x)) l fzero)).
  { clear l a; intro l; induction l as [|x l IH]; intro z; simpl; [ring|].
    rewrite IH, (IH (fadd fzero (f x))); ring. }
  rewrite G; ring.
Qed.

Lemma sum_over_nil (A : Type) (f : A -> F) : sum_over [] f = fzero.
Proof. reflexivity. Qed.

Lemma sum_over_app (A : Type) l m (f : A -> F) :
  sum_over (l ++ m) f = fadd (sum_over l f) (sum_over m f).
Proof.
  induction l as [|a l IH]; simpl.
  - rewrite sum_over_nil; ring.
  - rewrite !sum_over_cons, IH; ring.
Qed.

Lemma sum_over_ext (A : Type) l (f g : A -> F) :
  (forall a, In a l -> f a = g a) -> sum_over l f = sum_over l g.
Proof.
  intro H; induction l as [|a l IH]; [reflexivity|].
  rewrite !sum_over_cons, IH, H; simpl; auto; intros; apply H; simpl; auto.
Qed.

Lemma sum_over_map (A B : Type) (h : B -> A) l (f : A -> F) :
  sum_over (map h l) f = sum_over l (fun b => f (h b)).
Proof. induction l; simpl; [reflexivity|]; rewrite !sum_over_cons, IHl; auto. Qed.

Lemma sum_over_flat_map (A B : Type) (h : B -> list A) l (f : A -> F) :
  sum_over (flat_map h l) f = sum_over l (fun b => sum_over (h b) f).
Proof. induction l; simpl; [reflexivity|]; rewrite sum_over_app, !sum_over_cons, IHl; auto. Qed.

Lemma sum_over_add (A : Type) l (f g : A -> F) :
  sum_over l (fun a => fadd (f a) (g a)) = fadd (sum_over l f) (sum_over l g).
Proof. induction l; [rewrite !sum_over_nil; ring|]; rewrite !sum_over_cons, IHl; ring. Qed.

Lemma sum_over_mul_l (A : Type) l (f : A -> F) x :
  sum_over l (fun a => fmul x (f a)) = fmul x (sum_over l f).
Proof. induction l; [rewrite !sum_over_nil; ring|]; rewrite !sum_over_cons, IHl; ring. Qed.

Lemma sum_over_mul_r (A : Type) l (f : A -> F) x :
  sum_over l (fun a => fmul (f a) x) = fmul (sum_over l f) x.
Proof. induction l; [rewrite !sum_over_nil; ring|]; rewrite !sum_over_cons, IHl; ring. Qed.

Lemma sum_over_zero (A : Type) l (f : A -> F) :
  (forall a, In a l -> f a = fzero) -> sum_over l f = fzero.
Proof.
  intro H; induction l as [|a l IH]; [reflexivity|].
  rewrite sum_over_cons, IH, H; simpl; auto; [ring|]; intros; apply H; simpl; auto.
Qed.

Lemma iter_const n (x : F) :
  sum_over (seq 0 n) (fun _ => x) = fmul (Nat.iter n (fun a => fadd a fone) fzero) x.
Proof.
  generalize 0; induction n as [|n IH]; intro s; simpl.
  - rewrite sum_over_nil; ring.
  - rewrite sum_over_cons, IH; ring.
Qed.

Lemma sum_over_const (A : Type) (l : list A) (x : F) :
  sum_over l (fun _ => x) = fmul (Nat.iter (length l) (fun a => fadd a fone) fzero) x.
Proof.
  induction l as [|a l IH]; simpl; [rewrite sum_over_nil; ring|].
  rewrite sum_over_cons, IH; ring.
Qed.

Lemma sum_kron n i (g : nat -> F) :
  i < n -> sum_over (seq 0 n) (fun k => if Nat.eqb i k then g k else fzero) = g i.
Proof.
  intro H.
  assert (G : forall s m, s <= i < s + m ->
     sum_over (seq s m) (fun k => if Nat.eqb i k then g k else fzero) = g i).
  { intros s m; revert s; induction m as [|m IH]; intros s Hs; [lia|]; simpl; rewrite sum_over_cons.
    destruct (Nat.eqb i s) eqn:E.
    - apply Nat.eqb_eq in E; subst s; rewrite sum_over_zero; [ring|].
      intros a Ha; apply in_seq in Ha; destruct (Nat.eqb i a) eqn:Q; auto.
      apply Nat.eqb_eq in Q; lia.
    - apply Nat.eqb_neq in E; rewrite IH by lia; ring. }
  apply G; lia.
Qed.

Lemma lsum_over n (g : nat -> F) : lsum n g = sum_over (seq 0 n) g.
Proof. reflexivity. Qed.

Lemma exact_sum_law : sum_law.
Proof.
  intros n x; eexists; split; [apply (ex_of EX)|]; rewrite <- iter_const; reflexivity.
Qed.

(** Squareness of matrix-vector and vector-matrix products, on buffer types. *)
Definition sq (axes : nat) (l r : bty) : Prop :=
  match axes, l, r with
  | 1, TA [n; m], TA [_] => n = m
  | 1, TA [_], TA [n; m] => n = m
  | _, _, _ => True
  end.

Lemma sq_narrow axes l r t : contract_bty axes l r = Some t -> sq axes l r -> narrow axes l r = true.
Proof.
  destruct axes as [|[|?]]; auto; destruct l as [| |?|[|? [|? [|? ?]]]], r as [| |?|[|? [|? [|? ?]]]]; auto;
    cbn [contract_bty sq narrow]; intros H S; try (apply Nat.leb_le; lia).
  destruct (Nat.eqb _ _) eqn:E; [|discriminate]; apply Nat.eqb_eq in E; apply Nat.leb_le; lia.
Qed.

Lemma unwrap_scal_sfun (E : Type) (x : spec F) a : spec_wf x -> spec_bty x = TS -> @unwrap_scal F SF E x = Ok a -> a = sfun x [].
Proof.
  intros W T; unfold unwrap_scal; rewrite unwrap_build, T by auto; simpl; intro H; apply Ok_inj in H; auto.
Qed.

Lemma full_type (t : bty) (x : F) : spec_bty (Full t x) = t.
Proof. reflexivity. Qed.

Lemma unwrap_arr (x : spec F) ds : spec_wf x -> spec_bty x = TA ds -> unwrap x = VArr ds (arr_build ds (sfun x)).
Proof. intros W T; rewrite unwrap_build, T by auto; reflexivity. Qed.

Lemma dense_entries axes x y t s ix :
  spec_wf x -> spec_wf y -> contract_bty axes (spec_bty x) (spec_bty y) = Some t ->
  narrow axes (spec_bty x) (spec_bty y) = true ->
  contract_dense axes x y = Ok s -> in_box (tdims_of t) ix ->
  sfun s ix = centry axes (spec_bty x) (spec_bty y) (sfun x) (sfun y) ix.
Proof.
  intros Wx Wy H N E B; rewrite (contract_dense_ok _ _ _ _ Wx Wy H N) in E.
  apply Ok_inj in E; subst s; cbn [sfun]; apply vat_build; auto.
Qed.

Lemma get_repeat i ix (a : arr F) n : i < n -> arr_get (i :: ix) (AN (repeat a n)) = arr_get ix a.
Proof. intro H; cbn; rewrite repeat_map_seq, nth_error_map_seq by auto; reflexivity. Qed.

Lemma tp_vec_vec_entries n m x y s ix :
  spec_wf x -> spec_wf y -> spec_bty x = TA [n] -> spec_bty y = TA [m] ->
  tp_vec_vec n m x y = Ok s -> in_box [n; m] ix ->
  sfun s ix = fmul (sfun x [nth 0 ix 0]) (sfun y [nth 1 ix 0]).
Proof.
  intros Wx Wy Tx Ty E B.
  assert (D : forall s, contract_dense 0 x y = Ok s ->
    sfun s ix = fmul (sfun x [nth 0 ix 0]) (sfun y [nth 1 ix 0])).
  { intros s' E'; rewrite (dense_entries 0 x y (TA [n; m]) s' ix) by
      (auto; rewrite Tx, Ty; reflexivity); rewrite Tx, Ty; reflexivity. }
  assert (L : forall fx s, (match unwrap y with
        | VArr _ b => Ok (Raw (VArr [n; m] (AN (repeat (arr_map (fun yi => fmul fx yi) b) n))))
        | _ => Stuck end : res incompat (spec F)) = Ok s -> sfun s ix = fmul fx (sfun y [nth 1 ix 0])).
  { intros fx s'; rewrite (unwrap_arr y [m]) by auto; intro E'; apply Ok_inj in E'; subst s'.
    apply box2_inv in B; destruct B as (i & j & -> & Hi & Hj).
    cbn [sfun vat]; rewrite get_repeat by auto.
    rewrite arr_map_build; rewrite arr_get_build by (apply box1; auto); reflexivity. }
  assert (Rr : forall fy s, (match unwrap x with
        | VArr _ a => Ok (Raw (VArr [n; m] (arr_bind (fun xi => AN (repeat (AF (fmul xi fy)) m)) a)))
        | _ => Stuck end : res incompat (spec F)) = Ok s -> sfun s ix = fmul (sfun x [nth 0 ix 0]) fy).
  { intros fy s'; rewrite (unwrap_arr x [n]) by auto; intro E'; apply Ok_inj in E'; subst s'.
    apply box2_inv in B; destruct B as (i & j & -> & Hi & Hj).
    assert (X : forall a : list (arr F), arr_get [i; j] (AN a) = match nth_error a i with Some b => arr_get [j] b | None => None end) by reflexivity.
    cbn [sfun vat arr_build arr_bind]; rewrite X, map_map, nth_error_map_seq by auto.
    cbn [arr_bind]; rewrite get_repeat by auto; reflexivity. }
  unfold tp_vec_vec in E.
  destruct x as [xv|tx fx|tx fx], y as [yv|ty fy|ty fy]; try (apply D; exact E); cbn [sfun];
    try (destruct (is_zero fx) eqn:Z; [apply is_zero_eq in Z; subst fx; apply Ok_inj in E; subst s; cbn; ring|]);
    try (destruct (is_zero fy) eqn:Z; [apply is_zero_eq in Z; subst fy; apply Ok_inj in E; subst s; cbn; ring|]);
    try (exact (L _ _ E)); try (exact (Rr _ _ E)).
  apply Ok_inj in E; subst s; reflexivity.
Qed.

Lemma vfold_sum (g : F -> F) (x : spec F) n :
  spec_wf x -> spec_bty x = TA [n] ->
  vfold (fun acc yi => fadd acc (g yi)) fzero (unwrap x) = lsum n (fun k => g (sfun x [k])).
Proof.
  intros W T; rewrite unwrap_build, T by auto; rewrite vfold_build.
  unfold tdims_of; simpl; rewrite fold_left_flat_map; reflexivity.
Qed.

Lemma dot_vec_vec_entries n x y s ix :
  spec_wf x -> spec_wf y -> spec_bty x = TA [n] -> spec_bty y = TA [n] ->
  dot_vec_vec n x y = Ok s -> in_box [] ix ->
  sfun s ix = lsum n (fun k => fmul (sfun x [k]) (sfun y [k])).
Proof.
  intros Wx Wy Tx Ty E B; apply in_box_nil in B; subst ix.
  assert (D : forall s, (res_map (fun z => Raw (VScal z))
        (zip_fold (fun acc p => fadd acc (fmul (fst p) (snd p))) fzero (unwrap x) (unwrap y))) = Ok s ->
        sfun s [] = lsum n (fun k => fmul (sfun x [k]) (sfun y [k]))).
  { intros s' E'.
    assert (K := dense_entries 1 x y TS s' [] Wx Wy).
    rewrite Tx, Ty in K; cbn [contract_bty narrow centry] in K; rewrite Nat.eqb_refl in K.
    apply K; auto; [|constructor].
    unfold contract_dense; rewrite (unwrap_arr x [n]), (unwrap_arr y [n]) in * by auto.
    unfold contract; rewrite Nat.eqb_refl; rewrite <- E'.
    destruct (zip_fold _ _ _ _); reflexivity. }
  unfold dot_vec_vec in E.
  destruct x as [xv|tx fx|tx fx], y as [yv|ty fy|ty fy]; try (apply D; exact E);
    try (apply Ok_inj in E; subst s; cbn [sfun]; 
         first [rewrite (vfold_sum (fun z => fmul z fy) _ n) by auto
               |rewrite (vfold_sum (fun z => fmul fx z) _ n) by auto]; reflexivity).
  rewrite (ex_of EX) in E; apply Ok_inj in E; subst s; cbn [sfun].
  rewrite lsum_over, iter_const; ring.
Qed.

Lemma diag2 (i j : nat) : is_diagonal [i; j] = Nat.eqb i j.
Proof. unfold is_diagonal; simpl; apply andb_true_r. Qed.

Lemma dot_mat_vec_entries n x y s ix :
  spec_wf x -> spec_wf y -> spec_bty x = TA [n; n] -> spec_bty y = TA [n] ->
  dot_mat_vec n n x y = Ok s -> in_box [n] ix ->
  sfun s ix = lsum n (fun k => fmul (sfun x [nth 0 ix 0; k]) (sfun y [k])).
Proof.
  intros Wx Wy Tx Ty E B.
  assert (D : forall s, contract_dense 1 x y = Ok s ->
    sfun s ix = lsum n (fun k => fmul (sfun x [nth 0 ix 0; k]) (sfun y [k]))).
  { intros s' E'; assert (K := dense_entries 1 x y (TA [n]) s' ix Wx Wy).
    rewrite Tx, Ty in K; cbn [contract_bty narrow centry] in K; rewrite Nat.eqb_refl, Nat.leb_refl in K.
    apply K; auto. }
  apply box1_inv in B; destruct B as (i & -> & Hi); cbn [nth] in *.
  assert (Kr : forall fx (g : nat -> F), fmul fx (g i) = lsum n (fun k => fmul (if Nat.eqb i k then fx else fzero) (g k))).
  { intros fx g; rewrite lsum_over, <- (sum_kron n i (fun k => fmul fx (g k))) by auto.
    apply sum_over_ext; intros k _; destruct (Nat.eqb i k); [reflexivity|ring]. }
  unfold dot_mat_vec in E; rewrite Nat.eqb_refl in E.
  destruct x as [xv|tx fx|tx fx].
  - apply D; exact E.
  - destruct (is_zero fx) eqn:Z.
    + apply is_zero_eq in Z; subst fx; apply Ok_inj in E; subst s; cbn [sfun spec_zeroes].
      symmetry; rewrite lsum_over; apply sum_over_zero; intros; ring.
    + apply D; exact E.
  - assert (Q : forall s', (res_map Raw (cast_dims [n] (vmutate (fun yi => fmul fx yi) (unwrap y)))) = Ok s' ->
       sfun s' [i] = fmul fx (sfun y [i])).
    { intros s'; rewrite vmutate_vmap, (unwrap_arr y [n]) by auto; cbn [vmap cast_dims].
      rewrite arr_map_build; intro Q; apply Ok_inj in Q; subst s'; cbn [sfun vat].
      rewrite arr_get_build by (apply box1; auto); reflexivity. }
    assert (S : sfun s [i] = fmul fx (sfun y [i])).
    { destruct y; try (apply Q; exact E); apply Ok_inj in E; subst s; reflexivity. }
    rewrite S, (Kr fx (fun k => sfun y [k])); unfold lsum.
    apply (sum_over_ext _ (seq 0 n)); intros k _; cbn [sfun]; rewrite diag2; auto.
Qed.

Lemma dot_vec_mat_entries n x y s ix :
  spec_wf x -> spec_wf y -> spec_bty x = TA [n] -> spec_bty y = TA [n; n] ->
  dot_vec_mat n n x y = Ok s -> in_box [n] ix ->
  sfun s ix = lsum n (fun k => fmul (sfun x [k]) (sfun y [k; nth 0 ix 0])).
Proof.
  intros Wx Wy Tx Ty E B.
  assert (D : forall s, contract_dense 1 x y = Ok s ->
    sfun s ix = lsum n (fun k => fmul (sfun x [k]) (sfun y [k; nth 0 ix 0]))).
  { intros s' E'; assert (K := dense_entries 1 x y (TA [n]) s' ix Wx Wy).
    rewrite Tx, Ty in K; cbn [contract_bty narrow centry] in K; rewrite Nat.eqb_refl, Nat.leb_refl in K.
    apply K; auto. }
  apply box1_inv in B; destruct B as (i & -> & Hi); cbn [nth] in *.
  assert (Kr : forall fy (g : nat -> F), fmul (g i) fy = lsum n (fun k => fmul (g k) (if Nat.eqb k i then fy else fzero))).
  { intros fy g; rewrite lsum_over, <- (sum_kron n i (fun k => fmul (g k) fy)) by auto.
    apply sum_over_ext; intros k _; rewrite (Nat.eqb_sym k i); destruct (Nat.eqb i k); [reflexivity|ring]. }
  unfold dot_vec_mat in E; rewrite Nat.eqb_refl in E.
  destruct y as [yv|ty fy|ty fy].
  - apply D; destruct x; exact E.
  - destruct (is_zero fy) eqn:Z.
    + apply is_zero_eq in Z; subst fy; apply Ok_inj in E; subst s; cbn [sfun spec_zeroes].
      symmetry; rewrite lsum_over; apply sum_over_zero; intros; ring.
    + apply D; destruct x; exact E.
  - assert (Q : forall s', (res_map Raw (cast_dims [n] (vmutate (fun xi => fmul xi fy) (unwrap x)))) = Ok s' ->
       sfun s' [i] = fmul (sfun x [i]) fy).
    { intros s'; rewrite vmutate_vmap, (unwrap_arr x [n]) by auto; cbn [vmap cast_dims].
      rewrite arr_map_build; intro Q; apply Ok_inj in Q; subst s'; cbn [sfun vat].
      rewrite arr_get_build by (apply box1; auto); reflexivity. }
    assert (S : sfun s [i] = fmul (sfun x [i]) fy).
    { destruct x; try (apply Q; exact E); apply Ok_inj in E; subst s; reflexivity. }
    rewrite S, (Kr fy (fun k => sfun x [k])); unfold lsum.
    apply (sum_over_ext _ (seq 0 n)); intros k _; cbn [sfun]; rewrite diag2; auto.
Qed.

Lemma dot_mat_mat_entries n z m x y s ix :
  spec_wf x -> spec_wf y -> spec_bty x = TA [n; z] -> spec_bty y = TA [z; m] ->
  dot_mat_mat n z m x y = Ok s -> in_box [n; m] ix ->
  sfun s ix = lsum z (fun k => fmul (sfun x [nth 0 ix 0; k]) (sfun y [k; nth 1 ix 0])).
Proof.
  intros Wx Wy Tx Ty E B.
  assert (D : forall s, contract_dense 1 x y = Ok s ->
    sfun s ix = lsum z (fun k => fmul (sfun x [nth 0 ix 0; k]) (sfun y [k; nth 1 ix 0]))).
  { intros s' E'; assert (K := dense_entries 1 x y (TA [n; m]) s' ix Wx Wy).
    rewrite Tx, Ty in K; cbn [contract_bty narrow centry] in K; rewrite Nat.eqb_refl in K.
    apply K; auto. }
  apply box2_inv in B; destruct B as (i & j & -> & Hi & Hj); cbn [nth] in *.
  unfold dot_mat_mat in E.
  destruct x as [xv|tx fx|tx fx], y as [yv|ty fy|ty fy]; try (apply D; exact E).
  - rewrite (ex_of EX) in E; apply Ok_inj in E; subst s; cbn [sfun].
    rewrite lsum_over, iter_const; ring.
  - destruct (Nat.eqb n z && Nat.eqb m n) eqn:Q; [|apply D; exact E].
    apply andb_true_iff in Q; destruct Q as [Q1 Q2]; apply Nat.eqb_eq in Q1, Q2; subst z m.
    apply Ok_inj in E; subst s; cbn [sfun]; rewrite diag2, lsum_over.
    transitivity (sum_over (seq 0 n) (fun k => if Nat.eqb i k then (if Nat.eqb k j then fmul fx fy else fzero) else fzero)).
    + rewrite (sum_kron n i (fun k => if Nat.eqb k j then fmul fx fy else fzero)) by auto; reflexivity.
    + apply sum_over_ext; intros k _; rewrite !diag2; destruct (Nat.eqb i k), (Nat.eqb k j); try reflexivity; ring.
Qed.

Lemma contract_spec_entries axes x y t s ix :
  spec_wf x -> spec_wf y -> contract_bty axes (spec_bty x) (spec_bty y) = Some t ->
  sq axes (spec_bty x) (spec_bty y) ->
  contract_spec axes x y = Ok s -> in_box (tdims_of t) ix ->
  sfun s ix = centry axes (spec_bty x) (spec_bty y) (sfun x) (sfun y) ix.
Proof.
  intros Wx Wy H S E B.
  assert (D : forall s, contract_dense axes x y = Ok s ->
              sfun s ix = centry axes (spec_bty x) (spec_bty y) (sfun x) (sfun y) ix).
  { intros; eapply dense_entries; eauto using sq_narrow. }
  assert (SS : forall a b, spec_bty x = TS -> spec_bty y = TS ->
     @unwrap_scal F SF incompat x = Ok a -> @unwrap_scal F SF incompat y = Ok b ->
     a = sfun x [] /\ b = sfun y []).
  { intros; split; eapply unwrap_scal_sfun; eauto. }
  unfold contract_spec in E.
  destruct axes as [|[|axes]]; [| |discriminate];
    destruct (spec_bty x) as [| |xn|[|n [|m [|? ?]]]] eqn:Tx;
    destruct (spec_bty y) as [| |yn|[|n' [|m' [|? ?]]]] eqn:Ty; try discriminate;
    cbn [contract_bty] in H;
    try (destruct (Nat.eqb _ _) eqn:Q in H; [|discriminate]; rewrite Q in E; apply Nat.eqb_eq in Q; subst);
    inversion H; subst t; clear H; cbn [centry sq] in *; subst;
    try (destruct (unwrap_scal x) as [a| | |] eqn:Ea; try discriminate;
         destruct (unwrap_scal y) as [b| | |] eqn:Eb; try discriminate;
         cbn [res_bind] in E; apply Ok_inj in E; subst s;
         destruct (SS a b eq_refl eq_refl eq_refl eq_refl) as [-> ->]; reflexivity);
    try (eapply tp_vec_vec_entries; eauto; fail);
    try (eapply dot_vec_vec_entries; eauto; fail);
    try (eapply dot_mat_vec_entries; eauto; fail);
    try (eapply dot_vec_mat_entries; eauto; fail);
    try (eapply dot_mat_mat_entries; eauto; fail);
    try (unfold tp_field_l1, tp_field_l2 in E; destruct y as [yv|ty fy|ty fy]; try (apply D; exact E);
         destruct (unwrap_scal x) as [a| | |] eqn:Ea; try discriminate;
         cbn [res_bind] in E; apply Ok_inj in E; subst s;
         apply unwrap_scal_sfun in Ea; auto; subst a; cbn [sfun]; ring);
    (unfold tp_field_r in E; destruct x as [xv|tx fx|tx fx]; try (apply D; exact E);
         destruct (unwrap_scal y) as [a| | |] eqn:Ea; try discriminate;
         cbn [res_bind] in E; apply Ok_inj in E; subst s;
         apply unwrap_scal_sfun in Ea; auto; subst a; cbn [sfun]; ring).
Qed.

End Exact.
