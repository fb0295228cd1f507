(** Facts about contraction: types, well-formedness, and entries. *)
From Coq Require Import List Arith Bool Lia.
Import ListNotations.
From Verif Require Import Base Shapes Scalar Buffers Spec Contraction Vocab
  Index_facts Buffers_facts Spec_facts.

Section ContractionFacts.
Context {F : Type} {SF : Scalar F}.

Lemma Forall2_len (A B : Type) (R : A -> B -> Prop) l m : Forall2 R l m -> length l = length m.
Proof. induction 1; simpl; auto. Qed.

Lemma try_list_ok (E A : Type) (l : list (res E A)) m :
  try_list l = Ok m -> Forall2 (fun r a => r = Ok a) l m.
Proof.
  revert m; induction l as [|r l IH]; simpl; intros m H.
  - inversion H; constructor.
  - destruct r as [a| | |]; simpl in H; try discriminate.
    destruct (try_list l) as [m'| | |]; simpl in H; try discriminate.
    inversion H; subst; constructor; auto.
Qed.

Lemma try_list_map (E A B : Type) (f : B -> res E A) g l :
  (forall x, In x l -> f x = Ok (g x)) -> try_list (map f l) = Ok (map g l).
Proof.
  induction l as [|x l IH]; simpl; intro H; auto.
  rewrite (H x), IH; simpl; auto.
Qed.

Lemma try_build_ok (E : Type) ds (f : list nat -> res E F) g :
  (forall ix, in_box ds ix -> f ix = Ok (g ix)) -> try_build ds f = Ok (arr_build ds g).
Proof.
  revert f g; induction ds as [|d ds IH]; intros f g H; simpl.
  - rewrite (H []); [reflexivity | constructor].
  - rewrite (try_list_map _ _ _ _ (fun i => arr_build ds (fun ix => g (i :: ix)))); auto.
    intros i Hi; apply in_seq in Hi; apply IH; intros ix Hx; apply H.
    apply in_box_cons'; split; auto; lia.
Qed.

Lemma try_build_wf (E : Type) ds (f : list nat -> res E F) a :
  try_build ds f = Ok a -> arr_wf ds a.
Proof.
  revert f a; induction ds as [|d ds IH]; intros f a; simpl.
  - destruct (f []); simpl; intro H; inversion H; exact I.
  - destruct (try_list _) as [m| | |] eqn:T; simpl; intro H; inversion H; subst; clear H.
    apply try_list_ok in T; simpl; split.
    + apply Forall2_len in T; rewrite map_length, seq_length in T; auto.
    + rewrite Forall_forall; intros x Hx.
      apply (In_nth_error) in Hx; destruct Hx as [i Hi].
      assert (Hl : i < length m) by (apply nth_error_Some; congruence).
      assert (K : exists r, nth_error (map (fun i => try_build ds (fun ix => f (i :: ix))) (seq 0 d)) i = Some r /\ r = Ok x).
      { clear -T Hi; revert i Hi; induction T; intros [|i] Hi; simpl in *; try discriminate; eauto.
        inversion Hi; subst; eauto. }
      destruct K as (r & Hr & ->).
      rewrite nth_error_map in Hr; destruct (nth_error (seq 0 d) i) as [k|]; [|discriminate].
      simpl in Hr; inversion Hr; eapply IH; eauto.
Qed.

Lemma try_build_not_stuck (E : Type) ds (f : list nat -> res E F) :
  (forall ix, f ix <> Stuck) -> try_build ds f <> Stuck.
Proof.
  revert f; induction ds as [|d ds IH]; intros f H; simpl.
  - specialize (H []); destruct (f []); simpl; congruence.
  - assert (K : forall l, try_list (map (fun i => try_build ds (fun ix => f (i :: ix))) l) <> Stuck).
    { induction l as [|i l IHl]; simpl; [congruence|].
      assert (T := IH (fun ix => f (i :: ix)) (fun ix => H (i :: ix))).
      destruct (try_build ds (fun ix => f (i :: ix))); simpl; try congruence.
      destruct (try_list _); simpl; congruence. }
    specialize (K (seq 0 d)); destruct (try_list _); simpl; congruence.
Qed.

Lemma try_build_not_err (E : Type) ds (f : list nat -> res E F) :
  (forall ix e, f ix <> Err e) -> forall e, try_build ds f <> Err e.
Proof.
  revert f; induction ds as [|d ds IH]; intros f H e; simpl.
  - specialize (H [] e); destruct (f []); simpl; congruence.
  - assert (K : forall l e, try_list (map (fun i => try_build ds (fun ix => f (i :: ix))) l) <> Err e).
    { induction l as [|i l IHl]; simpl; intro e0; [congruence|].
      assert (T := IH (fun ix => f (i :: ix)) (fun ix => H (i :: ix)) e0).
      destruct (try_build ds (fun ix => f (i :: ix))); simpl; try congruence.
      specialize (IHl e0); destruct (try_list _); simpl; congruence. }
    specialize (K (seq 0 d) e); destruct (try_list _); simpl; congruence.
Qed.

Lemma sum_loop_ok (E : Type) n (f : nat -> res E F) g :
  (forall k, k < n -> f k = Ok (g k)) ->
  sum_loop n f = Ok (fold_left (fun a k => fadd a (g k)) (seq 0 n) fzero).
Proof.
  intro H; unfold sum_loop; generalize fzero as z.
  assert (G : forall l z, (forall k, In k l -> k < n) ->
    fold_left (fun acc k => res_bind acc (fun a => res_bind (f k) (fun x => Ok (fadd a x)))) l (Ok z) =
    Ok (fold_left (fun a k => fadd a (g k)) l z)).
  { induction l as [|k l IH]; intros z Hl; simpl; auto.
    rewrite (H k) by (apply Hl; left; auto); simpl; apply IH; intros; apply Hl; right; auto. }
  intro z; apply G; intros k Hk; apply in_seq in Hk; lia.
Qed.

Definition plain {E A} (r : res E A) : Prop := match r with Ok _ | Panic => True | _ => False end.

Lemma sum_loop_plain (E : Type) n (f : nat -> res E F) :
  (forall k, plain (f k)) -> plain (sum_loop n f).
Proof.
  intro H; unfold sum_loop.
  assert (G : forall l a, plain a ->
     plain (fold_left (fun acc k => res_bind acc (fun a => res_bind (f k) (fun x => Ok (fadd a x)))) l a)).
  { induction l as [|k l IH]; intros a Ha; simpl; auto.
    apply IH; destruct a as [a| | |]; simpl in *; auto.
    specialize (H k); destruct (f k); simpl in *; auto. }
  apply G; exact I.
Qed.

Lemma try_build_plain (E : Type) ds (f : list nat -> res E F) :
  (forall ix, plain (f ix)) -> plain (try_build ds f).
Proof.
  intro H.
  assert (A : try_build ds f <> Stuck).
  { apply try_build_not_stuck; intros ix K; specialize (H ix); rewrite K in H; auto. }
  assert (B : forall e, try_build ds f <> Err e).
  { apply try_build_not_err; intros ix e K; specialize (H ix); rewrite K in H; auto. }
  destruct (try_build ds f) as [a|e| |]; simpl; auto. apply (B e); auto.
Qed.

Lemma zip_fold_loop_plain (A E : Type) (f : A -> F * F -> A) gl gr ixs init :
  (forall ix, plain (gl ix)) -> (forall ix, plain (gr ix)) ->
  plain (@zip_fold_loop A F E f gl gr ixs init).
Proof.
  intros Hl Hr; unfold zip_fold_loop.
  assert (G : forall l a, plain a -> plain (fold_left (fun acc ix =>
     res_bind acc (fun a => res_bind (gl ix) (fun x => res_bind (gr ix) (fun y => Ok (f a (x, y)))))) l a)).
  { induction l as [|k l IH]; intros a Ha; simpl; auto.
    apply IH; destruct a as [a| | |]; simpl in *; auto.
    specialize (Hl k); destruct (gl k); simpl in *; auto.
    specialize (Hr k); destruct (gr k); simpl in *; auto. }
  apply G; exact I.
Qed.

Lemma aix_plain (E : Type) (a : arr F) ix : plain (@aix F E a ix).
Proof. unfold aix; destruct (arr_get ix a); exact I. Qed.

Lemma prod_plain (E : Type) (a b : arr F) i j :
  plain (res_bind (@aix F E a i) (fun x => res_bind (aix b j) (fun y => Ok (fmul x y)))).
Proof.
  assert (A := aix_plain E a i); destruct (aix a i); simpl in *; auto.
  assert (B := aix_plain E b j); destruct (aix b j); simpl in *; auto.
Qed.

Ltac split_nat_eqb :=
  match goal with
  | |- context [if Nat.eqb ?a ?b then _ else _] => destruct (Nat.eqb a b) eqn:?
  | H : context [if Nat.eqb ?a ?b then _ else _] |- _ => destruct (Nat.eqb a b) eqn:?
  end.

Lemma contract_fits axes (l r : value F) t :
  contract_bty axes (bty_of l) (bty_of r) = Some t ->
  plain (contract axes l r) /\
  forall v, contract axes l r = Ok v -> bty_of v = t.
Proof.
  destruct axes as [|[|axes]]; destruct l as [x|x0 x1|xs|[|n [|m [|? ?]]] a];
    destruct r as [y|y0 y1|ys|[|n' [|m' [|? ?]]] b]; simpl; intro H; try discriminate;
    try (inversion H; subst; simpl; split; [exact I | intros v K; inversion K; reflexivity]).
  - (* vec vec *)
    split_nat_eqb; [|discriminate]; inversion H; subst; simpl.
    match goal with |- context [zip_fold_loop ?f ?gl ?gr ?ixs ?i] =>
      set (T := zip_fold_loop f gl gr ixs i) end.
    assert (K : plain T) by (apply zip_fold_loop_plain; intro ix; apply aix_plain).
    destruct T; simpl in *; split; auto; intros v Hv; inversion Hv; reflexivity.
  - (* vec mat *)
    split_nat_eqb; [|discriminate]; inversion H; subst.
    match goal with |- context [try_list ?l] => set (T := try_list l) end.
    assert (K : plain (res_map AN T)).
    { apply (try_build_plain incompat [m'] (fun ix => sum_loop m' (fun k =>
               res_bind (aix a [k]) (fun x =>
               res_bind (aix b [k; nth 0 ix 0]) (fun y => Ok (fmul x y)))))).
      intro ix; apply sum_loop_plain; intro k; apply prod_plain. }
    destruct T; simpl in *; split; auto; intros v Hv; inversion Hv; reflexivity.
  - (* mat vec *)
    split_nat_eqb; [|discriminate]; inversion H; subst.
    match goal with |- context [try_list ?l] => set (T := try_list l) end.
    assert (K : plain (res_map AN T)).
    { apply (try_build_plain incompat [m] (fun ix => sum_loop m (fun k =>
               res_bind (aix a [nth 0 ix 0; k]) (fun x =>
               res_bind (aix b [k]) (fun y => Ok (fmul x y)))))).
      intro ix; apply sum_loop_plain; intro k; apply prod_plain. }
    destruct T; simpl in *; split; auto; intros v Hv; inversion Hv; reflexivity.
  - (* mat mat *)
    split_nat_eqb; [|discriminate]; inversion H; subst.
    match goal with |- context [try_list ?l] => set (T := try_list l) end.
    assert (K : plain (res_map AN T)).
    { apply (try_build_plain incompat [n; m'] (fun ix => sum_loop m (fun k =>
               res_bind (aix a [nth 0 ix 0; k]) (fun x =>
               res_bind (aix b [k; nth 1 ix 0]) (fun y => Ok (fmul x y)))))).
      intro ix; apply sum_loop_plain; intro k; apply prod_plain. }
    destruct T; simpl in *; split; auto; intros v Hv; inversion Hv; reflexivity.
Qed.

Lemma Ok_inj (E A : Type) (a b : A) : @Ok E A a = Ok b -> a = b.
Proof. congruence. Qed.

Lemma bty_TA (v : value F) ds : bty_of v = TA ds -> exists a, v = VArr ds a.
Proof. destruct v; simpl; intro H; inversion H; subst; eauto. Qed.
Lemma bty_TS (v : value F) : bty_of v = TS -> exists x, v = VScal x.
Proof. destruct v; simpl; intro H; inversion H; subst; eauto. Qed.

Lemma arr_wf1 n (a : arr F) : arr_wf [n] a -> a = arr_build [n] (fun ix => match arr_get ix a with Some x => x | None => fzero end).
Proof. apply arr_eta. Qed.

Lemma arr_bind_build n m f h :
  arr_bind (fun xi => arr_map (fun yi => fmul xi yi) (arr_build [m] h)) (arr_build [n] f) =
  arr_build [n; m] (fun ix => fmul (f [nth 0 ix 0]) (h [nth 1 ix 0])).
Proof.
  simpl; f_equal; rewrite map_map; apply map_ext; intro i; simpl.
  f_equal; rewrite map_map; apply map_ext; intro j; reflexivity.
Qed.

Lemma contract_wf axes (l r v : value F) :
  vwf l -> vwf r -> contract axes l r = Ok v -> vwf v.
Proof.
  destruct axes as [|[|axes]]; destruct l as [x|x0 x1|xs|[|n [|m [|? ?]]] a];
    destruct r as [y|y0 y1|ys|[|n' [|m' [|? ?]]] b]; intros Wl Wr H;
    try discriminate H; try (simpl in H; inversion H; subst; exact I);
    try (simpl in H; inversion H; subst; split; [apply arr_map_wf; apply Wl || apply Wr | simpl; lia]).
  - destruct Wl as [Wl _], Wr as [Wr _]; simpl in H.
    rewrite (arr_wf1 _ _ Wl), (arr_wf1 _ _ Wr), arr_bind_build in H.
    apply Ok_inj in H; rewrite <- H; split; [apply arr_build_wf | simpl; lia].
  - unfold contract in H; split_nat_eqb; [|discriminate].
    destruct (zip_fold _ _ _ _); inversion H; exact I.
  - unfold contract in H; split_nat_eqb; [|discriminate].
    destruct (try_build _ _) eqn:T; inversion H; subst; split; [eapply try_build_wf; eauto | simpl; lia].
  - unfold contract in H; split_nat_eqb; [|discriminate].
    destruct (try_build _ _) eqn:T; inversion H; subst; split; [eapply try_build_wf; eauto | simpl; lia].
  - unfold contract in H; split_nat_eqb; [|discriminate].
    destruct (try_build _ _) eqn:T; inversion H; subst; split; [eapply try_build_wf; eauto | simpl; lia].
Qed.

(** A result of the expected type, or a panic. *)
Definition fits {E} (t : bty) (r : res E (spec F)) : Prop :=
  match r with Ok s => spec_bty s = t /\ spec_wf s | Panic => True | _ => False end.

Lemma contract_dense_fits axes x y t :
  spec_wf x -> spec_wf y ->
  contract_bty axes (spec_bty x) (spec_bty y) = Some t -> fits t (contract_dense axes x y).
Proof.
  intros Wx Wy H; unfold contract_dense.
  rewrite <- (unwrap_bty x), <- (unwrap_bty y) in H.
  destruct (contract_fits _ _ _ _ H) as [P T].
  destruct (contract axes (unwrap x) (unwrap y)) as [v| | |] eqn:E; simpl in *; auto.
  split; auto; apply (contract_wf axes (unwrap x) (unwrap y)); auto using unwrap_wf.
Qed.

Lemma unwrap_scal_ok (E : Type) (s : spec F) : spec_bty s = TS -> exists x, @unwrap_scal F SF E s = Ok x.
Proof.
  intro H; unfold unwrap_scal; rewrite <- unwrap_bty in H.
  destruct (bty_TS _ H) as [x ->]; eauto.
Qed.

Lemma tp_field_r_fits x y t :
  spec_wf x -> spec_wf y -> contract_bty 0 (spec_bty x) (spec_bty y) = Some t ->
  spec_bty y = TS -> spec_bty x = t -> fits t (tp_field_r x y).
Proof.
  intros Wx Wy H Hy Hx; destruct x; try (apply contract_dense_fits; auto).
  unfold tp_field_r; destruct (unwrap_scal_ok incompat y Hy) as [z ->]; simpl; auto.
Qed.
Lemma tp_field_l1_fits x y t :
  spec_wf x -> spec_wf y -> contract_bty 0 (spec_bty x) (spec_bty y) = Some t ->
  spec_bty x = TS -> spec_bty y = t -> fits t (tp_field_l1 x y).
Proof.
  intros Wx Wy H Hy Hx; destruct y; try (apply contract_dense_fits; auto).
  unfold tp_field_l1; destruct (unwrap_scal_ok incompat x Hy) as [z ->]; simpl; auto.
Qed.
Lemma tp_field_l2_fits x y t :
  spec_wf x -> spec_wf y -> contract_bty 0 (spec_bty x) (spec_bty y) = Some t ->
  spec_bty x = TS -> spec_bty y = t -> fits t (tp_field_l2 x y).
Proof.
  intros Wx Wy H Hy Hx; destruct y; try (apply contract_dense_fits; auto).
  unfold tp_field_l2; destruct (unwrap_scal_ok incompat x Hy) as [z ->]; simpl; auto.
Qed.

Lemma wf_repeat ds (a : arr F) n : arr_wf ds a -> Forall (arr_wf ds) (repeat a n).
Proof. intro W; rewrite Forall_forall; intros x Hx; apply repeat_spec in Hx; subst; auto. Qed.

Lemma tp_vec_vec_fits n m x y :
  spec_wf x -> spec_wf y -> spec_bty x = TA [n] -> spec_bty y = TA [m] ->
  fits (TA [n; m]) (tp_vec_vec n m x y).
Proof.
  intros Wx Wy Hx Hy.
  assert (D : fits (TA [n; m]) (contract_dense 0 x y)).
  { apply contract_dense_fits; auto; rewrite Hx, Hy; reflexivity. }
  assert (Z : fits (E := incompat) (TA [n; m]) (Ok (spec_zeroes (TA [n; m])))).
  { simpl; repeat split; simpl; lia. }
  assert (Ux := unwrap_wf x Wx); assert (Uy := unwrap_wf y Wy).
  assert (Bx := unwrap_bty x); assert (By := unwrap_bty y); rewrite Hx in Bx; rewrite Hy in By.
  destruct (bty_TA _ _ Bx) as [a Ea]; destruct (bty_TA _ _ By) as [b Eb].
  rewrite Ea in Ux; rewrite Eb in Uy; destruct Ux as [Wa _], Uy as [Wb _].
  assert (L : forall fx, fits (E := incompat) (TA [n; m])
     (Ok (Raw (VArr [n; m] (AN (repeat (arr_map (fun yi => fmul fx yi) b) n)))))).
  { intro fx; simpl; repeat split; try lia; [apply repeat_length|].
    apply (wf_repeat [m]); apply (arr_map_wf _ _ [m]); auto. }
  assert (R : forall fy, fits (E := incompat) (TA [n; m])
     (Ok (Raw (VArr [n; m] (arr_bind (fun xi => AN (repeat (AF (fmul xi fy)) m)) a))))).
  { intro fy; rewrite (arr_wf1 _ _ Wa); simpl; repeat split; try lia.
    - rewrite !map_length, seq_length; auto.
    - rewrite map_map; apply Forall_map_seq; intros i Hi; simpl; split; [apply repeat_length|].
      rewrite Forall_forall; intros z Hz; apply repeat_spec in Hz; subst; exact I. }
  destruct x as [xv|tx fx|tx fx], y as [yv|ty fy|ty fy]; unfold tp_vec_vec; simpl in Hx, Hy; subst;
    try (rewrite ?Ea, ?Eb; try destruct (is_zero _); auto; fail).
Qed.

Lemma dot_vec_vec_fits n x y :
  spec_wf x -> spec_wf y -> spec_bty x = TA [n] -> spec_bty y = TA [n] ->
  fits TS (dot_vec_vec n x y).
Proof.
  intros Wx Wy Hx Hy.
  assert (D : fits TS (res_map (fun z => Raw (VScal z))
        (zip_fold (fun acc p => fadd acc (fmul (fst p) (snd p))) fzero (unwrap x) (unwrap y)))).
  { assert (Bx := unwrap_bty x); assert (By := unwrap_bty y); rewrite Hx in Bx; rewrite Hy in By.
    destruct (bty_TA _ _ Bx) as [a ->]; destruct (bty_TA _ _ By) as [b ->]; simpl.
    rewrite Nat.eqb_refl; simpl.
    match goal with |- context [zip_fold_loop ?f ?gl ?gr ?ixs ?i] =>
      set (T := zip_fold_loop f gl gr ixs i) end.
    assert (K : plain T) by (apply zip_fold_loop_plain; intro ix; apply aix_plain).
    destruct T; simpl in *; auto. }
  destruct x as [xv|tx fx|tx fx], y as [yv|ty fy|ty fy]; unfold dot_vec_vec; auto; try (simpl; auto; fail).
  destruct (fof_usize n); simpl; auto.
Qed.

Lemma cast_dims_fits n (v : value F) :
  bty_of v = TA [n] -> vwf v -> fits (TA [n]) (res_map Raw (cast_dims [n] v)).
Proof. intros H W; destruct (bty_TA _ _ H) as [a ->]; simpl; auto. Qed.

Lemma vmutate_bty (g : F -> F) v : bty_of (vmutate g v) = bty_of v.
Proof. rewrite vmutate_vmap; apply vmap_bty. Qed.
Lemma vmutate_wf (g : F -> F) v : vwf v -> vwf (vmutate g v).
Proof. rewrite vmutate_vmap; apply vmap_wf. Qed.

Lemma dot_mat_vec_fits n m x y :
  spec_wf x -> spec_wf y -> spec_bty x = TA [n; m] -> spec_bty y = TA [n] ->
  fits (TA [m]) (dot_mat_vec n m x y).
Proof.
  intros Wx Wy Hx Hy.
  assert (D : fits (TA [m]) (contract_dense 1 x y)).
  { apply contract_dense_fits; auto; rewrite Hx, Hy; simpl; rewrite Nat.eqb_refl; auto. }
  assert (C : forall fx, m = n -> fits (TA [m])
     (res_map Raw (cast_dims [m] (vmutate (fun yi => fmul fx yi) (unwrap y))))).
  { intros fx ->; apply cast_dims_fits; [rewrite vmutate_bty, unwrap_bty; auto|].
    apply vmutate_wf, unwrap_wf; auto. }
  destruct x as [xv|tx fx|tx fx], y as [yv|ty fy|ty fy]; unfold dot_mat_vec; auto;
    try (destruct (is_zero fx); auto; simpl; repeat split; simpl; lia);
    try (destruct (Nat.eqb m n) eqn:E; auto; apply Nat.eqb_eq in E; apply C; auto).
Qed.

Lemma dot_vec_mat_fits n m x y :
  spec_wf x -> spec_wf y -> spec_bty x = TA [n] -> spec_bty y = TA [n; m] ->
  fits (TA [m]) (dot_vec_mat n m x y).
Proof.
  intros Wx Wy Hx Hy.
  assert (D : fits (TA [m]) (contract_dense 1 x y)).
  { apply contract_dense_fits; auto; rewrite Hx, Hy; simpl; rewrite Nat.eqb_refl; auto. }
  assert (C : forall fy, m = n -> fits (TA [m])
     (res_map Raw (cast_dims [m] (vmutate (fun xi => fmul xi fy) (unwrap x))))).
  { intros fy ->; apply cast_dims_fits; [rewrite vmutate_bty, unwrap_bty; auto|].
    apply vmutate_wf, unwrap_wf; auto. }
  destruct x as [xv|tx fx|tx fx], y as [yv|ty fy|ty fy]; unfold dot_vec_mat; auto;
    try (destruct (is_zero fy); auto; simpl; repeat split; simpl; lia);
    try (destruct (Nat.eqb m n) eqn:E; auto; apply Nat.eqb_eq in E; apply C; auto).
Qed.

Lemma dot_mat_mat_fits n z m x y :
  spec_wf x -> spec_wf y -> spec_bty x = TA [n; z] -> spec_bty y = TA [z; m] ->
  fits (TA [n; m]) (dot_mat_mat n z m x y).
Proof.
  intros Wx Wy Hx Hy.
  assert (D : fits (TA [n; m]) (contract_dense 1 x y)).
  { apply contract_dense_fits; auto; rewrite Hx, Hy; simpl; rewrite Nat.eqb_refl; auto. }
  destruct x as [xv|tx fx|tx fx], y as [yv|ty fy|ty fy]; unfold dot_mat_mat; auto.
  - destruct (fof_usize z); simpl; repeat split; auto; simpl; lia.
  - destruct (_ && _); auto; simpl; repeat split; simpl; lia.
Qed.

Lemma contract_spec_fits axes (x y : spec F) t :
  spec_wf x -> spec_wf y ->
  contract_bty axes (spec_bty x) (spec_bty y) = Some t -> fits t (contract_spec axes x y).
Proof.
  intros Wx Wy H; unfold contract_spec.
  destruct axes as [|[|axes]]; [| |discriminate];
    destruct (spec_bty x) as [| |xn|[|n [|m [|? ?]]]] eqn:Hx;
    destruct (spec_bty y) as [| |yn|[|n' [|m' [|? ?]]]] eqn:Hy; simpl in H; try discriminate;
    try (inversion H; subst t; clear H).
  - destruct (unwrap_scal_ok incompat x Hx) as [a ->], (unwrap_scal_ok incompat y Hy) as [b ->];
      simpl; auto.
  - apply tp_field_l1_fits; auto; rewrite Hx, Hy; auto.
  - apply tp_field_l2_fits; auto; rewrite Hx, Hy; auto.
  - apply tp_field_r_fits; auto; rewrite Hx, Hy; auto.
  - apply tp_vec_vec_fits; auto.
  - apply tp_field_r_fits; auto; rewrite Hx, Hy; auto.
  - destruct (unwrap_scal_ok incompat x Hx) as [a ->], (unwrap_scal_ok incompat y Hy) as [b ->];
      simpl; auto.
  - split_nat_eqb; [|discriminate]; inversion H; apply Nat.eqb_eq in Heqb; subst.
    apply dot_vec_vec_fits; auto.
  - split_nat_eqb; [|discriminate]; inversion H; apply Nat.eqb_eq in Heqb; subst.
    apply dot_vec_mat_fits; auto.
  - split_nat_eqb; [|discriminate]; inversion H; apply Nat.eqb_eq in Heqb; subst.
    apply dot_mat_vec_fits; auto.
  - split_nat_eqb; [|discriminate]; inversion H; apply Nat.eqb_eq in Heqb; subst.
    apply dot_mat_mat_fits; auto.
Qed.

(** Without an impl nothing is computed. *)
Lemma contract_spec_none axes (x y : spec F) :
  contract_bty axes (spec_bty x) (spec_bty y) = None -> contract_spec axes x y = Stuck.
Proof.
  intro H; unfold contract_spec.
  destruct axes as [|[|axes]]; auto;
    destruct (spec_bty x) as [| |xn|[|n [|m [|? ?]]]];
    destruct (spec_bty y) as [| |yn|[|n' [|m' [|? ?]]]]; simpl in H; try discriminate; auto;
    split_nat_eqb; auto; discriminate.
Qed.

End ContractionFacts.
