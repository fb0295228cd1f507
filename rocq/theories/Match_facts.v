(** Facts about the matches of Add, Sub, Mul and Div on specs. *)
From Coq Require Import List Arith Bool Lia.
Import ListNotations.
From Verif Require Import Base Shapes Scalar Buffers Spec Contraction Node Eval Vocab
  Index_facts Buffers_facts Spec_facts.

Section MatchFacts.
Context {F : Type} {SF : Scalar F}.

(** The match behaves like broadcasting as far as types and errors go: [loud] says whether a
    mismatch may panic. *)
Definition zip_like (m : spec F -> spec F -> res incompat (spec F)) : Prop :=
  forall x y, spec_wf x -> spec_wf y ->
    match bcast_bty (spec_bty x) (spec_bty y) with
    | Ok t => exists s, m x y = Ok s /\ spec_bty s = t /\ spec_wf s
    | Err e => m x y = Panic \/ m x y = Err e
    | Panic => False
    | Stuck => m x y = Stuck
    end.

Lemma bcast_rev l r :
  bty_wf l -> bty_wf r ->
  bcast_bty l r =
  match bcast_bty r l with
  | Ok t => Ok t
  | Err e => Err (inc_reverse e)
  | Panic => Panic
  | Stuck => Stuck
  end.
Proof.
  intros Wl Wr; rewrite !bcast_bty_table by auto.
  destruct l as [| |n|a], r as [| |m|b]; auto.
  - rewrite Nat.eqb_sym; destruct (Nat.eqb m n) eqn:E; auto.
    apply Nat.eqb_eq in E; subst; auto.
  - destruct (dims_eqb a b) eqn:E.
    + apply dims_eqb_eq in E; subst; rewrite dims_eqb_refl; auto.
    + destruct (dims_eqb b a) eqn:E'; auto.
      apply dims_eqb_eq in E'; subst; rewrite dims_eqb_refl in E; discriminate.
Qed.

Lemma bcast_not_panic l r : bty_wf l -> bty_wf r -> bcast_bty l r <> Panic.
Proof.
  intros Wl Wr; rewrite bcast_bty_table by auto.
  destruct l, r; try discriminate; try (destruct (Nat.eqb _ _); discriminate);
    destruct (dims_eqb _ _); discriminate.
Qed.

Lemma zip_dense_eq g (x y : spec F) :
  spec_wf x -> spec_wf y ->
  zip_dense g x y =
  match bcast_bty (spec_bty x) (spec_bty y) with
  | Ok t => Ok (Raw (build t (fun ix =>
              if swapped (spec_bty x) (spec_bty y)
              then g (sfun y (pick (spec_bty y) ix)) (sfun x (pick (spec_bty x) ix))
              else g (sfun x (pick (spec_bty x) ix)) (sfun y (pick (spec_bty y) ix)))))
  | Err e => Panic
  | Panic => Panic
  | Stuck => Stuck
  end.
Proof.
  intros Wx Wy; unfold zip_dense; rewrite zip_map_id_eq, !unwrap_build by auto.
  rewrite zip_map_build by (apply spec_wf_bty; auto).
  destruct (bcast_bty _ _); reflexivity.
Qed.

Lemma zip_dense_like g : zip_like (zip_dense g).
Proof.
  intros x y Wx Wy; rewrite zip_dense_eq by auto.
  assert (P := bcast_not_panic _ _ (spec_wf_bty _ Wx) (spec_wf_bty _ Wy)).
  assert (W := bcast_bty_wf (spec_bty x) (spec_bty y)).
  destruct (bcast_bty _ _) as [t|e| |]; auto.
  eexists; split; [reflexivity|]; simpl; split; [apply build_bty | apply build_wf; auto].
Qed.

Lemma full_like (x y : spec F) (g : F) :
  spec_wf x -> spec_wf y ->
  match bcast_bty (spec_bty x) (spec_bty y) with
  | Ok t => exists s, res_map (fun t => Full t g) (bcast_bty (spec_bty x) (spec_bty y)) = Ok s
                      /\ spec_bty s = t /\ spec_wf s
  | Err e => res_map (fun t => Full t g) (bcast_bty (spec_bty x) (spec_bty y)) = Panic \/
             res_map (fun t => Full t g) (bcast_bty (spec_bty x) (spec_bty y)) = Err e
  | Panic => False
  | Stuck => res_map (fun t => Full t g) (bcast_bty (spec_bty x) (spec_bty y)) = Stuck
  end.
Proof.
  intros Wx Wy.
  assert (P := bcast_not_panic _ _ (spec_wf_bty _ Wx) (spec_wf_bty _ Wy)).
  assert (W := bcast_bty_wf (spec_bty x) (spec_bty y)).
  destruct (bcast_bty _ _) as [t|e| |]; simpl; auto.
  eexists; split; [reflexivity|]; simpl; auto.
Qed.

Lemma zip_shape_eq (v : value F) t :
  vwf v -> bty_wf t ->
  zip_shape v t =
  match bcast_bty (bty_of v) t with
  | Ok t' => Ok (build t' (fun ix => vat fzero v (pick (bty_of v) ix)))
  | Err e => Err e
  | Panic => Panic
  | Stuck => Stuck
  end.
Proof.
  intros W Wt; rewrite (value_eta fzero v) at 1 by auto.
  rewrite zip_shape_build; auto using vwf_bty.
Qed.

Lemma add_like : zip_like add_match.
Proof.
  intros x y Wx Wy; assert (D := zip_dense_like fadd x y Wx Wy).
  destruct x as [xv|tx fx|tx fx], y as [yv|ty fy|ty fy]; try exact D.
  - unfold add_match; destruct (is_zero fy); [|exact D]; simpl spec_bty; simpl in Wx, Wy.
    clear D; rewrite zip_shape_eq by auto.
    assert (P := bcast_not_panic _ _ (vwf_bty _ Wx) Wy).
    assert (W := bcast_bty_wf (bty_of xv) ty).
    destruct (bcast_bty _ _) as [t|e| |]; simpl; auto.
    eexists; split; [reflexivity|]; simpl; split; [apply build_bty | apply build_wf; auto].
  - unfold add_match; destruct (is_zero fx); [|exact D]; simpl spec_bty; simpl in Wx, Wy.
    clear D; rewrite zip_shape_eq by auto.
    rewrite (bcast_rev tx) by auto using vwf_bty.
    assert (P := bcast_not_panic _ _ (vwf_bty _ Wy) Wx).
    assert (W := bcast_bty_wf (bty_of yv) tx).
    destruct (bcast_bty _ _) as [t|e| |]; simpl; auto.
    eexists; split; [reflexivity|]; simpl; split; [apply build_bty | apply build_wf; auto].
  - exact (full_like _ _ (fadd fx fy) Wx Wy).
Qed.

Lemma sub_like : zip_like sub_match.
Proof.
  intros x y Wx Wy; assert (D := zip_dense_like fsub x y Wx Wy).
  destruct x as [xv|tx fx|tx fx], y as [yv|ty fy|ty fy]; try exact D.
  - unfold sub_match; destruct (is_zero fy); [|exact D]; simpl spec_bty; simpl in Wx, Wy.
    clear D; rewrite zip_shape_eq by auto.
    assert (P := bcast_not_panic _ _ (vwf_bty _ Wx) Wy).
    assert (W := bcast_bty_wf (bty_of xv) ty).
    destruct (bcast_bty _ _) as [t|e| |]; simpl; auto.
    eexists; split; [reflexivity|]; simpl; split; [apply build_bty | apply build_wf; auto].
  - exact (full_like _ _ (fsub fx fy) Wx Wy).
Qed.

Lemma mul_like : zip_like mul_match.
Proof.
  intros x y Wx Wy; assert (D := zip_dense_like fmul x y Wx Wy).
  assert (Z := full_like x y fzero Wx Wy).
  destruct x as [xv|tx fx|tx fx], y as [yv|ty fy|ty fy]; try exact D;
    unfold mul_match; try destruct (is_zero _); try exact D; try exact Z;
    exact (full_like _ _ (fmul fx fy) Wx Wy).
Qed.

(** Combination of dense buffers; it never panics. *)
Lemma zip_id_eq (op : F -> F -> F) (x y : value F) :
  vwf x -> vwf y ->
  zip_map_id op x y =
  match bcast_bty (bty_of x) (bty_of y) with
  | Ok t => Ok (build t (fun ix =>
              if swapped (bty_of x) (bty_of y)
              then op (vat fzero y (pick (bty_of y) ix)) (vat fzero x (pick (bty_of x) ix))
              else op (vat fzero x (pick (bty_of x) ix)) (vat fzero y (pick (bty_of y) ix))))
  | Err e => Err e
  | Panic => Panic
  | Stuck => Stuck
  end.
Proof.
  intros Wx Wy; rewrite zip_map_id_eq.
  rewrite (value_eta fzero x), (value_eta fzero y) at 1 by auto.
  rewrite zip_map_build by auto using vwf_bty.
  destruct (bcast_bty _ _); reflexivity.
Qed.

(** [Div] works on dense buffers. *)
Lemma div_eq (x y : value F) :
  vwf x -> vwf y ->
  zip_map_id fdiv x y =
  match bcast_bty (bty_of x) (bty_of y) with
  | Ok t => Ok (build t (fun ix =>
              if swapped (bty_of x) (bty_of y)
              then fdiv (vat fzero y (pick (bty_of y) ix)) (vat fzero x (pick (bty_of x) ix))
              else fdiv (vat fzero x (pick (bty_of x) ix)) (vat fzero y (pick (bty_of y) ix))))
  | Err e => Err e
  | Panic => Panic
  | Stuck => Stuck
  end.
Proof. apply zip_id_eq. Qed.

End MatchFacts.
