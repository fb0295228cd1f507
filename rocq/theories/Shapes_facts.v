(** Laws of shapes. *)
From Coq Require Import List Arith Bool Lia Sorted.
Import ListNotations.
From Verif Require Import Base Shapes Vocab Index_facts.

Lemma lexlt_irrefl a : ~ lexlt a a.
Proof. induction a; simpl; intuition lia. Qed.

Lemma lexlt_trans a b c : lexlt a b -> lexlt b c -> lexlt a c.
Proof.
  revert b c; induction a as [|x a IH]; intros [|y b] [|z c]; simpl; try tauto.
  intros [H1|[-> H1]] [H2|[-> H2]]; try (left; lia); right; split; eauto.
Qed.

Lemma lexlt_total ds a b : in_box ds a -> in_box ds b -> a <> b -> lexlt a b \/ lexlt b a.
Proof.
  revert a b; induction ds as [|d ds IH]; intros a b Ha Hb N.
  - apply in_box_nil in Ha, Hb; congruence.
  - apply in_box_cons in Ha, Hb; destruct Ha as (i & a' & -> & _ & Ha), Hb as (j & b' & -> & _ & Hb).
    simpl; destruct (lt_eq_lt_dec i j) as [[H|H]|H]; auto.
    subst j; destruct (IH a' b' Ha Hb); [congruence| |]; auto.
Qed.

Lemma sorted_app (A : Type) (R : A -> A -> Prop) l m :
  StronglySorted R l -> StronglySorted R m -> (forall x y, In x l -> In y m -> R x y) ->
  StronglySorted R (l ++ m).
Proof.
  induction l as [|x l IH]; simpl; auto; intros Hl Hm H; inversion Hl; subst.
  constructor; auto; apply Forall_app; split; auto; apply Forall_forall; auto.
Qed.

Lemma sorted_map_cons i l : StronglySorted lexlt l -> StronglySorted lexlt (map (cons i) l).
Proof.
  induction l as [|x l IH]; simpl; intro H; inversion H; subst; constructor; auto.
  apply Forall_forall; intros y Hy; apply in_map_iff in Hy; destruct Hy as (z & <- & Hz).
  simpl; right; split; auto; rewrite Forall_forall in H3; auto.
Qed.

Lemma iproduct_sorted ds : StronglySorted lexlt (iproduct ds).
Proof.
  induction ds as [|d ds IH]; simpl; [repeat constructor|].
  generalize 0; induction d as [|d IHd]; intro s; simpl; [constructor|].
  apply sorted_app; auto using sorted_map_cons.
  intros x y Hx Hy; apply in_map_iff in Hx; destruct Hx as (x' & <- & _).
  apply in_flat_map in Hy; destruct Hy as (j & Hj & Hy); apply in_map_iff in Hy.
  destruct Hy as (y' & <- & _); apply in_seq in Hj; simpl; left; lia.
Qed.

Lemma sorted_lex_unique l m :
  StronglySorted lexlt l -> StronglySorted lexlt m -> (forall x, In x l <-> In x m) -> l = m.
Proof.
  revert m; induction l as [|x l IH]; intros [|y m] Hl Hm H; auto.
  - destruct (proj2 (H y)); simpl; auto.
  - destruct (proj1 (H x)); simpl; auto.
  - inversion Hl as [|? ? Hl' Fl]; inversion Hm as [|? ? Hm' Fm]; subst.
    rewrite Forall_forall in Fl, Fm.
    assert (x = y).
    { destruct (proj1 (H x) (or_introl eq_refl)) as [E|E]; auto.
      destruct (proj2 (H y) (or_introl eq_refl)) as [E'|E']; auto.
      destruct (lexlt_irrefl x); apply lexlt_trans with y; auto. }
    subst y; f_equal; apply IH; auto; intro z; split; intro Hz.
    + destruct (proj1 (H z) (or_intror Hz)) as [E|E]; auto.
      subst z; destruct (lexlt_irrefl x); auto.
    + destruct (proj2 (H z) (or_intror Hz)) as [E|E]; auto.
      subst z; destruct (lexlt_irrefl x); auto.
Qed.

Lemma contains_box s ix : length ix = length (dims s) -> shape_contains s ix = true <-> in_box (dims s) ix.
Proof.
  intro L; destruct s as [[|a [|b ds]]|ds]; cbn [dims] in *.
  - simpl; rewrite in_box_nil; destruct ix; simpl in L; try discriminate; tauto.
  - destruct ix as [|i [|]]; simpl in L; try discriminate.
    unfold shape_contains; rewrite Nat.ltb_lt, in_box_cons', in_box_nil; tauto.
  - apply forallb_combine_box; auto.
  - apply forallb_combine_box; auto.
Qed.

Lemma st_cardinality ds : shape_cardinality (St ds) = length (st_indices ds).
Proof. rewrite st_cardinality_product, st_indices_iproduct, iproduct_length; auto. Qed.

Lemma broadcast_static l r t :
  broadcast (St l) (St r) = Ok t <->
  (t = St l /\ (l = r \/ r = [])) \/ (t = St r /\ l = []).
Proof.
  destruct l as [|x l], r as [|y r]; simpl.
  - split; [intro H; inversion H; auto | intros [[-> _]|[-> _]]; auto].
  - split; [intro H; inversion H; auto | intros [[-> [H|H]]|[-> _]]; auto; discriminate].
  - split; [intro H; inversion H; auto | intros [[-> _]|[-> H]]; auto; discriminate].
  - destruct (Nat.eqb x y && dims_eqb l r) eqn:E.
    + apply andb_true_iff in E; destruct E as [E1 E2]; apply Nat.eqb_eq in E1; apply dims_eqb_eq in E2; subst.
      split; [intro H; inversion H; auto | intros [[-> _]|[-> H]]; auto; discriminate].
    + split; [intro H; inversion H|].
      intros [[-> [H|H]]|[-> H]]; try discriminate; inversion H; subst.
      rewrite Nat.eqb_refl, dims_eqb_refl in E; discriminate.
Qed.

Lemma broadcast_dynamic l r :
  length l = length r ->
  broadcast (Dy l) (Dy r) = if dims_eqb l r then Ok (Dy l) else Err (Incompat (Dy l) (Dy r)).
Proof. intro L; simpl; rewrite L, Nat.eqb_refl; auto. Qed.

Lemma split_concat s l r : shape_split s = Some (l, r) -> shape_concat l r = Some s.
Proof.
  destruct s as [[|a [|b [|c [|d [|? ?]]]]]|]; simpl; intro H; inversion H; reflexivity.
Qed.
Lemma split_concat_index s ix i j : split_index s ix = Some (i, j) -> concat_indices i j = ix.
Proof.
  destruct s as [[|a [|b [|c [|d [|? ?]]]]]|];
    destruct ix as [|x [|y [|z [|w [|? ?]]]]]; simpl; intro H; inversion H; reflexivity.
Qed.
Lemma split_index_box s l r ix i j :
  shape_split s = Some (l, r) -> split_index s ix = Some (i, j) ->
  in_box (dims s) ix <-> in_box (dims l) i /\ in_box (dims r) j.
Proof.
  destruct s as [[|a [|b [|c [|d [|? ?]]]]]|]; simpl; intro H; inversion H; subst;
    destruct ix as [|x [|y [|z [|w [|? ?]]]]]; simpl; intro H'; inversion H'; subst; simpl;
    rewrite !in_box_cons', !in_box_nil; tauto.
Qed.
Lemma split_total s ix l r :
  shape_split s = Some (l, r) -> in_box (dims s) ix -> exists i j, split_index s ix = Some (i, j).
Proof.
  intros H B; apply in_box_length in B.
  destruct s as [[|a [|b [|c [|d [|? ?]]]]]|]; simpl in H; inversion H; subst;
    destruct ix as [|x [|y [|z [|w [|? ?]]]]]; simpl in B; try discriminate; simpl; eauto.
Qed.
Lemma concat_split a b :
  length a = length b -> 1 <= length a <= 2 ->
  exists s, shape_concat (St a) (St b) = Some s /\ shape_split s = Some (St a, St b) /\
    forall i j, in_box a i -> in_box b j -> split_index s (concat_indices i j) = Some (i, j).
Proof.
  intros L [L1 L2]; destruct a as [|x [|y [|? ?]]]; simpl in *; try lia;
    destruct b as [|z [|w [|? ?]]]; simpl in *; try lia.
  - eexists; split; [reflexivity|]; split; [reflexivity|].
    intros i j Hi Hj; apply in_box_length in Hi, Hj.
    destruct i as [|i1 [|]], j as [|j1 [|]]; simpl in *; try discriminate; auto.
  - eexists; split; [reflexivity|]; split; [reflexivity|].
    intros i j Hi Hj; apply in_box_length in Hi, Hj.
    destruct i as [|i1 [|i2 [|]]], j as [|j1 [|j2 [|]]]; simpl in *; try discriminate; auto.
Qed.
Lemma concat_cardinality l r s :
  shape_concat l r = Some s -> shape_cardinality s = shape_cardinality l * shape_cardinality r
                               /\ shape_DIM s = shape_DIM l + shape_DIM r.
Proof.
  assert (D : forall ds, shape_cardinality (Dy ds) = product ds) by auto.
  destruct l as [a|a], r as [b|b]; unfold shape_concat; try discriminate;
    destruct (_ && _); try discriminate; intro H; inversion H; subst; unfold shape_DIM; simpl dims.
  - rewrite !st_cardinality_product, product_app, app_length; auto.
  - rewrite !D, product_app, app_length; auto.
Qed.
Lemma concat_box l r s i j :
  shape_concat l r = Some s -> length i = length (dims l) ->
  in_box (dims s) (concat_indices i j) <-> in_box (dims l) i /\ in_box (dims r) j.
Proof.
  intros H L; assert (dims s = dims l ++ dims r) as ->.
  { destruct l as [a|a], r as [b|b]; unfold shape_concat in H; try discriminate;
      destruct (_ && _); try discriminate; inversion H; auto. }
  unfold concat_indices; rewrite in_box_app, <- L, firstn_app, skipn_app, Nat.sub_diag, firstn_all, skipn_all.
  simpl; rewrite app_nil_r; tauto.
Qed.

(** Statements used by the property file. *)
Lemma static_indices ds :
  (forall ix, length ix = length ds -> In ix (st_indices ds) <-> shape_contains (St ds) ix = true) /\
  (forall ix, In ix (st_indices ds) -> length ix = length ds) /\
  StronglySorted lexlt (st_indices ds) /\ NoDup (st_indices ds) /\
  length (st_indices ds) = shape_cardinality (St ds).
Proof.
  rewrite st_indices_iproduct, st_cardinality_product, iproduct_length; split; [|split; [|split; [|split]]]; auto.
  - intros ix L; rewrite contains_box, in_iproduct; simpl; tauto.
  - apply iproduct_length_in.
  - apply iproduct_sorted.
  - apply iproduct_NoDup.
Qed.
Lemma broadcast_runtime l r :
  length l = length r ->
  (l = r -> broadcast (Dy l) (Dy r) = Ok (Dy l)) /\
  (l <> r -> broadcast (Dy l) (Dy r) = Err (Incompat (Dy l) (Dy r))).
Proof.
  intro L; rewrite broadcast_dynamic by auto; split; intro H.
  - apply dims_eqb_eq in H; rewrite H; auto.
  - apply dims_eqb_neq in H; rewrite H; auto.
Qed.
Lemma split_then_concat s l r :
  shape_split s = Some (l, r) ->
  shape_concat l r = Some s /\
  forall ix, in_box (dims s) ix ->
    exists i j, split_index s ix = Some (i, j) /\ concat_indices i j = ix /\
                in_box (dims l) i /\ in_box (dims r) j.
Proof.
  intro H; split; [apply split_concat; auto|]; intros ix B.
  destruct (split_total _ _ _ _ H B) as (i & j & E); exists i, j; split; auto.
  split; [eapply split_concat_index; eauto|].
  apply (split_index_box _ _ _ _ _ _ H E); auto.
Qed.
Lemma concat_laws l r s :
  shape_concat l r = Some s ->
  shape_cardinality s = shape_cardinality l * shape_cardinality r /\
  shape_DIM s = shape_DIM l + shape_DIM r /\
  forall i j, length i = length (dims l) ->
    in_box (dims s) (concat_indices i j) <-> in_box (dims l) i /\ in_box (dims r) j.
Proof.
  intro H; destruct (concat_cardinality _ _ _ H); split; [|split]; auto.
  intros; apply concat_box; auto.
Qed.
Lemma is_diagonal_equal ix :
  is_diagonal ix = true <-> forall i j, In i ix -> In j ix -> i = j.
Proof.
  destruct ix as [|a l]; [simpl; tauto|].
  unfold is_diagonal; rewrite forallb_forall; split.
  - intros H i j; assert (forall x, In x (a :: l) -> x = a).
    { intros x [->|Hx]; auto; apply H in Hx; apply Nat.eqb_eq in Hx; auto. }
    intros Hi Hj; rewrite (H0 i), (H0 j); auto.
  - intros H j Hj; apply Nat.eqb_eq; apply H; simpl; auto.
Qed.

(** The classification of shapes by rank and by size. *)
Lemma predicates_rank s :
  (is_scalar s = true <-> dims s = []) /\
  (is_vector s = true <-> exists n, dims s = [n]) /\
  (is_matrix s = true <-> exists m n, dims s = [m; n]).
Proof.
  assert (X : forall n, Nat.eqb (shape_DIM s) n = true <-> length (dims s) = n) by (intro; apply Nat.eqb_eq).
  unfold is_scalar, is_vector, is_matrix; rewrite !X.
  split; [split; [apply length_zero_iff_nil|intros ->; auto]|split; split].
  - destruct (dims s) as [|a [|]]; try discriminate; eauto.
  - intros [n ->]; auto.
  - destruct (dims s) as [|a [|b [|]]]; try discriminate; eauto.
  - intros (m & n & ->); auto.
Qed.

Lemma equivalent_size s t la lb :
  NoDup la -> NoDup lb -> (forall ix, In ix la <-> in_box (dims s) ix) ->
  (forall ix, In ix lb <-> in_box (dims t) ix) ->
  (is_equivalent s t = true <-> length la = length lb).
Proof.
  intros Na Nb Ha Hb; unfold is_equivalent; rewrite Nat.eqb_eq.
  assert (K : forall u l, NoDup l -> (forall ix, In ix l <-> in_box (dims u) ix) ->
    length l = shape_cardinality u).
  { intros u l N H; replace (shape_cardinality u) with (product (dims u)).
    - rewrite <- iproduct_length; apply Nat.le_antisymm; apply NoDup_incl_length; auto using iproduct_NoDup;
        intros ix I; [apply in_iproduct, H|apply H, in_iproduct]; auto.
    - destruct u; [symmetry; apply st_cardinality_product|reflexivity]. }
  rewrite (K s la), (K t lb); tauto.
Qed.
