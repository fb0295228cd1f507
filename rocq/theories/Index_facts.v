(** Facts about index boxes and iproduct. *)
From Coq Require Import List Arith Bool Lia.
Import ListNotations.
From Verif Require Import Base Shapes Vocab.

Lemma in_box_nil ix : in_box [] ix <-> ix = [].
Proof. unfold in_box; split; intro H; [inversion H; auto | subst; constructor]. Qed.

Lemma in_box_cons d ds ix :
  in_box (d :: ds) ix <-> exists i ix', ix = i :: ix' /\ i < d /\ in_box ds ix'.
Proof.
  unfold in_box; split; intro H.
  - inversion H; subst; eauto.
  - destruct H as (i & ix' & -> & Hi & H'); constructor; auto.
Qed.

Lemma in_box_cons' d ds i ix : in_box (d :: ds) (i :: ix) <-> i < d /\ in_box ds ix.
Proof.
  rewrite in_box_cons; split.
  - intros (i' & ix' & E & Hi & H); inversion E; subst; auto.
  - intros [Hi H]; eauto.
Qed.

Lemma in_box_length ds ix : in_box ds ix -> length ix = length ds.
Proof. unfold in_box; intro H; induction H; simpl; auto. Qed.

Lemma in_box_app ds1 ds2 ix :
  in_box (ds1 ++ ds2) ix <->
  in_box ds1 (firstn (length ds1) ix) /\ in_box ds2 (skipn (length ds1) ix).
Proof.
  revert ix; induction ds1 as [|d ds1 IH]; intro ix; simpl.
  - split; [intro H; split; [constructor | auto] | intros [_ H]; auto].
  - destruct ix as [|i ix]; simpl.
    + split; [intro H; inversion H | intros [H _]; inversion H].
    + rewrite !in_box_cons', IH; tauto.
Qed.

Lemma in_box_app2 ds1 ds2 i1 i2 :
  in_box ds1 i1 -> in_box ds2 i2 -> in_box (ds1 ++ ds2) (i1 ++ i2).
Proof. unfold in_box; intros; apply Forall2_app; auto. Qed.

Definition in_boxb (ds ix : list nat) : bool :=
  Nat.eqb (length ix) (length ds) && forallb (fun p => fst p <? snd p) (combine ix ds).

Lemma in_boxb_spec ds ix : in_boxb ds ix = true <-> in_box ds ix.
Proof.
  unfold in_boxb; revert ix; induction ds as [|d ds IH]; intro ix; destruct ix as [|i ix]; simpl.
  - split; auto; constructor.
  - split; [discriminate | intro H; inversion H].
  - split; [discriminate | intro H; inversion H].
  - rewrite in_box_cons', <- IH, !andb_true_iff, Nat.ltb_lt; tauto.
Qed.

Lemma forallb_combine_box ds ix :
  length ix = length ds ->
  forallb (fun p => fst p <? snd p) (combine ix ds) = true <-> in_box ds ix.
Proof.
  intro L; rewrite <- in_boxb_spec; unfold in_boxb.
  apply Nat.eqb_eq in L; rewrite L; simpl; tauto.
Qed.

Lemma in_iproduct ds ix : In ix (iproduct ds) <-> in_box ds ix.
Proof.
  revert ix; induction ds as [|d ds IH]; intro ix; simpl.
  - rewrite in_box_nil; split; [intros [H|[]]; auto | auto].
  - rewrite in_flat_map, in_box_cons; split.
    + intros (i & Hi & H); apply in_map_iff in H; destruct H as (ix' & <- & H).
      apply in_seq in Hi; exists i, ix'; rewrite <- IH; split; [auto | split; [lia | auto]].
    + intros (i & ix' & -> & Hi & H); exists i; split; [apply in_seq; lia|].
      apply in_map; apply IH; auto.
Qed.

Lemma iproduct_length_in ds ix : In ix (iproduct ds) -> length ix = length ds.
Proof. rewrite in_iproduct; apply in_box_length. Qed.

Lemma NoDup_flat_map_seq (A : Type) (f : nat -> list A) s d :
  (forall i, NoDup (f i)) ->
  (forall i j x, In x (f i) -> In x (f j) -> i = j) ->
  NoDup (flat_map f (seq s d)).
Proof.
  intros Hn Hd; revert s; induction d as [|d IH]; intro s; simpl; [constructor|].
  assert (App : forall l1 l2 : list A, NoDup l1 -> NoDup l2 ->
             (forall x, In x l1 -> ~ In x l2) -> NoDup (l1 ++ l2)).
  { induction l1 as [|x l1 IHl]; intros l2 H1 H2 H; simpl; auto.
    inversion H1; subst; constructor.
    - rewrite in_app_iff; intros [K|K]; [auto | apply (H x); simpl; auto].
    - apply IHl; auto; intros y Hy; apply H; simpl; auto. }
  apply App; auto.
  intros x Hx Hx'; apply in_flat_map in Hx'; destruct Hx' as (j & Hj & Hx').
  apply in_seq in Hj; specialize (Hd _ _ _ Hx Hx'); lia.
Qed.

Lemma iproduct_NoDup ds : NoDup (iproduct ds).
Proof.
  induction ds as [|d ds IH]; simpl; [repeat constructor; auto|].
  apply NoDup_flat_map_seq.
  - intro i; clear - IH; induction (iproduct ds) as [|x l IHl]; simpl; [constructor|].
    inversion IH; subst; constructor; auto.
    rewrite in_map_iff; intros (y & E & H); inversion E; subst; auto.
  - intros i j x Hi Hj; apply in_map_iff in Hi, Hj.
    destruct Hi as (a & <- & _), Hj as (b & E & _); inversion E; auto.
Qed.

Lemma product_cons_acc ds a : fold_left Nat.mul ds a = a * product ds.
Proof.
  unfold product; revert a; induction ds as [|d ds IH]; intro a; simpl; [lia|].
  rewrite IH, (IH (d + 0)); lia.
Qed.

Lemma product_cons d ds : product (d :: ds) = d * product ds.
Proof. unfold product; simpl; rewrite product_cons_acc, Nat.add_0_r; reflexivity. Qed.

Lemma product_app a b : product (a ++ b) = product a * product b.
Proof.
  induction a as [|x a IH]; simpl app; [cbn; lia|].
  rewrite !product_cons, IH; lia.
Qed.

Lemma iproduct_length ds : length (iproduct ds) = product ds.
Proof.
  induction ds as [|d ds IH]; [reflexivity|].
  rewrite product_cons; simpl.
  generalize 0 at 1; induction d as [|d IHd]; intro s; simpl; [reflexivity|].
  rewrite app_length, map_length, IH, IHd; lia.
Qed.

Lemma st_indices_iproduct ds : st_indices ds = iproduct ds.
Proof.
  destruct ds as [|a [|b ds]]; reflexivity.
Qed.

Lemma st_cardinality_product ds : shape_cardinality (St ds) = product ds.
Proof. destruct ds as [|a [|b ds]]; try reflexivity; rewrite product_cons; cbn; lia. Qed.

Lemma dims_eqb_eq a b : dims_eqb a b = true <-> a = b.
Proof.
  revert b; induction a as [|x a IH]; destruct b as [|y b]; simpl; split; try discriminate; auto.
  - rewrite andb_true_iff, Nat.eqb_eq, IH; intros [-> ->]; auto.
  - intro H; inversion H; subst; rewrite andb_true_iff, Nat.eqb_eq, IH; auto.
Qed.

Lemma dims_eqb_refl a : dims_eqb a a = true.
Proof. apply dims_eqb_eq; reflexivity. Qed.

Lemma dims_eqb_neq a b : dims_eqb a b = false <-> a <> b.
Proof.
  destruct (dims_eqb a b) eqn:E.
  - apply dims_eqb_eq in E; subst; split; congruence.
  - split; auto; intros _ H; apply dims_eqb_eq in H; congruence.
Qed.

Lemma is_diagonal_spec ix :
  is_diagonal ix = true <-> (forall i j, In i ix -> In j ix -> i = j).
Proof.
  destruct ix as [|i ix]; simpl; [split; auto; intros _ i j []|].
  rewrite forallb_forall; split.
  - intros H a b [Ha|Ha] [Hb|Hb]; subst; auto.
    + specialize (H _ Hb); apply Nat.eqb_eq; auto.
    + specialize (H _ Ha); apply Nat.eqb_eq in H; auto.
    + pose proof (H _ Ha) as H1; pose proof (H _ Hb) as H2.
      apply Nat.eqb_eq in H1, H2; congruence.
  - intros H x Hx; apply Nat.eqb_eq; apply H; auto.
Qed.
