(** Facts about sparse construction and buffer access. *)
From Coq Require Import List Arith Bool Lia.
Import ListNotations.
From Verif Require Import Base Shapes Scalar Buffers Vocab Index_facts Buffers_facts.

Section SubsetFacts.
Context {F : Type}.

Lemma list_nat_eqb_sym a b : list_nat_eqb a b = list_nat_eqb b a.
Proof.
  destruct (list_nat_eqb a b) eqn:E; symmetry.
  - apply list_nat_eqb_eq in E; subst; apply list_nat_eqb_refl.
  - destruct (list_nat_eqb b a) eqn:E'; auto.
    apply list_nat_eqb_eq in E'; subst; rewrite list_nat_eqb_refl in E; discriminate.
Qed.

Lemma arr_set_build ds (f : list nat -> F) ix x :
  in_box ds ix ->
  arr_set ix x (arr_build ds f) =
  Some (arr_build ds (fun jx => if list_nat_eqb ix jx then x else f jx)).
Proof.
  intro H; destruct (arr_set_spec ds (arr_build ds f) ix x (arr_build_wf _ _) H) as (a' & -> & W & G).
  f_equal; apply (arr_ext ds); auto using arr_build_wf.
  intros jx Hj; rewrite G, !arr_get_build by auto; destruct (list_nat_eqb ix jx); auto.
Qed.

Lemma list_set_build n (f : nat -> F) i x :
  i < n ->
  list_set i x (map f (seq 0 n)) = Some (map (fun j => if Nat.eqb i j then x else f j) (seq 0 n)).
Proof.
  intro H; destruct (list_set_spec _ i x (map f (seq 0 n))) as (l' & -> & L & G).
  { rewrite map_length, seq_length; auto. }
  f_equal; apply nth_error_ext; intro j; rewrite G.
  destruct (le_lt_dec n j) as [Hj|Hj].
  - assert (K : forall g : nat -> F, nth_error (map g (seq 0 n)) j = None)
      by (intro g; apply nth_error_None; rewrite map_length, seq_length; auto).
    rewrite !K; destruct (Nat.eqb i j) eqn:E; auto; apply Nat.eqb_eq in E; lia.
  - rewrite !nth_error_map_seq by auto; destruct (Nat.eqb i j); auto.
Qed.

Definition not_scalar (t : bty) : Prop := match t with TS => False | _ => True end.

Lemma subset_step_build (E : Type) t (f : list nat -> F) active ix :
  not_scalar t -> in_box (tdims_of t) ix ->
  @subset_step F E active (build t f) ix =
  Ok (build t (fun jx => if list_nat_eqb ix jx then active ix else f jx)).
Proof.
  destruct t as [| |n|ds]; unfold tdims_of; simpl; intros N H; try tauto.
  - apply in_box_cons in H; destruct H as (i & ix' & -> & Hi & H); apply in_box_nil in H; subst.
    destruct i as [|[|i]]; try lia; reflexivity.
  - apply in_box_cons in H; destruct H as (i & ix' & -> & Hi & H); apply in_box_nil in H; subst.
    rewrite list_set_build by auto; simpl; do 2 f_equal; apply map_ext; intro j.
    rewrite andb_true_r; reflexivity.
  - rewrite arr_set_build by auto; reflexivity.
Qed.

Definition mem_ix (ix : list nat) (l : list (list nat)) : bool := existsb (list_nat_eqb ix) l.

Lemma mem_ix_In ix l : mem_ix ix l = true <-> In ix l.
Proof.
  unfold mem_ix; rewrite existsb_exists; split.
  - intros (y & Hy & E); apply list_nat_eqb_eq in E; subst; auto.
  - intro H; exists ix; split; auto; apply list_nat_eqb_refl.
Qed.

Lemma subset_fold_build (E : Type) t active subset (f : list nat -> F) :
  not_scalar t -> (forall ix, In ix subset -> in_box (tdims_of t) ix) ->
  fold_left (fun acc ix => res_bind acc (fun buf => @subset_step F E active buf ix))
            subset (Ok (build t f)) =
  Ok (build t (fun ix => if mem_ix ix subset then active ix else f ix)).
Proof.
  intros N; revert f; induction subset as [|ix subset IH]; intros f H; simpl.
  - reflexivity.
  - rewrite subset_step_build by (auto; apply H; left; auto).
    rewrite IH by (intros; apply H; right; auto).
    f_equal; apply build_ext; intros jx _.
    rewrite (list_nat_eqb_sym jx ix).
    destruct (mem_ix jx subset) eqn:M; simpl.
    + rewrite orb_true_r; auto.
    + rewrite orb_false_r; destruct (list_nat_eqb ix jx) eqn:Q; auto.
      apply list_nat_eqb_eq in Q; subst; auto.
Qed.

Lemma build_subset_build (E : Type) t base subset (active : list nat -> F) :
  (forall ix, In ix subset -> in_box (tdims_of t) ix) ->
  @build_subset F E t base subset active =
  Ok (build t (fun ix => if mem_ix ix subset then active ix else base)).
Proof.
  intro H; destruct t as [| |n|ds].
  - unfold build_subset; destruct subset as [|ix subset]; simpl; auto.
    assert (K := H ix (or_introl eq_refl)); apply in_box_nil in K; subst; reflexivity.
  - unfold build_subset; rewrite full_build, subset_fold_build by (simpl; auto); reflexivity.
  - unfold build_subset; rewrite full_build, subset_fold_build by (simpl; auto); reflexivity.
  - unfold build_subset; rewrite full_build, subset_fold_build by (simpl; auto); reflexivity.
Qed.

(** An out-of-range index makes Vec and array buffers panic. *)
Lemma subset_fold_panic (E : Type) active subset :
  fold_left (fun acc ix => res_bind acc (fun buf => @subset_step F E active buf ix))
            subset Panic = Panic.
Proof. induction subset; simpl; auto. Qed.

Lemma list_set_out n (f : nat -> F) i x : n <= i -> list_set i x (map f (seq 0 n)) = None.
Proof. intro H; apply list_set_none; rewrite map_length, seq_length; auto. Qed.

Lemma subset_step_out (E : Type) t (f : list nat -> F) active ix :
  match t with TV _ | TA _ => True | _ => False end ->
  length ix = length (tdims_of t) -> ~ in_box (tdims_of t) ix ->
  @subset_step F E active (build t f) ix = Panic.
Proof.
  destruct t as [| |n|ds]; unfold tdims_of; simpl; intros N L H; try tauto.
  - destruct ix as [|i [|]]; try discriminate L.
    rewrite list_set_out; auto.
    destruct (le_lt_dec n i); auto; exfalso; apply H; apply in_box_cons'; split; auto; constructor.
  - rewrite (arr_set_none ds) by auto using arr_build_wf; reflexivity.
Qed.

Lemma in_box_dec ds ix : {in_box ds ix} + {~ in_box ds ix}.
Proof.
  destruct (in_boxb ds ix) eqn:E; [left | right; intro H];
    apply in_boxb_spec in E || apply in_boxb_spec in H; congruence.
Defined.

Lemma build_subset_panic (E : Type) t base subset (active : list nat -> F) ix :
  match t with TV _ | TA _ => True | _ => False end ->
  (forall jx, In jx subset -> length jx = length (tdims_of t)) ->
  In ix subset -> ~ in_box (tdims_of t) ix ->
  @build_subset F E t base subset active = Panic.
Proof.
  intros N L Hin Hout.
  assert (G : forall f, fold_left (fun acc ix => res_bind acc (fun buf => @subset_step F E active buf ix))
            subset (Ok (build t f)) = Panic).
  { revert L Hin; induction subset as [|jx subset IH]; intros L Hin f; [destruct Hin|].
    simpl; destruct (in_box_dec (tdims_of t) jx) as [B|B].
    - rewrite subset_step_build; [|destruct t; simpl in *; tauto|auto].
      apply IH; [intros; apply L; right; auto|].
      destruct Hin as [->|]; [contradiction|auto].
    - rewrite subset_step_out; auto; [apply subset_fold_panic | apply L; left; auto]. }
  unfold build_subset; destruct t; try tauto; rewrite full_build; apply G.
Qed.

End SubsetFacts.
