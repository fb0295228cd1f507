(** Facts about buffers: every well-formed buffer is a [build], and each buffer operation on
    builds is a pointwise operation. *)
From Coq Require Import List Arith Bool Lia.
Import ListNotations.
From Verif Require Import Base Shapes Scalar Buffers Vocab Index_facts.

Section ArrInd.
  Variable F : Type.
  Variable P : arr F -> Prop.
  Hypothesis HF : forall x, P (AF x).
  Hypothesis HN : forall l, Forall P l -> P (AN l).
  Fixpoint arr_ind2 (a : arr F) : P a :=
    match a with
    | AF x => HF x
    | AN l => HN l ((fix go (l : list (arr F)) : Forall P l :=
                       match l with
                       | [] => Forall_nil P
                       | x :: l' => Forall_cons x (arr_ind2 x) (go l')
                       end) l)
    end.
End ArrInd.

Section Facts.
Context {F : Type}.

Lemma nth_error_ext (A : Type) (l m : list A) :
  (forall i, nth_error l i = nth_error m i) -> l = m.
Proof.
  revert m; induction l as [|x l IH]; intros [|y m] H; auto.
  - specialize (H 0); discriminate.
  - specialize (H 0); discriminate.
  - f_equal; [specialize (H 0); simpl in H; congruence|].
    apply IH; intro i; apply (H (S i)).
Qed.

Lemma map_seq_ext (A : Type) (f g : nat -> A) s n :
  (forall i, s <= i < s + n -> f i = g i) -> map f (seq s n) = map g (seq s n).
Proof. intro H; apply map_ext_in; intros a Ha; apply in_seq in Ha; apply H; lia. Qed.

Lemma nth_error_map_seq (A : Type) (f : nat -> A) n i :
  i < n -> nth_error (map f (seq 0 n)) i = Some (f i).
Proof.
  intro H; rewrite nth_error_map.
  rewrite (nth_error_nth' _ 0) by (rewrite seq_length; auto).
  simpl; rewrite seq_nth by auto; reflexivity.
Qed.

Lemma list_eta (A : Type) (d : A) (l : list A) : map (fun i => nth i l d) (seq 0 (length l)) = l.
Proof.
  apply (nth_ext _ _ d d); rewrite map_length, seq_length; auto.
  intros n Hn; rewrite (nth_indep _ d (nth 0 l d)) by (rewrite map_length, seq_length; auto).
  change (nth 0 l d) with ((fun i => nth i l d) 0).
  rewrite map_nth, seq_nth; auto.
Qed.

Lemma repeat_map_seq (A : Type) (x : A) n : repeat x n = map (fun _ => x) (seq 0 n).
Proof. generalize 0; induction n as [|n IH]; intro s; simpl; [reflexivity|]; f_equal; apply IH. Qed.

Lemma Forall_map_seq (A : Type) (P : A -> Prop) (f : nat -> A) n :
  (forall i, i < n -> P (f i)) -> Forall P (map f (seq 0 n)).
Proof.
  intro H; apply Forall_forall; intros x Hx; apply in_map_iff in Hx.
  destruct Hx as (i & <- & Hi); apply in_seq in Hi; apply H; lia.
Qed.

Lemma arr_build_wf ds (f : list nat -> F) : arr_wf ds (arr_build ds f).
Proof.
  revert f; induction ds as [|d ds IH]; intro f; simpl; auto.
  rewrite map_length, seq_length; split; auto.
  apply Forall_map_seq; auto.
Qed.

Lemma arr_build_ext ds (f g : list nat -> F) :
  (forall ix, in_box ds ix -> f ix = g ix) -> arr_build ds f = arr_build ds g.
Proof.
  revert f g; induction ds as [|d ds IH]; intros f g H; simpl.
  - rewrite H; [auto | constructor].
  - f_equal; apply map_seq_ext; intros i Hi; apply IH; intros ix Hix.
    apply H; apply in_box_cons'; split; auto; lia.
Qed.

Lemma arr_get_build ds (f : list nat -> F) ix :
  in_box ds ix -> arr_get ix (arr_build ds f) = Some (f ix).
Proof.
  revert f ix; induction ds as [|d ds IH]; intros f ix H; simpl.
  - apply in_box_nil in H; subst; reflexivity.
  - apply in_box_cons in H; destruct H as (i & ix' & -> & Hi & H); simpl.
    rewrite nth_error_map_seq by auto; rewrite IH; auto.
Qed.

Lemma arr_get_wf ds (a : arr F) ix : arr_wf ds a -> in_box ds ix -> exists x, arr_get ix a = Some x.
Proof.
  revert a ix; induction ds as [|d ds IH]; intros a ix W H; destruct a as [x|l]; simpl in W; try tauto.
  - apply in_box_nil in H; subst; simpl; eauto.
  - destruct W as [L W]; apply in_box_cons in H; destruct H as (i & ix' & -> & Hi & H); simpl.
    destruct (nth_error l i) as [a'|] eqn:E.
    + apply IH; auto; rewrite Forall_forall in W; apply W; eapply nth_error_In; eauto.
    + apply nth_error_None in E; lia.
Qed.

Lemma arr_get_out ds (a : arr F) ix :
  arr_wf ds a -> ~ in_box ds ix -> arr_get ix a = None.
Proof.
  revert a ix; induction ds as [|d ds IH]; intros a ix W H; destruct a as [x|l]; simpl in W; try tauto.
  - destruct ix; simpl; auto; exfalso; apply H; constructor.
  - destruct W as [L W]; destruct ix as [|i ix']; simpl; auto.
    destruct (nth_error l i) as [a'|] eqn:E; auto.
    apply IH.
    + rewrite Forall_forall in W; apply W; eapply nth_error_In; eauto.
    + intro K; apply H; apply in_box_cons'; split; auto.
      rewrite <- L; apply nth_error_Some; congruence.
Qed.

Lemma arr_ext ds (a b : arr F) :
  arr_wf ds a -> arr_wf ds b ->
  (forall ix, in_box ds ix -> arr_get ix a = arr_get ix b) -> a = b.
Proof.
  revert a b; induction ds as [|d ds IH]; intros a b Wa Wb H;
    destruct a as [x|l], b as [y|m]; simpl in *; try tauto.
  - assert (K : Some x = Some y) by (apply (H []); constructor); congruence.
  - destruct Wa as [La Wa], Wb as [Lb Wb]; f_equal.
    apply nth_error_ext; intro i.
    destruct (nth_error l i) as [a|] eqn:Ea.
    + assert (Hi : i < d) by (rewrite <- La; apply nth_error_Some; congruence).
      destruct (nth_error m i) as [b|] eqn:Eb.
      * f_equal; apply IH.
        -- rewrite Forall_forall in Wa; apply Wa; eapply nth_error_In; eauto.
        -- rewrite Forall_forall in Wb; apply Wb; eapply nth_error_In; eauto.
        -- intros ix Hix; specialize (H (i :: ix)); simpl in H; rewrite Ea, Eb in H.
           apply H; apply in_box_cons'; auto.
      * apply nth_error_None in Eb; lia.
    + apply nth_error_None in Ea.
      symmetry; apply nth_error_None; lia.
Qed.

Lemma arr_eta d ds (a : arr F) :
  arr_wf ds a -> a = arr_build ds (fun ix => match arr_get ix a with Some x => x | None => d end).
Proof.
  intro W; apply (arr_ext ds); auto using arr_build_wf.
  intros ix H; rewrite arr_get_build by auto.
  destruct (arr_get_wf _ _ _ W H) as [x ->]; reflexivity.
Qed.

Lemma arr_full_build ds (x : F) : arr_full ds x = arr_build ds (fun _ => x).
Proof.
  induction ds as [|d ds IH]; simpl; auto.
  rewrite IH, repeat_map_seq; reflexivity.
Qed.

Lemma arr_map_build (B : Type) (g : F -> B) ds f :
  arr_map g (arr_build ds f) = arr_build ds (fun ix => g (f ix)).
Proof.
  revert f; induction ds as [|d ds IH]; intro f; simpl; auto.
  rewrite map_map; f_equal; apply map_ext; intro i; apply IH.
Qed.

Lemma arr_zip_build (B C : Type) (g : F -> B -> C) ds f h :
  arr_zip g (arr_build ds f) (arr_build ds h) = arr_build ds (fun ix => g (f ix) (h ix)).
Proof.
  revert f h; induction ds as [|d ds IH]; intros f h; simpl; auto.
  f_equal; generalize 0; induction d as [|d IHd]; intro s; simpl; auto.
  rewrite IH; f_equal; apply IHd.
Qed.

Lemma fold_left_map (A B C : Type) (f : A -> B -> A) (g : C -> B) l a :
  fold_left f (map g l) a = fold_left (fun acc x => f acc (g x)) l a.
Proof. revert a; induction l as [|x l IH]; intro a; simpl; auto. Qed.

Lemma fold_left_flat_map (A B C : Type) (f : A -> B -> A) (g : C -> list B) l a :
  fold_left f (flat_map g l) a = fold_left (fun acc x => fold_left f (g x) acc) l a.
Proof. revert a; induction l as [|x l IH]; intro a; simpl; auto. rewrite fold_left_app; auto. Qed.

Lemma fold_left_ext_in (A B : Type) (f g : A -> B -> A) l a :
  (forall acc x, In x l -> f acc x = g acc x) -> fold_left f l a = fold_left g l a.
Proof.
  revert a; induction l as [|x l IH]; intros a H; simpl; auto.
  rewrite H by (simpl; auto); apply IH; intros; apply H; simpl; auto.
Qed.

Lemma arr_fold_build (A : Type) (g : A -> F -> A) ds f init :
  arr_fold g init (arr_build ds f) = fold_left (fun acc ix => g acc (f ix)) (iproduct ds) init.
Proof.
  revert f init; induction ds as [|d ds IH]; intros f init; simpl; auto.
  rewrite fold_left_map, fold_left_flat_map.
  apply fold_left_ext_in; intros acc i _; rewrite IH, fold_left_map; reflexivity.
Qed.

Lemma list_set_spec (A : Type) i (x : A) l :
  i < length l ->
  exists l', list_set i x l = Some l' /\ length l' = length l /\
             forall j, nth_error l' j = if Nat.eqb i j then Some x else nth_error l j.
Proof.
  revert i; induction l as [|y l IH]; intros i H; simpl in H; [lia|].
  destruct i as [|i]; simpl.
  - eexists; split; [reflexivity|]; split; auto; intros [|j]; reflexivity.
  - destruct (IH i) as (l' & -> & L & N); [lia|].
    eexists; split; [reflexivity|]; split; [simpl; lia|].
    intros [|j]; simpl; auto.
Qed.

Lemma list_set_none (A : Type) i (x : A) l : length l <= i -> list_set i x l = None.
Proof.
  revert i; induction l as [|y l IH]; intros [|i] H; simpl in *; auto; try lia.
  rewrite IH; auto; lia.
Qed.

Fixpoint list_nat_eqb (a b : list nat) : bool :=
  match a, b with
  | [], [] => true
  | x :: a', y :: b' => Nat.eqb x y && list_nat_eqb a' b'
  | _, _ => false
  end.

Lemma list_nat_eqb_eq a b : list_nat_eqb a b = true <-> a = b.
Proof.
  revert b; induction a as [|x a IH]; destruct b as [|y b]; simpl; split; try discriminate; auto.
  - rewrite andb_true_iff, Nat.eqb_eq, IH; intros [-> ->]; auto.
  - intro H; inversion H; subst; rewrite andb_true_iff, Nat.eqb_eq, IH; auto.
Qed.

Lemma list_nat_eqb_refl a : list_nat_eqb a a = true.
Proof. apply list_nat_eqb_eq; auto. Qed.

Lemma arr_set_spec ds (a : arr F) ix x :
  arr_wf ds a -> in_box ds ix ->
  exists a', arr_set ix x a = Some a' /\ arr_wf ds a' /\
             forall jx, in_box ds jx ->
               arr_get jx a' = if list_nat_eqb ix jx then Some x else arr_get jx a.
Proof.
  revert a ix; induction ds as [|d ds IH]; intros a ix W H; destruct a as [y|l]; simpl in W; try tauto.
  - apply in_box_nil in H; subst; simpl; eexists; split; [reflexivity|]; split; [exact I|].
    intros jx Hj; apply in_box_nil in Hj; subst; reflexivity.
  - destruct W as [L W]; apply in_box_cons in H; destruct H as (i & ix' & -> & Hi & H); simpl.
    destruct (nth_error l i) as [a|] eqn:E; [|apply nth_error_None in E; lia].
    assert (Wa : arr_wf ds a).
    { rewrite Forall_forall in W; apply W; eapply nth_error_In; eauto. }
    destruct (IH a ix' Wa H) as (a' & -> & Wa' & G).
    destruct (list_set_spec _ i a' l) as (l' & -> & L' & N); [lia|].
    eexists; split; [reflexivity|]; simpl; split.
    + split; [lia|]; rewrite Forall_forall in *; intros b Hb.
      apply In_nth_error in Hb; destruct Hb as [j Hj]; rewrite N in Hj.
      destruct (Nat.eqb i j); [congruence | apply W; eapply nth_error_In; eauto].
    + intros jx Hj; apply in_box_cons in Hj; destruct Hj as (j & jx' & -> & Hlt & Hj); simpl.
      rewrite N; destruct (Nat.eqb_spec i j) as [->|]; simpl; auto.
      rewrite E; apply G; auto.
Qed.

Lemma arr_set_none ds (a : arr F) ix x :
  arr_wf ds a -> ~ in_box ds ix -> arr_set ix x a = None.
Proof.
  revert a ix; induction ds as [|d ds IH]; intros a ix W H; destruct a as [y|l]; simpl in W; try tauto.
  - destruct ix; simpl; auto; exfalso; apply H; constructor.
  - destruct W as [L W]; destruct ix as [|i ix']; simpl; auto.
    destruct (nth_error l i) as [a'|] eqn:E; auto.
    rewrite IH; auto.
    + rewrite Forall_forall in W; apply W; eapply nth_error_In; eauto.
    + intro K; apply H; apply in_box_cons'; split; auto.
      rewrite <- L; apply nth_error_Some; congruence.
Qed.

(** * Buffers *)
Lemma build_bty t (f : list nat -> F) : bty_of (build t f) = t.
Proof. destruct t; simpl; auto. rewrite map_length, seq_length; auto. Qed.

Lemma build_wf t (f : list nat -> F) : bty_wf t -> vwf (build t f).
Proof. destruct t; simpl; auto using arr_build_wf. Qed.

Lemma vwf_bty (v : value F) : vwf v -> bty_wf (bty_of v).
Proof. destruct v; simpl; tauto. Qed.


Lemma build_ext t (f g : list nat -> F) :
  (forall ix, in_box (tdims_of t) ix -> f ix = g ix) -> build t f = build t g.
Proof.
  destruct t; unfold tdims_of; simpl; intro H.
  - rewrite H; [auto | constructor].
  - rewrite !H; auto; repeat constructor.
  - f_equal; apply map_seq_ext; intros i Hi; apply H; repeat constructor; lia.
  - f_equal; apply arr_build_ext; auto.
Qed.

Lemma vat_build d t (f : list nat -> F) ix :
  in_box (tdims_of t) ix -> vat d (build t f) ix = f ix.
Proof.
  destruct t; unfold tdims_of; simpl; intro H.
  - apply in_box_nil in H; subst; auto.
  - apply in_box_cons in H; destruct H as (i & ix' & -> & Hi & H); apply in_box_nil in H; subst.
    destruct i as [|[|i]]; auto; lia.
  - apply in_box_cons in H; destruct H as (i & ix' & -> & Hi & H); apply in_box_nil in H; subst.
    rewrite (nth_indep _ d ((fun i => f [i]) 0)) by (rewrite map_length, seq_length; auto).
    rewrite (map_nth (fun i => f [i])), seq_nth; auto.
  - rewrite arr_get_build by auto; reflexivity.
Qed.

Lemma value_eta d (v : value F) : vwf v -> v = build (bty_of v) (vat d v).
Proof.
  destruct v; simpl; intro W; auto.
  - f_equal; symmetry; apply list_eta.
  - f_equal; apply arr_eta; tauto.
Qed.

Lemma value_ext d (v w : value F) :
  vwf v -> vwf w -> bty_of v = bty_of w ->
  (forall ix, in_box (tdims_of (bty_of v)) ix -> vat d v ix = vat d w ix) -> v = w.
Proof.
  intros Wv Ww E H; rewrite (value_eta d v Wv), (value_eta d w Ww), <- E.
  apply build_ext; auto.
Qed.

Lemma full_build t (x : F) : full t x = build t (fun _ => x).
Proof.
  destruct t; simpl; auto.
  - f_equal; apply repeat_map_seq.
  - f_equal; apply arr_full_build.
Qed.

Lemma full_bty t (x : F) : bty_of (full t x) = t.
Proof. rewrite full_build; apply build_bty. Qed.

Lemma full_wf t (x : F) : bty_wf t -> vwf (full t x).
Proof. rewrite full_build; apply build_wf. Qed.

Lemma vmap_build (B : Type) (g : F -> B) t f :
  vmap g (build t f) = build t (fun ix => g (f ix)).
Proof. destruct t; simpl; auto. rewrite map_map; auto. rewrite arr_map_build; auto. Qed.

Lemma firstn_length_app (A : Type) (a b : list A) : firstn (length a) (a ++ b) = a.
Proof. rewrite firstn_app, Nat.sub_diag, firstn_all; simpl; apply app_nil_r. Qed.

Lemma skipn_length_app (A : Type) (a b : list A) : skipn (length a) (a ++ b) = b.
Proof. rewrite skipn_app, Nat.sub_diag, skipn_all; reflexivity. Qed.

Lemma mutate_from_spec (g : F -> F) n i l :
  i + n = length l ->
  mutate_from g i n l = Some (firstn i l ++ map g (skipn i l)).
Proof.
  revert i l; induction n as [|n IH]; intros i l H; simpl.
  - rewrite firstn_all2, skipn_all2 by lia; simpl; rewrite app_nil_r; auto.
  - destruct (nth_error l i) as [x|] eqn:E; [|apply nth_error_None in E; lia].
    destruct (list_set_spec _ i (g x) l) as (l' & -> & L & N); [lia|].
    rewrite IH by lia; f_equal.
    apply nth_error_split in E; destruct E as (l1 & l2 & -> & E1).
    assert (l' = l1 ++ g x :: l2).
    { apply nth_error_ext; intro j; rewrite N.
      destruct (Nat.eqb_spec i j).
      - subst; rewrite nth_error_app2, Nat.sub_diag by lia; reflexivity.
      - destruct (Nat.lt_ge_cases j i).
        + rewrite !nth_error_app1 by lia; auto.
        + rewrite !nth_error_app2 by lia.
          destruct (j - length l1) as [|k] eqn:K; [lia | reflexivity]. }
    subst l' i.
    rewrite firstn_length_app, skipn_length_app.
    replace (l1 ++ g x :: l2) with ((l1 ++ [g x]) ++ l2) by (rewrite <- app_assoc; reflexivity).
    replace (S (length l1)) with (length (l1 ++ [g x])) by (rewrite app_length; simpl; lia).
    rewrite firstn_length_app, skipn_length_app, <- app_assoc; reflexivity.
Qed.

Lemma mutate_from_map (g : F -> F) l : mutate_from g 0 (length l) l = Some (map g l).
Proof. rewrite mutate_from_spec by lia; reflexivity. Qed.

Lemma vmutate_vmap (g : F -> F) v : vmutate g v = vmap g v.
Proof. destruct v; simpl; auto. rewrite mutate_from_map; auto. Qed.

Lemma vmap_ref_vmap (B : Type) (g : F -> B) v : vmap_ref g v = vmap g v.
Proof. destruct v; reflexivity. Qed.

Lemma vmap_bty (B : Type) (g : F -> B) v : bty_of (vmap g v) = bty_of v.
Proof. destruct v; simpl; auto. rewrite map_length; auto. Qed.

Lemma arr_map_wf (B : Type) (g : F -> B) ds a : arr_wf ds a -> arr_wf ds (arr_map g a).
Proof.
  revert ds; induction a as [x|l IH] using arr_ind2; intros ds; destruct ds; simpl; auto.
  intros [L W]; rewrite map_length; split; auto.
  rewrite Forall_forall in *; intros y Hy; apply in_map_iff in Hy; destruct Hy as (x & <- & Hx).
  apply IH; auto.
Qed.

Lemma vmap_wf (B : Type) (g : F -> B) v : vwf v -> vwf (vmap g v).
Proof. destruct v; simpl; auto. intros [W L]; split; auto using arr_map_wf. Qed.

Lemma vfold_build (A : Type) (g : A -> F -> A) t f init :
  vfold g init (build t f) =
  fold_left (fun acc ix => g acc (f ix)) (iproduct (tdims_of t)) init.
Proof.
  destruct t; unfold tdims_of; simpl; auto.
  - rewrite fold_left_map, fold_left_flat_map; reflexivity.
  - apply arr_fold_build.
Qed.

Lemma fold_zip_loop (A E : Type) (f : A -> F * F -> A) gl gr hl hr ixs init :
  (forall ix, In ix ixs -> gl ix = Ok (hl ix)) ->
  (forall ix, In ix ixs -> gr ix = Ok (hr ix)) ->
  @zip_fold_loop A F E f gl gr ixs init =
  Ok (fold_left (fun acc ix => f acc (hl ix, hr ix)) ixs init).
Proof.
  unfold zip_fold_loop; revert init; induction ixs as [|ix ixs IH]; intros init Hl Hr; simpl; auto.
  rewrite Hl, Hr by (simpl; auto); simpl; apply IH; intros; [apply Hl | apply Hr]; simpl; auto.
Qed.

Lemma get_unchecked_build E t (f : list nat -> F) ix :
  in_box (tdims_of t) ix -> @get_unchecked F E (build t f) ix = Ok (f ix).
Proof.
  destruct t; unfold tdims_of; simpl; intro H.
  - apply in_box_nil in H; subst; auto.
  - apply in_box_cons in H; destruct H as (i & ix' & -> & Hi & H); apply in_box_nil in H; subst.
    destruct i as [|[|i]]; auto; lia.
  - apply in_box_cons in H; destruct H as (i & ix' & -> & Hi & H); apply in_box_nil in H; subst.
    rewrite nth_error_map_seq; auto.
  - rewrite arr_get_build by auto; reflexivity.
Qed.

(** The (class-aware) broadcast of two buffer types. *)
Lemma bcast_bty_wf l r t : bcast_bty l r = Ok t -> bty_wf t.
Proof.
  unfold bcast_bty; destruct (zip_cls _ _) as [c|]; [|discriminate].
  destruct (broadcast _ _) as [s| | |]; simpl; try discriminate.
  destruct (mk_bty c s) as [t'|] eqn:E; [|discriminate].
  intro H; inversion H; subst; clear H.
  unfold mk_bty in E; destruct c, s as [ds|ds]; cbv beta iota in E; try discriminate.
  - destruct ds; inversion E; simpl; auto.
  - destruct ds as [|n [|]]; try discriminate; destruct (Nat.eqb n 2); inversion E; simpl; auto.
  - destruct ds as [|n [|]]; inversion E; simpl; auto.
  - destruct ((1 <=? length ds) && (length ds <=? 5)) eqn:L; inversion E; subst; simpl.
    apply andb_true_iff in L; destruct L as [L1 L2]; apply Nat.leb_le in L1, L2; lia.
Qed.

Lemma rank_test (ds : list nat) : 1 <= length ds <= 5 -> (1 <=? length ds) && (length ds <=? 5) = true.
Proof. intro H; rewrite andb_true_iff, !Nat.leb_le; exact H. Qed.

Lemma bcast_bty_table l r :
  bty_wf l -> bty_wf r ->
  bcast_bty l r =
  match l, r with
  | TS, TT | TT, TS => Stuck
  | TS, t => Ok t
  | t, TS => Ok t
  | TT, TT => Ok TT
  | TV n, TV m => if Nat.eqb n m then Ok (TV n) else Err (Incompat (Dy [n]) (Dy [m]))
  | TA a, TA b => if dims_eqb a b then Ok (TA a) else Stuck
  | _, _ => Stuck
  end.
Proof.
  intros Wl Wr; destruct l as [| |n|a], r as [| |m|b]; unfold bcast_bty;
    cbn [bty_cls bty_shape zip_cls]; simpl in Wl, Wr; try reflexivity.
  - destruct b as [|x b]; [simpl in Wr; lia|].
    cbn [broadcast res_bind mk_bty]; rewrite rank_test; auto.
  - cbn; rewrite andb_true_r; destruct (Nat.eqb n m); reflexivity.
  - destruct a as [|x a]; [simpl in Wl; lia|].
    cbn [broadcast res_bind mk_bty]; rewrite rank_test; auto.
  - destruct a as [|x a]; [simpl in Wl; lia|]; destruct b as [|y b]; [simpl in Wr; lia|].
    cbn [broadcast]; destruct (dims_eqb (x :: a) (y :: b)) eqn:E; auto.
    cbn [res_bind mk_bty]; rewrite rank_test; auto.
Qed.

(** Index used on an operand: scalars are read at the empty index. *)
Definition pick (t : bty) (ix : list nat) : list nat :=
  match t with TS => [] | _ => ix end.

(** Scalar on the left of an array of rank at least 2. *)
Definition swapped (l r : bty) : bool :=
  match l, r with TS, TA ds => 2 <=? length ds | _, _ => false end.

End Facts.

Section Facts2.
Context {F : Type}.

Lemma arr_zip_field_l_build (B : Type) (g : F -> F -> B) x ds f :
  arr_zip_field_l g x ds (arr_build ds f) =
  arr_build ds (fun ix => if Nat.eqb (length ds) 1 then g x (f ix) else g (f ix) x).
Proof.
  destruct ds as [|d [|d' ds]].
  - reflexivity.
  - unfold arr_zip_field_l; rewrite arr_map_build; reflexivity.
  - unfold arr_zip_field_l.
    change (arr_build (d :: d' :: ds) f)
      with (AN (map (fun i => arr_build (d' :: ds) (fun ix => f (i :: ix))) (seq 0 d))).
    cbv iota beta; rewrite map_map; cbn [length Nat.eqb].
    change (arr_build (d :: d' :: ds) (fun ix => g (f ix) x))
      with (AN (map (fun i => arr_build (d' :: ds) (fun ix => g (f (i :: ix)) x)) (seq 0 d))).
    f_equal; apply map_ext; intro i.
    unfold arr_zip_field_r; rewrite arr_map_build; reflexivity.
Qed.

Lemma combine_map_seq (A B : Type) (f : nat -> A) (g : nat -> B) s n :
  combine (map f (seq s n)) (map g (seq s n)) = map (fun i => (f i, g i)) (seq s n).
Proof. revert s; induction n as [|n IH]; intro s; simpl; [reflexivity|]; f_equal; auto. Qed.

(** [zip_map] of two builds. *)
Lemma zip_map_build (B : Type) (g : F -> F -> B) l r f h :
  bty_wf l -> bty_wf r ->
  zip_map g (build l f) (build r h) =
  match bcast_bty l r with
  | Ok t => Ok (build t (fun ix =>
              if swapped l r then g (h (pick r ix)) (f (pick l ix))
              else g (f (pick l ix)) (h (pick r ix))))
  | Err e => Err e
  | Panic => Panic
  | Stuck => Stuck
  end.
Proof.
  intros Wl Wr; rewrite bcast_bty_table by auto.
  destruct l as [| |n|a], r as [| |m|b]; simpl; auto.
  - rewrite map_map; auto.
  - rewrite arr_zip_field_l_build; simpl in Wr; do 2 f_equal.
    apply arr_build_ext; intros ix _.
    destruct b as [|x [|y b]]; simpl in *; auto; lia.
  - rewrite map_map; auto.
  - rewrite !map_length, !seq_length, andb_true_r.
    destruct (Nat.eqb_spec n m).
    + subst; rewrite combine_map_seq, map_map; reflexivity.
    + unfold vshape; simpl; rewrite !map_length, !seq_length; reflexivity.
  - unfold arr_zip_field_r; rewrite arr_map_build; auto.
  - destruct (dims_eqb a b) eqn:E; auto.
    apply dims_eqb_eq in E; subst; rewrite arr_zip_build; auto.
Qed.

Lemma zip_map_id_eq (g : F -> F -> F) l r : zip_map_id g l r = zip_map g l r.
Proof. destruct l, r; reflexivity. Qed.

Lemma zip_shape_build l r (f : list nat -> F) :
  bty_wf l -> bty_wf r ->
  zip_shape (build l f) r =
  match bcast_bty l r with
  | Ok t => Ok (build t (fun ix => f (pick l ix)))
  | Err e => Err e
  | Panic => Panic
  | Stuck => Stuck
  end.
Proof.
  intros Wl Wr; rewrite bcast_bty_table by auto.
  destruct l as [| |n|a], r as [| |m|b]; simpl; auto.
  - rewrite repeat_map_seq; auto.
  - rewrite arr_full_build; auto.
  - rewrite map_length, seq_length, andb_true_r.
    destruct (Nat.eqb_spec n m).
    + subst; reflexivity.
    + unfold vshape; simpl; rewrite map_length, seq_length; reflexivity.
  - destruct (dims_eqb a b) eqn:E; auto.
Qed.

End Facts2.
