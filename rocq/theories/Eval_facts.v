(** Facts about evaluation that need no law of the scalar type. *)
From Coq Require Import List Arith Bool Lia.
Import ListNotations.
From Verif Require Import Base Shapes Scalar Buffers Spec Contraction Node Eval Vocab
  Index_facts Buffers_facts Spec_facts.

Section EvalFacts.
Context {F : Type} {SF : Scalar F}.

Lemma ident_eqb_eq a b : ident_eqb a b = true <-> a = b.
Proof. apply Nat.eqb_eq. Qed.
Lemma ident_eqb_refl a : ident_eqb a a = true.
Proof. apply Nat.eqb_refl. Qed.

(** ** Lifted and plain evaluation *)

Lemma unary_post u (s : spec F) : unwrap (un_spec_post u s) = vmutate (un_fn u) (unwrap s).
Proof.
  destruct s; simpl; auto.
  rewrite vmutate_vmap, !full_build, vmap_build; reflexivity.
Qed.

Lemma res_map_map (E A B C : Type) (f : A -> B) (g : B -> C) (r : res E A) :
  res_map g (res_map f r) = res_map (fun x => g (f x)) r.
Proof. destruct r; reflexivity. Qed.

Lemma res_map_ext (E A B : Type) (f g : A -> B) (r : res E A) :
  (forall x, f x = g x) -> res_map f r = res_map g r.
Proof. intro H; destruct r; simpl; congruence. Qed.

Lemma res_map_id (E A : Type) (r : res E A) : res_map (fun x => x) r = r.
Proof. destruct r; reflexivity. Qed.

Definition agrees (n : node F) : Prop :=
  forall c, evaluate n c = (fst (evaluate_spec n c), res_map unwrap (snd (evaluate_spec n c))).

Lemma eval_by_spec_agrees sp (c : ctx F) :
  eval_by_spec sp c = (fst (sp c), res_map unwrap (snd (sp c))).
Proof. unfold eval_by_spec; destruct (sp c); reflexivity. Qed.

Lemma default_spec_agrees ev (c : ctx F) :
  ev c = (fst (default_spec ev c), res_map unwrap (snd (default_spec ev c))).
Proof.
  unfold default_spec; destruct (ev c) as [c' r]; simpl.
  rewrite res_map_map; simpl; rewrite res_map_id; reflexivity.
Qed.

Lemma sum_spine_agrees n : sum_spine n = false -> agrees n.
Proof.
  induction n; intros H c; try discriminate; unfold evaluate, evaluate_spec; simpl;
    try apply eval_by_spec_agrees; try apply (default_spec_agrees (cached_eval _ _));
    try apply (default_spec_agrees (both_eval _ _ _)).
  - (* Var *) unfold read, read_spec; destruct (c i); reflexivity.
  - (* Un *)
    specialize (IHn H c); unfold evaluate, evaluate_spec in IHn.
    rewrite IHn; destruct (f_spec (interp n) c) as [c' r]; simpl.
    rewrite !res_map_map; f_equal; apply res_map_ext; intro; rewrite unary_post; auto.
Qed.

(** A fold that ignores the entries depends on their number only. *)
Lemma fold_left_const (A B : Type) (f : A -> A) (l : list B) a :
  fold_left (fun acc _ => f acc) l a = fold_left (fun acc _ => f acc) (seq 0 (length l)) a.
Proof.
  assert (G : forall (s : nat) l a, fold_left (fun acc (_ : B) => f acc) l a =
                     fold_left (fun acc (_ : nat) => f acc) (seq s (length l)) a).
  { intros s l0; revert s; induction l0 as [|x l0 IH]; intros s a0; simpl; auto. }
  apply G.
Qed.

Lemma cardinality_length t : shape_cardinality (bty_shape t) = length (iproduct (tdims_of t)).
Proof.
  rewrite iproduct_length; unfold tdims_of.
  destruct t as [| |n|[|d [|d' ds]]]; simpl; auto; unfold product; simpl; lia.
Qed.

Lemma vsum_full t (x : F) :
  vsum (full t x) =
  fold_left (fun a _ => fadd a x) (seq 0 (shape_cardinality (bty_shape t))) fzero.
Proof.
  unfold vsum; rewrite full_build, vfold_build, cardinality_length.
  apply (fold_left_const _ _ (fun a => fadd a x)).
Qed.

Lemma sum_post (s : spec F) :
  sum_law -> res_map unwrap (sum_spec_post s) = Ok (VScal (vsum (unwrap s))).
Proof.
  intro L; destruct s as [v|t x|t x]; simpl; auto.
  destruct (L (shape_cardinality (bty_shape t)) x) as (k & -> & E); simpl.
  rewrite vsum_full, E; reflexivity.
Qed.

Lemma all_agree n : sum_law -> agrees n.
Proof.
  intro L; induction n; intros c;
    try (apply sum_spine_agrees; reflexivity); unfold evaluate, evaluate_spec; simpl.
  - specialize (IHn c); unfold evaluate, evaluate_spec in IHn.
    rewrite IHn; destruct (f_spec (interp n) c) as [c' r]; simpl.
    rewrite !res_map_map; f_equal; apply res_map_ext; intro; rewrite unary_post; auto.
  - specialize (IHn c); unfold evaluate, evaluate_spec in IHn.
    rewrite IHn; destruct (f_spec (interp n) c) as [c' r]; simpl; f_equal.
    destruct r as [s| | |]; simpl; auto.
    rewrite sum_post by auto; reflexivity.
Qed.

(** ** Frame *)

Definition preserved (n : node F) (f : ctx F -> ctx F) : Prop :=
  forall c j, c j <> None \/ is_key n j = false -> f c j = c j.

Lemma preserved_trans (c1 c2 c3 : ctx F) (K1 K2 : ident -> bool) :
  (forall j, c1 j <> None \/ K1 j = false -> c2 j = c1 j) ->
  (forall j, c2 j <> None \/ K2 j = false -> c3 j = c2 j) ->
  forall j, c1 j <> None \/ K1 j || K2 j = false -> c3 j = c1 j.
Proof.
  intros H1 H2 j Hj.
  assert (E : c2 j = c1 j).
  { apply H1; destruct Hj as [Hj|Hj]; auto; apply orb_false_iff in Hj; tauto. }
  rewrite <- E; apply H2; rewrite E.
  destruct Hj as [Hj|Hj]; auto; apply orb_false_iff in Hj; tauto.
Qed.

Lemma both_ctx (A B : Type) (l : ctx F -> ctx F * res err A) (r : ctx F -> ctx F * res err B) k c :
  fst (both l r k c) = fst (l c) \/ fst (both l r k c) = fst (r (fst (l c))).
Proof.
  unfold both; destruct (l c) as [c1 [a| | |]]; simpl; auto.
  destruct (r c1) as [c2 [b| | |]]; simpl; auto.
Qed.
Lemma both_shape_ctx (l r : ctx F -> ctx F * res err bty) k c :
  fst (both_shape l r k c) = fst (l c) \/ fst (both_shape l r k c) = fst (r (fst (l c))).
Proof.
  unfold both_shape; destruct (l c) as [c1 [a| | |]]; simpl; auto.
  destruct (r c1) as [c2 [b| | |]]; simpl; auto.
Qed.
Lemma both_eval_ctx (l r : ctx F -> ctx F * res err (value F)) k c :
  fst (both_eval l r k c) = fst (l c) \/ fst (both_eval l r k c) = fst (r (fst (l c))).
Proof.
  unfold both_eval; destruct (l c) as [c1 [a| | |]]; simpl; auto.
  destruct (r c1) as [c2 [b| | |]]; simpl; auto.
Qed.

Lemma eval_by_spec_ctx sp (c : ctx F) : fst (eval_by_spec sp c) = fst (sp c).
Proof. unfold eval_by_spec; destruct (sp c); reflexivity. Qed.
Lemma default_spec_ctx ev (c : ctx F) : fst (default_spec ev c) = fst (ev c).
Proof. unfold default_spec; destruct (ev c); reflexivity. Qed.
Lemma default_shape_ctx ev (c : ctx F) : fst (default_shape ev c) = fst (ev c).
Proof. unfold default_shape; destruct (ev c); reflexivity. Qed.

Lemma two_steps (l r : node F) (c c1 c2 c3 : ctx F) :
  (forall j, c j <> None \/ is_key l j = false -> c1 j = c j) ->
  (forall j, c1 j <> None \/ is_key r j = false -> c2 j = c1 j) ->
  c3 = c1 \/ c3 = c2 ->
  forall j, c j <> None \/ is_key l j || is_key r j = false -> c3 j = c j.
Proof.
  intros H1 H2 [-> | ->] j Hj.
  - apply H1; destruct Hj as [Hj|Hj]; auto; apply orb_false_iff in Hj; tauto.
  - eapply preserved_trans; eauto.
Qed.

Lemma frame_all n :
  preserved n (fun c => fst (f_eval (interp n) c)) /\
  preserved n (fun c => fst (f_spec (interp n) c)) /\
  preserved n (fun c => fst (f_shape (interp n) c)).
Proof.
  induction n;
    try (destruct IHn as (He & Hs & Hsh));
    try (destruct IHn1 as (He1 & Hs1 & Hsh1); destruct IHn2 as (He2 & Hs2 & Hsh2));
    try (repeat split; intros c j Hj; reflexivity);
    unfold preserved in *.
  - (* ConstAdj *)
    assert (G : forall c j, c j <> None \/ is_key n j = false ->
                fst (constadj_shape (interp n) t c) j = c j).
    { intros c j Hj; unfold constadj_shape; specialize (Hsh c j Hj).
      destruct (f_shape (interp n) c) as [c1 [s| | |]]; simpl in *; auto. }
    assert (G2 : forall c, fst (constadj_spec (interp n) t c) = fst (constadj_shape (interp n) t c)).
    { intro c; unfold constadj_spec; destruct (constadj_shape (interp n) t c); reflexivity. }
    simpl; repeat split; intros c0 j Hj; rewrite ?eval_by_spec_ctx, ?G2; auto.
  - (* Cached *)
    assert (G : forall c0 j, c0 j <> None \/ is_key (Cached n k) j = false ->
                fst (cached_eval (interp n) k c0) j = c0 j).
    { intros c0 j Hj; unfold cached_eval, read; destruct (c0 k) as [v|] eqn:E; auto.
      assert (K : fst (f_eval (interp n) c0) j = c0 j).
      { apply He; simpl in Hj; rewrite orb_false_iff in Hj; tauto. }
      destruct (f_eval (interp n) c0) as [c1 [v| | |]]; simpl in *; auto.
      unfold write; destruct (ident_eqb k j) eqn:Ej; auto.
      apply ident_eqb_eq in Ej; subst j; destruct Hj as [Hj|Hj]; [congruence|].
      rewrite ident_eqb_refl in Hj; discriminate. }
    simpl; repeat split; intros c0 j Hj; rewrite ?default_spec_ctx, ?default_shape_ctx; auto.
  - (* Un *)
    simpl; repeat split; intros c j Hj; auto.
    + specialize (He c j Hj); destruct (f_eval (interp n) c); auto.
    + specialize (Hs c j Hj); destruct (f_spec (interp n) c); auto.
  - (* Sum *)
    simpl; repeat split; intros c j Hj; auto.
    + specialize (He c j Hj); destruct (f_eval (interp n) c); auto.
    + specialize (Hs c j Hj); destruct (f_spec (interp n) c); auto.
  - (* Power *)
    simpl; repeat split; intros c j Hj; auto; rewrite ?eval_by_spec_ctx;
      (eapply two_steps; [intros; apply Hs1; eassumption | intros; apply Hs2; eassumption | apply both_ctx | exact Hj]).
  - simpl; repeat split; intros c j Hj; auto; rewrite ?eval_by_spec_ctx;
      try (eapply two_steps; [intros; apply Hs1; eassumption | intros; apply Hs2; eassumption | apply both_ctx | exact Hj]);
      (eapply two_steps; [intros; apply Hsh1; eassumption | intros; apply Hsh2; eassumption | apply both_shape_ctx | exact Hj]).
  - simpl; repeat split; intros c j Hj; auto; rewrite ?eval_by_spec_ctx;
      try (eapply two_steps; [intros; apply Hs1; eassumption | intros; apply Hs2; eassumption | apply both_ctx | exact Hj]);
      (eapply two_steps; [intros; apply Hsh1; eassumption | intros; apply Hsh2; eassumption | apply both_shape_ctx | exact Hj]).
  - simpl; repeat split; intros c j Hj; auto; rewrite ?eval_by_spec_ctx;
      try (eapply two_steps; [intros; apply Hs1; eassumption | intros; apply Hs2; eassumption | apply both_ctx | exact Hj]);
      (eapply two_steps; [intros; apply Hsh1; eassumption | intros; apply Hsh2; eassumption | apply both_shape_ctx | exact Hj]).
  - simpl; repeat split; intros c j Hj; auto; rewrite ?default_spec_ctx;
      try (eapply two_steps; [intros; apply He1; eassumption | intros; apply He2; eassumption | apply both_eval_ctx | exact Hj]);
      (eapply two_steps; [intros; apply Hsh1; eassumption | intros; apply Hsh2; eassumption | apply both_shape_ctx | exact Hj]).
  - simpl; repeat split; intros c j Hj; auto; rewrite ?eval_by_spec_ctx;
      try (eapply two_steps; [intros; apply Hs1; eassumption | intros; apply Hs2; eassumption | apply both_ctx | exact Hj]);
      (eapply two_steps; [intros; apply Hsh1; eassumption | intros; apply Hsh2; eassumption | apply both_shape_ctx | exact Hj]).
Qed.

Lemma evaluate_shape_ctx n (c : ctx F) : fst (evaluate_shape n c) = fst (f_shape (interp n) c).
Proof. unfold evaluate_shape; destruct (f_shape (interp n) c); reflexivity. Qed.

Lemma cache_free_no_key n : cache_free n = true -> forall k, @is_key F n k = false.
Proof.
  induction n; simpl; intros H k0; auto; try discriminate;
    apply andb_true_iff in H; destruct H; rewrite IHn1, IHn2; auto.
Qed.

(** ** Non-interference *)

Definition agree_on (P : ident -> Prop) (c c' : ctx F) : Prop := forall j, P j -> c j = c' j.

Definition ni {A} (P : ident -> Prop) (f : ctx F -> ctx F * A) : Prop :=
  forall c c', agree_on P c c' ->
    snd (f c) = snd (f c') /\ agree_on P (fst (f c)) (fst (f c')).

Lemma ni_post (A B : Type) P (f : ctx F -> ctx F * A) (g : A -> B) :
  ni P f -> ni P (fun c => let (c1, r) := f c in (c1, g r)).
Proof.
  intros H c c' Hc; destruct (H c c' Hc) as [E G].
  destruct (f c), (f c'); simpl in *; subst; auto.
Qed.

Lemma ni_both (A B : Type) P (l : ctx F -> ctx F * res err A) (r : ctx F -> ctx F * res err B) k :
  ni P l -> ni P r -> ni P (both l r k).
Proof.
  intros Hl Hr c c' Hc; unfold both; destruct (Hl c c' Hc) as [E G].
  destruct (l c) as [c1 x], (l c') as [c1' x']; simpl in *; subst x'.
  destruct x; simpl; auto.
  destruct (Hr c1 c1' G) as [E' G'].
  destruct (r c1) as [c2 y], (r c1') as [c2' y']; simpl in *; subst y'.
  destruct y; simpl; auto.
Qed.
Lemma ni_both_shape P (l r : ctx F -> ctx F * res err bty) k :
  ni P l -> ni P r -> ni P (both_shape l r k).
Proof.
  intros Hl Hr c c' Hc; unfold both_shape; destruct (Hl c c' Hc) as [E G].
  destruct (l c) as [c1 x], (l c') as [c1' x']; simpl in *; subst x'.
  destruct x; simpl; auto.
  destruct (Hr c1 c1' G) as [E' G'].
  destruct (r c1) as [c2 y], (r c1') as [c2' y']; simpl in *; subst y'.
  destruct y; simpl; auto.
Qed.
Lemma ni_both_eval P (l r : ctx F -> ctx F * res err (value F)) k :
  ni P l -> ni P r -> ni P (both_eval l r k).
Proof.
  intros Hl Hr c c' Hc; unfold both_eval; destruct (Hl c c' Hc) as [E G].
  destruct (l c) as [c1 x], (l c') as [c1' x']; simpl in *; subst x'.
  destruct x; simpl; auto.
  destruct (Hr c1 c1' G) as [E' G'].
  destruct (r c1) as [c2 y], (r c1') as [c2' y']; simpl in *; subst y'.
  destruct y; simpl; auto.
Qed.

Lemma ni_const (A : Type) P (a : A) : ni P (fun c : ctx F => (c, a)).
Proof. intros c c' H; auto. Qed.

Lemma ni_all (P : ident -> Prop) n :
  (forall j, contains n j = true -> P j) ->
  ni P (f_eval (interp n)) /\ ni P (f_spec (interp n)) /\ ni P (f_shape (interp n)).
Proof.
  induction n; simpl; intro HP;
    try (destruct IHn as (He & Hs & Hsh);
         [intros; apply HP; rewrite ?orb_true_iff; auto|]);
    try (destruct IHn1 as (He1 & Hs1 & Hsh1);
         [intros; apply HP; rewrite ?orb_true_iff; auto|];
         destruct IHn2 as (He2 & Hs2 & Hsh2);
         [intros; apply HP; rewrite ?orb_true_iff; auto|]);
    try (split; [|split]; first [ apply ni_const
       | eapply ni_post; apply ni_both; assumption | apply ni_both; assumption
       | apply ni_both_shape; assumption | apply ni_both_eval; assumption
       | eapply ni_post; apply ni_both_eval; assumption
       | eapply ni_post; assumption | assumption
       | apply (ni_post _ _ _ _ (res_map unwrap)), ni_both; assumption
       | apply (ni_post _ _ _ _ (res_map Raw)), ni_both_eval; assumption
       | apply (ni_post _ _ _ _ (res_map unwrap)), ni_const ]; fail).
  - (* Var *)
    assert (Hi : P i) by (apply HP, ident_eqb_refl).
    repeat split; simpl; auto; unfold read, read_spec, read_bty; rewrite (H i Hi); auto.
  - (* VarAdj *)
    assert (Hi : P i) by (apply HP; rewrite ident_eqb_refl; auto).
    assert (Ht : P t) by (apply HP; rewrite ident_eqb_refl, orb_true_r; auto).
    assert (G : ni P (varadj_spec i t)).
    { intros c c' H; unfold varadj_spec, read_bty; simpl; rewrite (H i Hi), (H t Ht); auto. }
    split; [|split]; auto.
    + apply (ni_post _ _ _ _ (res_map unwrap) G).
    + intros c c' H; unfold varadj_shape, read_bty; simpl; rewrite (H i Hi), (H t Ht); auto.
  - (* ConstAdj *)
    assert (Ht : P t) by (apply HP; rewrite ident_eqb_refl, orb_true_r; auto).
    assert (G : ni P (constadj_shape (interp n) t)).
    { intros c c' H; unfold constadj_shape; destruct (Hsh c c' H) as [E K].
      destruct (f_shape (interp n) c) as [c1 x], (f_shape (interp n) c') as [c1' x'];
        simpl in *; subst x'; destruct x; simpl; auto.
      unfold read; rewrite (K t Ht); auto. }
    assert (G2 : ni P (constadj_spec (interp n) t)) by (apply (ni_post _ _ _ _ _ G)).
    split; [|split]; auto.
    apply (ni_post _ _ _ _ _ G2).
  - (* Cached *)
    assert (Hc : P k) by (apply HP; rewrite ident_eqb_refl; auto).
    assert (G : ni P (cached_eval (interp n) k)).
    { intros c0 c' H; unfold cached_eval, read; rewrite (H k Hc); destruct (c' k); auto.
      destruct (He c0 c' H) as [E K].
      destruct (f_eval (interp n) c0) as [c1 x], (f_eval (interp n) c') as [c1' x'];
        simpl in *; subst x'; destruct x; simpl; auto.
      split; auto; intros j Hj; unfold write; destruct (ident_eqb k j); auto. }
    split; [|split]; auto.
    + apply (ni_post _ _ _ _ _ G).
    + apply (ni_post _ _ _ _ _ G).
Qed.

Lemma key_contained n k0 : @is_key F n k0 = true -> contains n k0 = true.
Proof.
  induction n; simpl; intro H; auto; try discriminate; rewrite ?orb_true_iff in *; intuition.
Qed.

End EvalFacts.
