(** Two runs of the same operations on related tensors. *)
From Coq Require Import List Arith Bool Lia.
Import ListNotations.
From Verif Require Import Base Shapes Scalar Buffers Spec Contraction Node Eval Types Vocab Math Code_math
  Index_facts Buffers_facts Spec_facts Contraction_facts Contraction_entries Match_facts Eval_facts
  Progress_facts Math_facts Code_claims Float_claims.

Section Relate.
Context {A B : Type} {SA : Scalar A} {SB : Scalar B}.

(** Equal dimensions, and related entries. *)
Definition rel (P : A -> B -> Prop) (a : tensor A) (b : tensor B) : Prop :=
  tdims a = tdims b /\ forall ix, in_box (tdims a) ix -> P (tat a ix) (tat b ix).

Lemma rel_impl (P Q : A -> B -> Prop) a b : (forall x y, P x y -> Q x y) -> rel P a b -> rel Q a b.
Proof. intros H [D E]; split; auto. Qed.

Lemma rel_at (P : A -> B -> Prop) a b ix : rel P a b -> in_box (tdims a) (match tdims a with [] => [] | _ => ix end) ->
  P (at_bc a ix) (at_bc b ix).
Proof. intros [D E] Bx; unfold at_bc; rewrite <- D; apply E; exact Bx. Qed.

(** [C] is a condition known of the entries that meet. *)
Lemma rel_pointwise (P Q T : A -> B -> Prop) (C : A -> A -> B -> B -> Prop) op op' a a' b b' :
  rel P a a' -> rel Q b b' -> (tdims a = [] \/ tdims b = [] \/ tdims a = tdims b) ->
  (forall ix, in_box (match tdims a with [] => tdims b | _ => tdims a end) ix ->
     C (at_bc a ix) (at_bc b ix) (at_bc a' ix) (at_bc b' ix)) ->
  (forall x x' y y', P x x' -> Q y y' -> C x y x' y' -> T (op x y) (op' x' y')) ->
  rel T (pointwise op a b) (pointwise op' a' b').
Proof.
  intros H1 H2 D HC K; unfold rel, pointwise; cbn [tdims tat]; rewrite <- (proj1 H1), <- (proj1 H2).
  split; [reflexivity|]; intros ix Bx; apply K; [apply rel_at; auto|apply rel_at; auto|apply HC; exact Bx].
  - destruct (tdims a); [apply in_box_nil; reflexivity|exact Bx].
  - destruct (tdims b) eqn:E; [apply in_box_nil; reflexivity|].
    destruct (tdims a) eqn:E1; [exact Bx|]; destruct D as [D|[D|D]]; try discriminate; rewrite <- D; exact Bx.
Qed.

Definition exchanges (x y : list nat) : bool :=
  match x, y with [], _ :: _ :: _ => true | _, _ => false end.

Lemma rel_crossed_if (P Q T : A -> B -> Prop) (C : A -> A -> B -> B -> Prop) op op' a a' b b' :
  rel P a a' -> rel Q b b' -> (tdims a = [] \/ tdims b = [] \/ tdims a = tdims b) ->
  (forall ix, in_box (tdims (crossed op a b)) ix -> C (at_bc a ix) (at_bc b ix) (at_bc a' ix) (at_bc b' ix)) ->
  (exchanges (tdims a) (tdims b) = false -> forall x x' y y', P x x' -> Q y y' -> C x y x' y' -> T (op x y) (op' x' y')) ->
  (exchanges (tdims a) (tdims b) = true -> forall x x' y y', P x x' -> Q y y' -> C x y x' y' -> T (op y x) (op' y' x')) ->
  rel T (crossed op a b) (crossed op' a' b').
Proof.
  intros H1 H2 D HC K1 K2; unfold crossed in *; rewrite <- (proj1 H1), <- (proj1 H2).
  destruct (tdims a) as [|d dx] eqn:Dx, (tdims b) as [|e [|e' dy]] eqn:Dy;
    try (eapply (rel_pointwise P Q T C); eauto; rewrite ?Dx, ?Dy; auto;
         intros ix Bx; apply HC; unfold pointwise; cbn [tdims]; rewrite Dx, ?Dy; exact Bx).
Qed.

Lemma rel_crossed (P Q T : A -> B -> Prop) op op' a a' b b' :
  rel P a a' -> rel Q b b' -> (tdims a = [] \/ tdims b = [] \/ tdims a = tdims b) ->
  (exchanges (tdims a) (tdims b) = false -> forall x x' y y', P x x' -> Q y y' -> T (op x y) (op' x' y')) ->
  (exchanges (tdims a) (tdims b) = true -> forall x x' y y', P x x' -> Q y y' -> T (op y x) (op' y' x')) ->
  rel T (crossed op a b) (crossed op' a' b').
Proof.
  intros H1 H2 D K1 K2; apply (rel_crossed_if P Q T (fun _ _ _ _ => True)); auto.
Qed.

Lemma rel_un (P T : A -> B -> Prop) f g a b : rel P a b -> (forall x y, P x y -> T (f x) (g y)) ->
  rel T (Tensor (tdims a) (fun ix => f (tat a ix))) (Tensor (tdims b) (fun ix => g (tat b ix))).
Proof. intros [D E] K; split; auto; intros ix Bx; apply K, E; exact Bx. Qed.

Section Sums.
Variable T : A -> B -> Prop.
Hypothesis T_zero : T fzero fzero.
Hypothesis T_add : forall x x' y y', T x x' -> T y y' -> T (fadd x y) (fadd x' y').

Lemma rel_sum_over (I : Type) (l : list I) f g : (forall i, In i l -> T (f i) (g i)) ->
  T (sum_over l f) (sum_over l g).
Proof.
  intro H; unfold sum_over; revert H; generalize T_zero; generalize (@fzero A SA), (@fzero B SB).
  induction l as [|i l IH]; intros z z' Z H; cbn [fold_left]; auto.
  apply IH; [apply T_add; [exact Z|apply H; left; reflexivity]|intros j J; apply H; right; exact J].
Qed.

Lemma rel_sum a b : rel T a b ->
  rel T (Tensor [] (fun _ => sum_over (all_ix (tdims a)) (tat a)))
        (Tensor [] (fun _ => sum_over (all_ix (tdims b)) (tat b))).
Proof.
  intros [D E]; split; [reflexivity|]; intros ix _; cbn [tat]; rewrite <- D.
  apply rel_sum_over; intros jx Hj; apply E; rewrite all_ix_iproduct in Hj; apply in_iproduct; exact Hj.
Qed.

Variables P Q : A -> B -> Prop.
Section Conditions.
Variable C : A -> A -> B -> B -> Prop.
Hypothesis K1 : forall x x' y y', P x x' -> Q y y' -> C x y x' y' -> T (fmul x y) (fmul x' y').
Hypothesis K2 : forall x x' y y', P x x' -> Q y y' -> C x y x' y' -> T (fmul y x) (fmul y' x').

Lemma rel_outer_if a a' b b' : rel P a a' -> rel Q b b' ->
  (forall ix jx, in_box (tdims a) ix -> in_box (tdims b) jx -> C (tat a ix) (tat b jx) (tat a' ix) (tat b' jx)) ->
  rel T (outer_steps a b) (outer_steps a' b').
Proof.
  intros [D E] [D' E'] HC; unfold outer_steps, outer; rewrite <- D; destruct (tdims a) as [|d ds] eqn:Dx.
  - split; [exact D'|]; cbn [tdims tat]; intros ix Bx; apply K2; [apply E, in_box_nil; reflexivity|apply E'; exact Bx|].
    apply HC; [apply in_box_nil; reflexivity|exact Bx].
  - unfold rel; cbn [tdims tat]; rewrite <- D'; split; [reflexivity|]; intros ix Bx.
    destruct (in_box_app _ _ _ Bx) as [B1 B2]; apply K1; [apply E|apply E'|apply HC]; auto.
Qed.

Lemma rel_inner_if a a' b b' : inner_fits (tdims a) (tdims b) -> rel P a a' -> rel Q b b' ->
  (forall ix jx, in_box (tdims a) ix -> in_box (tdims b) jx -> last ix 0 = hd 0 jx ->
     C (tat a ix) (tat b jx) (tat a' ix) (tat b' jx)) ->
  rel T (inner_steps a b) (inner_steps a' b').
Proof.
  intros Fi [D E] [D' E'] HC; unfold inner_steps, inner; rewrite <- D, <- D'.
  destruct (tdims a) as [|n [|m [|? ?]]] eqn:Dx, (tdims b) as [|n' [|m' [|? ?]]] eqn:Dy; try contradiction;
    cbn [inner_fits last removelast tl length] in *; unfold rel; cbn [tdims tat app] in *;
    (split; [reflexivity|]); intros ix Bx.
  - subst n'; apply in_box_nil in Bx; subst ix; cbn [length Nat.sub firstn skipn app].
    apply rel_sum_over; intros i Hi; apply in_seq in Hi; apply K1; [apply E|apply E'|apply HC];
      try reflexivity; repeat constructor; lia.
  - destruct Fi as [-> Le]; apply box1_inv in Bx; destruct Bx as (i & -> & Hi); cbn [nth].
    apply rel_sum_over; intros k Hk; apply in_seq in Hk; apply K1; [apply E|apply E'|apply HC];
      try reflexivity; repeat constructor; lia.
  - destruct Fi as [-> Le]; apply box1_inv in Bx; destruct Bx as (i & -> & Hi); cbn [nth].
    apply rel_sum_over; intros k Hk; apply in_seq in Hk; apply K1; [apply E|apply E'|apply HC];
      try reflexivity; repeat constructor; lia.
  - subst n'; apply box2_inv in Bx; destruct Bx as (i & j & -> & Hi & Hj); cbn [length Nat.sub firstn skipn app].
    apply rel_sum_over; intros k Hk; apply in_seq in Hk; apply K1; [apply E|apply E'|apply HC];
      try reflexivity; repeat constructor; lia.
Qed.
End Conditions.

Hypothesis K1 : forall x x' y y', P x x' -> Q y y' -> T (fmul x y) (fmul x' y').
Hypothesis K2 : forall x x' y y', P x x' -> Q y y' -> T (fmul y x) (fmul y' x').

Lemma rel_outer a a' b b' : rel P a a' -> rel Q b b' -> rel T (outer_steps a b) (outer_steps a' b').
Proof. intros; apply (rel_outer_if (fun _ _ _ _ => True)); auto. Qed.

Lemma rel_inner a a' b b' : inner_fits (tdims a) (tdims b) -> rel P a a' -> rel Q b b' ->
  rel T (inner_steps a b) (inner_steps a' b').
Proof. intros; apply (rel_inner_if (fun _ _ _ _ => True)); auto. Qed.
End Sums.
End Relate.
