(** The order of the operands of sums and products (property C94). *)
From Coq Require Import List Arith ZArith Reals Bool SpecFloat Lia.
Import ListNotations.
From Verif Require Import Base Shapes Scalar Buffers Spec Contraction Node Eval Types Instances Vocab
  Swap_math Index_facts Typing_facts Eval_facts Progress_facts Zero_facts Scalar_claims.

Section Swap.
Context {F : Type} {S : Scalar F}.

Lemma dims_sym a b : dims_eqb a b = dims_eqb b a.
Proof.
  destruct (dims_eqb a b) eqn:E, (dims_eqb b a) eqn:E'; auto;
    [apply dims_eqb_eq in E|apply dims_eqb_eq in E']; subst.
  - assert (X : dims_eqb b b = true) by (apply dims_eqb_eq; reflexivity); congruence.
  - assert (X : dims_eqb a a = true) by (apply dims_eqb_eq; reflexivity); congruence.
Qed.

(** Buffers. *)
Section Dense.
Variable f : F -> F -> F.
Hypothesis comm : forall x y, f x y = f y x.

Lemma arr_zip_comm : forall a b : arr F, arr_zip f a b = arr_zip f b a.
Proof.
  fix IH 1; intros [x|l] [y|m]; cbn [arr_zip]; auto; [rewrite comm; reflexivity|f_equal].
  revert m; induction l as [|a l IHl]; intros [|b m]; auto; f_equal; [apply IH|apply IHl].
Qed.
Lemma map_arr_ext (g h : F -> F) : (forall x, g x = h x) -> forall a : arr F, arr_map g a = arr_map h a.
Proof.
  intro E; fix IH 1; intros [x|l]; cbn [arr_map]; [rewrite E; reflexivity|f_equal].
  induction l as [|a l IHl]; auto; cbn [map]; f_equal; [apply IH|apply IHl].
Qed.
Lemma field_l_r x ds (a : arr F) : arr_zip_field_l f x ds a = arr_zip_field_r f a x.
Proof.
  assert (E : arr_map (fun y => f x y) a = arr_map (fun y => f y x) a)
    by (apply map_arr_ext; intro; apply comm).
  unfold arr_zip_field_l, arr_zip_field_r.
  destruct ds as [|? [|? ?]]; [|exact E|]; destruct a; reflexivity.
Qed.
Lemma zip_map_comm (x y : value F) v : zip_map_id f x y = Ok v -> zip_map_id f y x = Ok v.
Proof.
  unfold zip_map_id, zip_mut, zip_map; destruct x as [a|a b|xs|ds a], y as [a'|a' b'|ys|ds' a']; try discriminate.
  - rewrite comm; auto.
  - intro H; injection H as <-; do 2 f_equal; apply map_ext; intro; apply comm.
  - rewrite field_l_r; auto.
  - rewrite (comm a), (comm b); auto.
  - intro H; injection H as <-; do 2 f_equal; apply map_ext; intro; apply comm.
  - rewrite (dims_sym [length ys]); destruct (dims_eqb _ _); [|discriminate].
    intro H; injection H as <-; do 2 f_equal.
    revert ys; induction xs as [|x xs IH]; intros [|y ys]; auto; cbn [combine map fst snd]; rewrite comm, IH; auto.
  - rewrite field_l_r; auto.
  - rewrite (dims_sym ds'); destruct (dims_eqb ds ds') eqn:E; [|discriminate].
    apply dims_eqb_eq in E; subst; rewrite arr_zip_comm; auto.
Qed.
Lemma zip_dense_comm (x y s : spec F) : zip_dense f x y = Ok s -> zip_dense f y x = Ok s.
Proof.
  unfold zip_dense; destruct (zip_map_id f (unwrap x) (unwrap y)) as [v|e| |] eqn:E; cbn; try discriminate.
  rewrite (zip_map_comm _ _ _ E); auto.
Qed.
End Dense.

Lemma broadcast_comm a b s : broadcast a b = Ok s -> broadcast b a = Ok s.
Proof.
  unfold broadcast; destruct a as [[|x a]|a], b as [[|y b]|b]; try discriminate; auto.
  - rewrite (dims_sym (y :: b)); destruct (dims_eqb (x :: a) (y :: b)) eqn:E; [|discriminate].
    apply dims_eqb_eq in E; rewrite E; auto.
  - rewrite (Nat.eqb_sym (length b)), (dims_sym b); destruct (Nat.eqb _ _); [|discriminate].
    destruct (dims_eqb a b) eqn:E; [|discriminate]; apply dims_eqb_eq in E; rewrite E; auto.
Qed.
Lemma zip_cls_comm a b : zip_cls a b = zip_cls b a.
Proof. destruct a, b; reflexivity. Qed.
Lemma bcast_comm a b t : bcast_bty a b = Ok t -> bcast_bty b a = Ok t.
Proof.
  unfold bcast_bty; rewrite (zip_cls_comm (bty_cls b)); destruct (zip_cls _ _); [|discriminate].
  destruct (broadcast (bty_shape a) (bty_shape b)) as [s|e| |] eqn:E; cbn; try discriminate.
  rewrite (broadcast_comm _ _ _ E); auto.
Qed.

Hypothesis add_comm : forall x y : F, fadd x y = fadd y x.
Hypothesis mul_comm : forall x y : F, fmul x y = fmul y x.

Lemma add_match_comm (x y s : spec F) : add_match x y = Ok s -> add_match y x = Ok s.
Proof.
  unfold add_match; destruct x as [xv|sx fx|sx fx], y as [yv|sy fy|sy fy];
    try (apply zip_dense_comm; exact add_comm).
  - destruct (is_zero fy); [|apply zip_dense_comm; exact add_comm].
    destruct (zip_shape xv sy); cbn; try discriminate; auto.
  - destruct (is_zero fx); [|apply zip_dense_comm; exact add_comm].
    destruct (zip_shape yv sx); cbn; try discriminate; auto.
  - destruct (bcast_bty sx sy) eqn:E; cbn [res_map]; try discriminate.
    rewrite (bcast_comm _ _ _ E), add_comm; auto.
Qed.
Lemma mul_match_comm (x y s : spec F) : mul_match x y = Ok s -> mul_match y x = Ok s.
Proof.
  unfold mul_match; destruct x as [xv|sx fx|sx fx], y as [yv|sy fy|sy fy];
    try (apply zip_dense_comm; exact mul_comm).
  - destruct (is_zero fy); [|apply zip_dense_comm; exact mul_comm].
    destruct (bcast_bty _ _) eqn:E; cbn [res_map]; try discriminate; rewrite (bcast_comm _ _ _ E); auto.
  - destruct (is_zero fx); [|apply zip_dense_comm; exact mul_comm].
    destruct (bcast_bty _ _) eqn:E; cbn [res_map]; try discriminate; rewrite (bcast_comm _ _ _ E); auto.
  - destruct (bcast_bty sx sy) eqn:E; cbn [res_map]; try discriminate.
    rewrite (bcast_comm _ _ _ E), mul_comm; auto.
  - destruct (is_zero fx); [|apply zip_dense_comm; exact mul_comm].
    destruct (bcast_bty _ _) eqn:E; cbn [res_map]; try discriminate; rewrite (bcast_comm _ _ _ E); auto.
  - destruct (is_zero fy); [|apply zip_dense_comm; exact mul_comm].
    destruct (bcast_bty _ _) eqn:E; cbn [res_map]; try discriminate; rewrite (bcast_comm _ _ _ E); auto.
Qed.

(** Evaluation. *)
Definition leq {A} (f g : ctx F -> ctx F * res err A) : Prop :=
  forall c v, f c = (c, Ok v) -> g c = (c, Ok v).
Definition keeps {A} (f : ctx F -> ctx F * res err A) : Prop := forall c, fst (f c) = c.

Lemma both_inv {A B} (l : ctx F -> ctx F * res err A) (r : ctx F -> ctx F * res err B) k c v :
  keeps l -> keeps r ->
  (both l r k c = (c, Ok v) <->
   exists a b, l c = (c, Ok a) /\ r c = (c, Ok b) /\ k a b = Ok v).
Proof.
  intros Kl Kr; unfold both; specialize (Kl c); specialize (Kr c); destruct (l c) as [c1 x]; cbn in Kl; subst c1.
  destruct (r c) as [c1 y]; cbn in Kr; subst c1; split.
  - destruct x as [a|e| |], y as [b|e'| |]; cbn; intro H; try discriminate; injection H as H; eauto.
  - intros (a & b & H1 & H2 & H3); injection H1 as ->; injection H2 as ->; cbn; rewrite H3; reflexivity.
Qed.
Lemma both_shape_inv (l r : ctx F -> ctx F * res err bty) k c v :
  keeps l -> keeps r ->
  (both_shape l r k c = (c, Ok v) <->
   exists a b, l c = (c, Ok a) /\ r c = (c, Ok b) /\ k a b = Ok v).
Proof.
  intros Kl Kr; unfold both_shape; specialize (Kl c); specialize (Kr c); destruct (l c) as [c1 x]; cbn in Kl; subst c1.
  destruct (r c) as [c1 y]; cbn in Kr; subst c1; split.
  - destruct x as [a|e| |], y as [b|e'| |]; cbn; intro H; try discriminate; injection H as H; eauto.
  - intros (a & b & H1 & H2 & H3); injection H1 as ->; injection H2 as ->; cbn; rewrite H3; reflexivity.
Qed.
Lemma both_eval_inv (l r : ctx F -> ctx F * res err (value F)) k c v :
  keeps l -> keeps r ->
  (both_eval l r k c = (c, Ok v) <->
   exists a b, l c = (c, Ok a) /\ r c = (c, Ok b) /\ k a b = Ok v).
Proof.
  intros Kl Kr; unfold both_eval; specialize (Kl c); specialize (Kr c); destruct (l c) as [c1 x]; cbn in Kl; subst c1.
  destruct (r c) as [c1 y]; cbn in Kr; subst c1; split.
  - destruct x as [a|e| |], y as [b|e'| |]; cbn; intro H; try discriminate; injection H as H; eauto.
  - intros (a & b & H1 & H2 & H3); injection H1 as ->; injection H2 as ->; cbn; rewrite H3; reflexivity.
Qed.
Lemma eval_leq (f g : ctx F -> ctx F * res err (spec F)) : leq f g -> leq (eval_by_spec f) (eval_by_spec g).
Proof.
  intros H c v; unfold eval_by_spec; destruct (f c) as [c1 [s|e| |]] eqn:E; cbn; intro X; try discriminate.
  injection X as -> <-; rewrite (H _ _ E); reflexivity.
Qed.
Lemma default_leq (f g : ctx F -> ctx F * res err (value F)) : leq f g -> leq (default_spec f) (default_spec g).
Proof.
  intros H c v; unfold default_spec; destruct (f c) as [c1 [s|e| |]] eqn:E; cbn; intro X; try discriminate.
  injection X as -> <-; rewrite (H _ _ E); reflexivity.
Qed.
Lemma post_leq {A B} (f g : ctx F -> ctx F * res err A) (k : res err A -> res err B) :
  (forall r v, k r = Ok v -> exists a, r = Ok a) ->
  leq f g -> leq (fun c => let (c1, r) := f c in (c1, k r)) (fun c => let (c1, r) := g c in (c1, k r)).
Proof.
  intros K H c v; destruct (f c) as [c1 r] eqn:E; cbn; intro X; injection X as -> X.
  destruct (K _ _ X) as (a & ->); rewrite (H _ _ E), X; reflexivity.
Qed.
Lemma both_leq {A B} (l l' : ctx F -> ctx F * res err A) (r r' : ctx F -> ctx F * res err B) k :
  keeps l -> keeps r -> keeps l' -> keeps r' -> leq l l' -> leq r r' -> leq (both l r k) (both l' r' k).
Proof.
  intros Kl Kr Kl' Kr' L R c v H; apply both_inv in H as (a & b & H1 & H2 & H3); auto.
  apply both_inv; eauto 8.
Qed.
Lemma both_swap (l l' r r' : ctx F -> ctx F * res err (spec F)) (k : spec F -> spec F -> res incompat (spec F)) :
  keeps l -> keeps r -> keeps l' -> keeps r' -> leq l l' -> leq r r' ->
  (forall x y s, k x y = Ok s -> k y x = Ok s) ->
  leq (both l r (fun x y => res_map_err EOutput (k x y))) (both r' l' (fun x y => res_map_err EOutput (k x y))).
Proof.
  intros Kl Kr Kl' Kr' L R C c v H; apply both_inv in H as (a & b & H1 & H2 & H3); auto.
  apply both_inv; auto; exists b, a; repeat apply conj; auto.
  destruct (k a b) as [s|e| |] eqn:E; cbn in H3; try discriminate.
  rewrite (C _ _ _ E); exact H3.
Qed.
Lemma both_shape_leq (l l' r r' : ctx F -> ctx F * res err bty) k :
  keeps l -> keeps r -> keeps l' -> keeps r' -> leq l l' -> leq r r' -> leq (both_shape l r k) (both_shape l' r' k).
Proof.
  intros Kl Kr Kl' Kr' L R c v H; apply both_shape_inv in H as (a & b & H1 & H2 & H3); auto.
  apply both_shape_inv; eauto 8.
Qed.
Lemma both_shape_swap (l l' r r' : ctx F -> ctx F * res err bty) :
  keeps l -> keeps r -> keeps l' -> keeps r' -> leq l l' -> leq r r' ->
  leq (both_shape l r bcast_post) (both_shape r' l' bcast_post).
Proof.
  intros Kl Kr Kl' Kr' L R c v H; apply both_shape_inv in H as (a & b & H1 & H2 & H3); auto.
  apply both_shape_inv; auto; exists b, a; repeat apply conj; auto.
  unfold bcast_post in *; destruct (bcast_bty a b) as [s|e| |] eqn:E; cbn in H3; try discriminate.
  rewrite (bcast_comm _ _ _ E); exact H3.
Qed.
Lemma both_eval_leq (l l' r r' : ctx F -> ctx F * res err (value F)) k :
  keeps l -> keeps r -> keeps l' -> keeps r' -> leq l l' -> leq r r' -> leq (both_eval l r k) (both_eval l' r' k).
Proof.
  intros Kl Kr Kl' Kr' L R c v H; apply both_eval_inv in H as (a & b & H1 & H2 & H3); auto.
  apply both_eval_inv; eauto 8.
Qed.
Lemma constadj_leq (m m' : fn F) t :
  leq (f_shape m) (f_shape m') -> leq (constadj_shape m t) (constadj_shape m' t).
Proof.
  intros H c v; unfold constadj_shape; destruct (f_shape m c) as [c1 [s|e| |]] eqn:E; cbn; intro X; try discriminate.
  injection X as -> X; rewrite (H _ _ E); cbn; rewrite X; reflexivity.
Qed.

Lemma reordered_free (n n' : node F) : reordered n n' -> cache_free n = true -> cache_free n' = true.
Proof.
  induction 1; cbn; auto; intro H'; apply andb_true_iff in H' as [H1 H2]; apply andb_true_iff; auto.
Qed.

Lemma reordered_leq (n n' : node F) : reordered n n' -> cache_free n = true ->
  leq (f_eval (interp n)) (f_eval (interp n')) /\ leq (f_spec (interp n)) (f_spec (interp n')) /\
  leq (f_shape (interp n)) (f_shape (interp n')).
Proof.
  induction 1 as [n|m m' t R IH|u m m' R IH|m m' R IH|l l' r r' R1 IH1 R2 IH2|l l' r r' R1 IH1 R2 IH2
    |l l' r r' R1 IH1 R2 IH2|a l l' r r' R1 IH1 R2 IH2|l l' r r' R1 IH1 R2 IH2|l l' r r' R1 IH1 R2 IH2
    |l l' r r' R1 IH1 R2 IH2|l l' r r' R1 IH1 R2 IH2]; cbn [cache_free]; intro CF.
  1: repeat apply conj; intros ? ?; auto.
  all: try (apply andb_true_iff in CF as [C1 C2];
    pose proof (reordered_free _ _ R1 C1) as C1'; pose proof (reordered_free _ _ R2 C2) as C2';
    destruct (IH1 C1) as (E1 & S1 & H1), (IH2 C2) as (E2 & S2 & H2); clear IH1 IH2;
    apply cache_free_ctx in C1 as (? & ? & ?), C2 as (? & ? & ?), C1' as (? & ? & ?), C2' as (? & ? & ?);
    cbn [interp]; repeat apply conj; cbn;
    auto using eval_leq, default_leq, both_leq, both_shape_leq, both_eval_leq, both_shape_swap, both_swap,
      add_match_comm, mul_match_comm).
  all: try (destruct (IH CF) as (E & Sp & H); clear IH; cbn [interp]; repeat apply conj; cbn; auto).
  - apply eval_leq; intros c v; unfold constadj_spec.
    apply (post_leq _ _ (res_map (fun sa => Full sa fzero))); [|apply constadj_leq; exact H].
    intros [a|e| |] w; cbn; intro X; try discriminate; eauto.
  - unfold constadj_spec.
    apply (post_leq _ _ (res_map (fun sa => Full sa fzero))); [|apply constadj_leq; exact H].
    intros [a|e| |] w; cbn; intro X; try discriminate; eauto.
  - apply constadj_leq; exact H.
  - apply (post_leq _ _ (res_map (vmutate (un_fn u)))); [|exact E].
    intros [a|e| |] w; cbn; intro X; try discriminate; eauto.
  - apply (post_leq _ _ (res_map (un_spec_post u))); [|exact Sp].
    intros [a|e| |] w; cbn; intro X; try discriminate; eauto.
  - apply (post_leq _ _ (res_map (fun v => VScal (vsum v)))); [|exact E].
    intros [a|e| |] w; cbn; intro X; try discriminate; eauto.
  - apply (post_leq _ _ (fun r => res_bind r sum_spec_post)); [|exact Sp].
    intros [a|e| |] w; cbn; intro X; try discriminate; eauto.
  - intros c v; auto.
  - intros c v; auto.
Qed.

Lemma reordered_sym (n n' : node F) : reordered n n' -> reordered n' n.
Proof. induction 1; constructor; assumption. Qed.

Theorem swap_value (n n' : node F) c v : reordered n n' -> cache_free n = true ->
  (evaluate n c = (c, Ok v) <-> evaluate n' c = (c, Ok v)).
Proof.
  intros R CF; split; [exact (proj1 (reordered_leq _ _ R CF) c v)|].
  exact (proj1 (reordered_leq _ _ (reordered_sym _ _ R) (reordered_free _ _ R CF)) c v).
Qed.
Theorem swap_spec (n n' : node F) c s : reordered n n' -> cache_free n = true ->
  (evaluate_spec n c = (c, Ok s) <-> evaluate_spec n' c = (c, Ok s)).
Proof.
  intros R CF; split; [exact (proj1 (proj2 (reordered_leq _ _ R CF)) c s)|].
  exact (proj1 (proj2 (reordered_leq _ _ (reordered_sym _ _ R) (reordered_free _ _ R CF))) c s).
Qed.
Lemma shape_leq (n n' : node F) c s : leq (f_shape (interp n)) (f_shape (interp n')) ->
  evaluate_shape n c = (c, Ok s) -> evaluate_shape n' c = (c, Ok s).
Proof.
  intro L; unfold evaluate_shape; destruct (f_shape (interp n) c) as [c1 [t|e| |]] eqn:E; cbn; intro X; try discriminate.
  injection X as -> <-; rewrite (L _ _ E); reflexivity.
Qed.
Theorem swap_shape (n n' : node F) c s : reordered n n' -> cache_free n = true ->
  (evaluate_shape n c = (c, Ok s) <-> evaluate_shape n' c = (c, Ok s)).
Proof.
  intros R CF; split; apply shape_leq; [exact (proj2 (proj2 (reordered_leq _ _ R CF)))|].
  exact (proj2 (proj2 (reordered_leq _ _ (reordered_sym _ _ R) (reordered_free _ _ R CF)))).
Qed.
End Swap.

Lemma swap_types {F} (G : tenv) (n n' : node F) : reordered n n' -> typeof G n = typeof G n'.
Proof.
  assert (Z : forall a b, zip_sty a b = zip_sty b a).
  { intros [| | |a] [| | |b]; cbn; auto; rewrite (dims_sym b); destruct (dims_eqb a b) eqn:E; auto.
    apply dims_eqb_eq in E; subst; reflexivity. }
  induction 1 as [n|m m' t R IH|u m m' R IH|m m' R IH|l l' r r' R1 IH1 R2 IH2|l l' r r' R1 IH1 R2 IH2
    |l l' r r' R1 IH1 R2 IH2|a l l' r r' R1 IH1 R2 IH2|l l' r r' R1 IH1 R2 IH2|l l' r r' R1 IH1 R2 IH2
    |l l' r r' R1 IH1 R2 IH2|l l' r r' R1 IH1 R2 IH2]; cbn [typeof]; rewrite ?IH, ?IH1, ?IH2; auto;
    destruct (typeof G l'), (typeof G r'); cbn; auto.
Qed.

Lemma swap_un {F} u (m m' d d' e : node F) : reordered m m' -> reordered d d' -> un_adjoint u m d = Some e ->
  exists e', un_adjoint u m' d' = Some e' /\ reordered e e'.
Proof.
  intros R D H; destruct u; cbn in H; try discriminate; injection H as <-;
    (eexists; split; [reflexivity|]); repeat constructor; auto.
Qed.

Lemma swap_adjoint {F} (n n' d : node F) t : reordered n n' -> adjoint n t = Some d ->
  exists d', adjoint n' t = Some d' /\ reordered d d'.
Proof.
  intro R; revert d.
  induction R as [n|m m' i R IH|u m m' R IH|m m' R IH|l l' r r' R1 IH1 R2 IH2|l l' r r' R1 IH1 R2 IH2
    |l l' r r' R1 IH1 R2 IH2|a l l' r r' R1 IH1 R2 IH2|l l' r r' R1 IH1 R2 IH2|l l' r r' R1 IH1 R2 IH2
    |l l' r r' R1 IH1 R2 IH2|l l' r r' R1 IH1 R2 IH2]; intro d; cbn [adjoint].
  - intro H; exists d; split; [exact H|constructor].
  - discriminate.
  - destruct (adjoint m t) as [e|]; [|discriminate]; cbn [obind]; intro H.
    destruct (IH _ eq_refl) as (e' & -> & Re); exact (swap_un _ _ _ _ _ _ R Re H).
  - apply IH.
  - destruct (adjoint l t) as [dl|]; [|discriminate]; destruct (adjoint r t) as [dr|]; [|discriminate].
    cbn [obind]; intro H; injection H as <-; destruct (IH1 _ eq_refl) as (dl' & -> & Rl), (IH2 _ eq_refl) as (dr' & -> & Rr).
    cbn [obind]; eexists; split; [reflexivity|]; repeat constructor; auto.
  - destruct (adjoint l t) as [dl|]; [|discriminate]; destruct (adjoint r t) as [dr|]; [|discriminate].
    cbn [obind]; intro H; injection H as <-; destruct (IH1 _ eq_refl) as (dl' & -> & Rl), (IH2 _ eq_refl) as (dr' & -> & Rr).
    cbn [obind]; eexists; split; [reflexivity|]; repeat constructor; auto.
  - destruct (adjoint l t) as [dl|]; [|discriminate]; destruct (adjoint r t) as [dr|]; [|discriminate].
    cbn [obind]; intro H; injection H as <-; destruct (IH1 _ eq_refl) as (dl' & -> & Rl), (IH2 _ eq_refl) as (dr' & -> & Rr).
    cbn [obind]; eexists; split; [reflexivity|]; repeat constructor; auto.
  - destruct (adjoint l t) as [dl|]; [|discriminate]; destruct (adjoint r t) as [dr|]; [|discriminate].
    cbn [obind]; intro H; injection H as <-; destruct (IH1 _ eq_refl) as (dl' & -> & Rl), (IH2 _ eq_refl) as (dr' & -> & Rr).
    cbn [obind]; eexists; split; [reflexivity|]; repeat constructor; auto.
  - destruct (adjoint l t) as [dl|]; [|discriminate]; destruct (adjoint r t) as [dr|]; [|discriminate].
    cbn [obind]; intro H; injection H as <-; destruct (IH1 _ eq_refl) as (dl' & -> & Rl), (IH2 _ eq_refl) as (dr' & -> & Rr).
    cbn [obind]; eexists; split; [reflexivity|]; repeat constructor; auto.
  - destruct (adjoint l t) as [dl|]; [|discriminate]; destruct (adjoint r t) as [dr|]; [|discriminate].
    cbn [obind]; intro H; injection H as <-; destruct (IH1 _ eq_refl) as (dl' & -> & Rl), (IH2 _ eq_refl) as (dr' & -> & Rr).
    cbn [obind]; eexists; split; [reflexivity|]; repeat constructor; auto.
  - destruct (adjoint l t) as [dl|]; [|discriminate]; destruct (adjoint r t) as [dr|]; [|discriminate].
    cbn [obind]; intro H; injection H as <-; destruct (IH1 _ eq_refl) as (dl' & -> & Rl), (IH2 _ eq_refl) as (dr' & -> & Rr).
    cbn [obind]; eexists; split; [reflexivity|]; apply re_add_swap; auto.
  - destruct (adjoint l t) as [dl|]; [|discriminate]; destruct (adjoint r t) as [dr|]; [|discriminate].
    cbn [obind]; intro H; injection H as <-; destruct (IH1 _ eq_refl) as (dl' & -> & Rl), (IH2 _ eq_refl) as (dr' & -> & Rr).
    cbn [obind]; eexists; split; [reflexivity|]; apply re_add_swap; apply re_mul; auto.
Qed.

Lemma swap_gradient {F} {S : Scalar F} (n n' : node F) t c v :
  (forall x y, fadd x y = fadd y x) -> (forall x y, fmul x y = fmul y x) ->
  reordered n n' -> cache_free n = true ->
  (evaluate_adjoint n t c = Some (c, Ok v) <-> evaluate_adjoint n' t c = Some (c, Ok v)).
Proof.
  intros A M R CF; unfold evaluate_adjoint; split.
  - destruct (adjoint n t) as [d|] eqn:D; [|discriminate]; destruct (swap_adjoint _ _ _ _ R D) as (d' & -> & R').
    cbn; intro H; injection H as H; f_equal.
    apply (swap_value A M _ _ _ _ R' (adjoint_cache_free _ _ _ CF D)); exact H.
  - destruct (adjoint n' t) as [d|] eqn:D; [|discriminate].
    destruct (swap_adjoint _ _ _ _ (reordered_sym _ _ R) D) as (d' & -> & R').
    cbn; intro H; injection H as H; f_equal.
    apply (swap_value A M _ _ _ _ R' (adjoint_cache_free _ _ _ (reordered_free _ _ R CF) D)); exact H.
Qed.

Lemma swap_value' {F} {S : Scalar F} (n n' : node F) c v :
  (forall x y, fadd x y = fadd y x) -> (forall x y, fmul x y = fmul y x) ->
  reordered n n' -> cache_free n = true ->
  (evaluate n c = (c, Ok v) <-> evaluate n' c = (c, Ok v)).
Proof. intros A M; exact (swap_value A M n n' c v). Qed.
Lemma swap_spec' {F} {S : Scalar F} (n n' : node F) c s :
  (forall x y, fadd x y = fadd y x) -> (forall x y, fmul x y = fmul y x) ->
  reordered n n' -> cache_free n = true ->
  (evaluate_spec n c = (c, Ok s) <-> evaluate_spec n' c = (c, Ok s)).
Proof. intros A M; exact (swap_spec A M n n' c s). Qed.
Lemma swap_shape' {F} {S : Scalar F} (n n' : node F) c s :
  (forall x y, fadd x y = fadd y x) -> (forall x y, fmul x y = fmul y x) ->
  reordered n n' -> cache_free n = true ->
  (evaluate_shape n c = (c, Ok s) <-> evaluate_shape n' c = (c, Ok s)).
Proof. intros A M; exact (swap_shape A M n n' c s). Qed.

Lemma swap_floats prec emax pow lib (n n' : node f64) t c v :
  reordered n n' -> cache_free n = true ->
  let S := float_scalar prec emax pow lib in
  (evaluate n c = (c, Ok v) <-> evaluate n' c = (c, Ok v)) /\
  (evaluate_adjoint n t c = Some (c, Ok v) <-> evaluate_adjoint n' t c = Some (c, Ok v)).
Proof.
  intros R CF S; split; [apply (@swap_value' _ S)|apply (@swap_gradient _ S)]; auto; intros;
    apply f64_add_comm || apply f64_mul_comm.
Qed.
Lemma swap_ints (n n' : node Z) t c v :
  reordered n n' -> cache_free n = true ->
  let S := Z_scalar in
  (evaluate n c = (c, Ok v) <-> evaluate n' c = (c, Ok v)) /\
  (evaluate_adjoint n t c = Some (c, Ok v) <-> evaluate_adjoint n' t c = Some (c, Ok v)).
Proof.
  intros R CF S; split; [apply (@swap_value' _ S)|apply (@swap_gradient _ S)]; auto; intros;
    apply Z.add_comm || apply Z.mul_comm.
Qed.
