(** Errors, progress and the shape query. *)
From Coq Require Import List Arith Bool Lia.
Import ListNotations.
From Verif Require Import Base Shapes Scalar Buffers Spec Contraction Node Eval Types Vocab
  Index_facts Buffers_facts Spec_facts Contraction_facts Contraction_entries Subset_facts
  Match_facts Eval_facts Typing_facts.

Section ProgressFacts.
Context {F : Type} {SF : Scalar F}.

(** Trees without caches leave the context alone. *)
Lemma both_ctx_id (A B : Type) (l : ctx F -> ctx F * res err A) (r : ctx F -> ctx F * res err B) k c :
  (forall c, fst (l c) = c) -> (forall c, fst (r c) = c) -> fst (both l r k c) = c.
Proof.
  intros Hl Hr; destruct (both_ctx A B l r k c) as [-> | ->]; rewrite ?Hr; apply Hl.
Qed.
Lemma both_shape_ctx_id (l r : ctx F -> ctx F * res err bty) k c :
  (forall c, fst (l c) = c) -> (forall c, fst (r c) = c) -> fst (both_shape l r k c) = c.
Proof.
  intros Hl Hr; destruct (both_shape_ctx l r k c) as [-> | ->]; rewrite ?Hr; apply Hl.
Qed.
Lemma both_eval_ctx_id (l r : ctx F -> ctx F * res err (value F)) k c :
  (forall c, fst (l c) = c) -> (forall c, fst (r c) = c) -> fst (both_eval l r k c) = c.
Proof.
  intros Hl Hr; destruct (both_eval_ctx l r k c) as [-> | ->]; rewrite ?Hr; apply Hl.
Qed.

Lemma cache_free_ctx (n : node F) :
  cache_free n = true ->
  (forall c, fst (f_eval (interp n) c) = c) /\
  (forall c, fst (f_spec (interp n) c) = c) /\
  (forall c, fst (f_shape (interp n) c) = c).
Proof.
  induction n; simpl; intro H; try (split; [|split]; intro c; reflexivity); try discriminate;
    try (apply andb_true_iff in H; destruct H as [H1 H2];
         destruct (IHn1 H1) as (He1 & Hs1 & Hh1); destruct (IHn2 H2) as (He2 & Hs2 & Hh2);
         split; [|split]; intro c; simpl; rewrite ?eval_by_spec_ctx, ?default_spec_ctx;
         auto using both_ctx_id, both_shape_ctx_id, both_eval_ctx_id).
  - destruct (IHn H) as (_ & _ & Hh).
    assert (K : forall c, fst (constadj_shape (interp n) t c) = c).
    { intro c; unfold constadj_shape; specialize (Hh c); destruct (f_shape (interp n) c) as [c1 x];
        simpl in *; destruct x; simpl; auto. }
    assert (K2 : forall c, fst (constadj_spec (interp n) t c) = c).
    { intro c; unfold constadj_spec; specialize (K c); destruct (constadj_shape _ t c); auto. }
    split; [|split]; auto; intro c; rewrite eval_by_spec_ctx; auto.
  - destruct (IHn H) as (He & Hs & Hh); split; [|split]; auto; intro c; simpl.
    + specialize (He c); destruct (f_eval (interp n) c); auto.
    + specialize (Hs c); destruct (f_spec (interp n) c); auto.
  - destruct (IHn H) as (He & Hs & Hh); split; [|split]; auto; intro c; simpl.
    + specialize (He c); destruct (f_eval (interp n) c); auto.
    + specialize (Hs c); destruct (f_spec (interp n) c); auto.
Qed.

(** Untyped preservation of well-formedness. *)
Definition wfm {A} (P : A -> Prop) (f : ctx F -> ctx F * res err A) : Prop :=
  forall c, ctx_wf c -> ctx_wf (fst (f c)) /\ forall a, snd (f c) = Ok a -> P a.

Lemma wfm_both (A B : Type) (P : A -> Prop) (Q : B -> Prop) (R : spec F -> Prop) l r k :
  wfm P l -> wfm Q r -> (forall a b s, P a -> Q b -> k a b = Ok s -> R s) -> wfm R (both l r k).
Proof.
  intros Hl Hr Hk c Hc; unfold both; destruct (Hl c Hc) as [C1 G1].
  destruct (l c) as [c1 x]; simpl in *; destruct x as [a| | |]; simpl in *;
    try (split; [auto | intros ? Q1; discriminate Q1]).
  destruct (Hr c1 C1) as [C2 G2]; destruct (r c1) as [c2 y]; simpl in *;
    destruct y as [b| | |]; simpl in *; try (split; [auto | intros ? Q1; discriminate Q1]).
  split; eauto.
Qed.
Lemma wfm_both_shape (P Q R : bty -> Prop) l r k :
  wfm P l -> wfm Q r -> (forall a b s, P a -> Q b -> k a b = Ok s -> R s) ->
  wfm R (both_shape l r k).
Proof.
  intros Hl Hr Hk c Hc; unfold both_shape; destruct (Hl c Hc) as [C1 G1].
  destruct (l c) as [c1 x]; simpl in *; destruct x as [a| | |]; simpl in *;
    try (split; [auto | intros ? Q1; discriminate Q1]).
  destruct (Hr c1 C1) as [C2 G2]; destruct (r c1) as [c2 y]; simpl in *;
    destruct y as [b| | |]; simpl in *; try (split; [auto | intros ? Q1; discriminate Q1]).
  split; eauto.
Qed.
Lemma wfm_both_eval (P Q R : value F -> Prop) l r k :
  wfm P l -> wfm Q r -> (forall a b s, P a -> Q b -> k a b = Ok s -> R s) ->
  wfm R (both_eval l r k).
Proof.
  intros Hl Hr Hk c Hc; unfold both_eval; destruct (Hl c Hc) as [C1 G1].
  destruct (l c) as [c1 x]; simpl in *; destruct x as [a| | |]; simpl in *;
    try (split; [auto | intros ? Q1; discriminate Q1]).
  destruct (Hr c1 C1) as [C2 G2]; destruct (r c1) as [c2 y]; simpl in *;
    destruct y as [b| | |]; simpl in *; try (split; [auto | intros ? Q1; discriminate Q1]).
  split; eauto.
Qed.
Lemma wfm_post (A B : Type) (P : A -> Prop) (Q : B -> Prop) f (g : res err A -> res err B) :
  wfm P f -> (forall r, (forall a, r = Ok a -> P a) -> forall b, g r = Ok b -> Q b) ->
  wfm Q (fun c => let (c1, r) := f c in (c1, g r)).
Proof.
  intros Hf Hg c Hc; destruct (Hf c Hc) as [C G1]; destruct (f c) as [c1 r]; simpl in *; split; eauto.
Qed.
Lemma wfm_by_spec sp : wfm spec_wf sp -> wfm (@vwf F) (eval_by_spec sp).
Proof.
  intro H; apply (wfm_post _ _ _ _ _ (res_map unwrap) H).
  intros [s| | |] Hs b; simpl; intro Q; try discriminate; apply Ok_inj in Q; subst.
  apply unwrap_wf; auto.
Qed.
Lemma wfm_default_spec ev : wfm (@vwf F) ev -> wfm spec_wf (default_spec ev).
Proof.
  intro H; apply (wfm_post _ _ _ _ _ (res_map Raw) H).
  intros [s| | |] Hs b; simpl; intro Q; try discriminate; apply Ok_inj in Q; subst; simpl; auto.
Qed.
Lemma wfm_default_shape ev : wfm (@vwf F) ev -> wfm bty_wf (default_shape ev).
Proof.
  intro H; apply (wfm_post _ _ _ _ _ (res_map bty_of) H).
  intros [s| | |] Hs b; simpl; intro Q; try discriminate; apply Ok_inj in Q; subst.
  apply vwf_bty; auto.
Qed.
Lemma wfm_const (A : Type) (P : A -> Prop) a : P a -> wfm P (fun c => (c, Ok a)).
Proof. intros H c Hc; simpl; split; auto; intros b Q; apply Ok_inj in Q; subst; auto. Qed.

Lemma zip_like_wf (m : spec F -> spec F -> res incompat (spec F)) x y s : zip_like m -> spec_wf x -> spec_wf y -> m x y = Ok s -> spec_wf s.
Proof.
  intros M Wx Wy E; specialize (M x y Wx Wy); destruct (bcast_bty _ _).
  - destruct M as (s' & E' & _ & W); congruence.
  - destruct M; congruence.
  - tauto.
  - congruence.
Qed.

Lemma power_wf (b e s : spec F) : spec_wf b -> spec_wf e -> power_post b e = Ok s -> spec_wf s /\ spec_bty s = TS.
Proof.
  intros Wb We; unfold power_post.
  destruct (spec_bty b) eqn:Tb; try discriminate; destruct (spec_bty e) eqn:Te; try discriminate.
  assert (G := power_good b e).
  unfold spty, power_post in G; rewrite Tb, Te in G; specialize (G (conj Wb eq_refl) (conj We eq_refl)).
  intro H; rewrite H in G; simpl in G; destruct G as [G1 G2]; split; auto using sty_KS.
Qed.

Lemma contract_spec_wf axes (x y s : spec F) :
  spec_wf x -> spec_wf y -> contract_spec axes x y = Ok s ->
  spec_wf s /\ contract_bty axes (spec_bty x) (spec_bty y) = Some (spec_bty s).
Proof.
  intros Wx Wy E; destruct (contract_bty axes (spec_bty x) (spec_bty y)) as [t|] eqn:T.
  - assert (K := contract_spec_fits axes x y t Wx Wy T); rewrite E in K; simpl in K.
    destruct K as [<- K]; auto.
  - rewrite contract_spec_none in E by auto; discriminate.
Qed.

Lemma map_err_ok (E E' A : Type) (f : E -> E') (r : res E A) a : res_map_err f r = Ok a -> r = Ok a.
Proof. destruct r; simpl; intro H; try discriminate; apply Ok_inj in H; subst; auto. Qed.

Lemma div_ok (x y v : value F) :
  vwf x -> vwf y -> zip_map_id fdiv x y = Ok v ->
  vwf v /\ bcast_bty (bty_of x) (bty_of y) = Ok (bty_of v).
Proof.
  intros Wx Wy; rewrite div_eq by auto; destruct (bcast_bty _ _) as [t| | |] eqn:B; try discriminate.
  intro H; apply Ok_inj in H; subst v; rewrite build_bty; split; auto.
  apply build_wf; eapply bcast_bty_wf; eauto.
Qed.

Lemma wf_all (n : node F) :
  node_wf n ->
  wfm (@vwf F) (f_eval (interp n)) /\ wfm spec_wf (f_spec (interp n)) /\
  wfm bty_wf (f_shape (interp n)).
Proof.
  induction n; simpl; intro W.
  - split; [|split]; intros c Hc; simpl; (split; [auto|]); unfold read, read_spec, read_bty;
      destruct (c i) as [v|] eqn:E; simpl; intros a Q; try discriminate; apply Ok_inj in Q; subst;
      simpl; eauto using vwf_bty.
  - assert (S1 : wfm spec_wf (varadj_spec i t)).
    { intros c Hc; unfold varadj_spec; simpl; split; auto; intros s.
      destruct (c i) as [vi|] eqn:Ei; [|unfold read_bty; rewrite Ei; discriminate].
      destruct (c t) as [vt|] eqn:Et; [|unfold read_bty; rewrite Ei, Et; discriminate].
      destruct (adj_bty (bty_of vi) (bty_of vt)) as [sa|] eqn:Ea.
      - destruct (varadj_spec_ok c i t vi vt sa Ei Et Ea) as (s' & Es & _ & Ws & _).
        unfold varadj_spec in Es; inversion Es as [Q]; rewrite Q; intro Q2; apply Ok_inj in Q2; subst; auto.
      - unfold read_bty; rewrite Ei, Et; simpl; rewrite Ea; discriminate. }
    split; [apply wfm_by_spec; auto|split; auto].
    intros c Hc; unfold varadj_shape; simpl; split; auto; intros s.
    unfold read_bty; destruct (c i) as [vi|]; simpl; try discriminate.
    destruct (c t) as [vt|]; simpl; try discriminate.
    destruct (adj_bty (bty_of vi) (bty_of vt)) as [sa|] eqn:Ea; try discriminate.
    intro Q; apply Ok_inj in Q; subst; eapply adj_bty_wf; eauto.
  - split; [apply wfm_by_spec|split]; apply wfm_const; simpl; auto using vwf_bty.
  - split; [apply wfm_by_spec|split]; apply wfm_const; simpl; auto using spec_wf_bty.
  - destruct (IHn W) as (_ & _ & Hh).
    assert (S1 : wfm bty_wf (constadj_shape (interp n) t)).
    { intros c Hc; unfold constadj_shape; destruct (Hh c Hc) as [C1 G1].
      destruct (f_shape (interp n) c) as [c1 x]; simpl in *; destruct x as [sv| | |]; simpl in *;
        (split; [auto|]); intros s; try discriminate.
      destruct (read c1 t) as [vt|]; simpl; try discriminate.
      destruct (adj_bty sv (bty_of vt)) as [sa|] eqn:Ea; try discriminate.
      intro Q; apply Ok_inj in Q; subst; eapply adj_bty_wf; eauto. }
    assert (S2 : wfm spec_wf (constadj_spec (interp n) t)).
    { apply (wfm_post _ _ _ _ _ (res_map (fun sa => Full sa fzero)) S1).
      intros [s| | |] Hs b; simpl; intro Q; try discriminate; apply Ok_inj in Q; subst; simpl; auto. }
    split; [apply wfm_by_spec; auto|split; auto].
  - destruct (IHn W) as (He & _ & _).
    assert (S1 : wfm (@vwf F) (cached_eval (interp n) k)).
    { intros c Hc; unfold cached_eval, read; destruct (c k) as [v|] eqn:Ek.
      - simpl; split; auto; intros a Q; apply Ok_inj in Q; subst; eauto.
      - destruct (He c Hc) as [C1 G1].
        destruct (f_eval (interp n) c) as [c1 x]; simpl in *; destruct x as [v| | |]; simpl in *;
          try (split; [auto|intros a Q; discriminate Q]).
        split; auto; intros j w; unfold write; destruct (ident_eqb k j); [|apply C1].
        intro Q; inversion Q; subst; auto. }
    split; [auto|split; [apply wfm_default_spec|apply wfm_default_shape]; auto].
  - destruct (IHn W) as (He & Hs & Hh); split; [|split; auto].
    + apply (wfm_post _ _ _ _ _ (res_map (vmutate (un_fn u))) He).
      intros [v| | |] Hv b; simpl; intro Q; try discriminate; apply Ok_inj in Q; subst.
      apply vmutate_wf; auto.
    + apply (wfm_post _ _ _ _ _ (res_map (un_spec_post u)) Hs).
      intros [v| | |] Hv b; simpl; intro Q; try discriminate; apply Ok_inj in Q; subst.
      destruct (un_good u v (sty_of (spec_bty v))) as [G1 _]; auto; split; auto.
  - destruct (IHn W) as (He & Hs & Hh); split; [|split].
    + apply (wfm_post _ _ _ _ _ (res_map (fun v => VScal (vsum v))) He).
      intros [v| | |] Hv b; simpl; intro Q; try discriminate; apply Ok_inj in Q; subst; exact I.
    + apply (wfm_post _ _ _ _ _ (fun r => res_bind r sum_spec_post) Hs).
      intros [v| | |] Hv b; simpl; intro Q; try discriminate.
      assert (K := sum_good v (sty_of (spec_bty v)) (conj (Hv v eq_refl) eq_refl)).
      rewrite Q in K; apply K.
    + apply wfm_const; exact I.
  - destruct W as [W1 W2]; destruct (IHn1 W1) as (_ & Hs1 & _); destruct (IHn2 W2) as (_ & Hs2 & _).
    assert (S1 : wfm spec_wf (both (f_spec (interp n1)) (f_spec (interp n2)) power_post)).
    { eapply wfm_both; eauto; intros a b s Wa Wb E; apply (power_wf a b s); auto. }
    split; [apply wfm_by_spec; auto|split; auto]; apply wfm_const; exact I.
  - destruct W as [W1 W2]; destruct (IHn1 W1) as (_ & Hs1 & Hh1); destruct (IHn2 W2) as (_ & Hs2 & Hh2).
    assert (S1 : wfm spec_wf (both (f_spec (interp n1)) (f_spec (interp n2))
       (fun x y => res_map_err EOutput (add_match x y)))).
    { eapply wfm_both; eauto; intros a b s Wa Wb E; apply map_err_ok in E.
      apply (zip_like_wf _ a b s add_like); auto. }
    split; [apply wfm_by_spec; auto|split; auto].
    eapply wfm_both_shape; eauto; intros a b s Wa Wb E; apply map_err_ok in E; eapply bcast_bty_wf; eauto.
  - destruct W as [W1 W2]; destruct (IHn1 W1) as (_ & Hs1 & Hh1); destruct (IHn2 W2) as (_ & Hs2 & Hh2).
    assert (S1 : wfm spec_wf (both (f_spec (interp n1)) (f_spec (interp n2))
       (fun x y => res_map_err EOutput (sub_match x y)))).
    { eapply wfm_both; eauto; intros a b s Wa Wb E; apply map_err_ok in E.
      apply (zip_like_wf _ a b s sub_like); auto. }
    split; [apply wfm_by_spec; auto|split; auto].
    eapply wfm_both_shape; eauto; intros a b s Wa Wb E; apply map_err_ok in E; eapply bcast_bty_wf; eauto.
  - destruct W as [W1 W2]; destruct (IHn1 W1) as (_ & Hs1 & Hh1); destruct (IHn2 W2) as (_ & Hs2 & Hh2).
    assert (S1 : wfm spec_wf (both (f_spec (interp n1)) (f_spec (interp n2))
       (fun x y => res_map_err EOutput (mul_match x y)))).
    { eapply wfm_both; eauto; intros a b s Wa Wb E; apply map_err_ok in E.
      apply (zip_like_wf _ a b s mul_like); auto. }
    split; [apply wfm_by_spec; auto|split; auto].
    eapply wfm_both_shape; eauto; intros a b s Wa Wb E; apply map_err_ok in E; eapply bcast_bty_wf; eauto.
  - destruct W as [W1 W2]; destruct (IHn1 W1) as (He1 & _ & Hh1); destruct (IHn2 W2) as (He2 & _ & Hh2).
    assert (S1 : wfm (@vwf F) (both_eval (f_eval (interp n1)) (f_eval (interp n2))
       (fun x y => res_map_err EOutput (zip_map_id fdiv x y)))).
    { eapply wfm_both_eval; eauto; intros a b s Wa Wb E; apply map_err_ok in E.
      apply (div_ok a b s); auto. }
    split; [auto|split; [apply wfm_default_spec; auto|]].
    eapply wfm_both_shape; eauto; intros a b s Wa Wb E; apply map_err_ok in E; eapply bcast_bty_wf; eauto.
  - destruct W as [W1 W2]; destruct (IHn1 W1) as (_ & Hs1 & Hh1); destruct (IHn2 W2) as (_ & Hs2 & Hh2).
    assert (S1 : wfm spec_wf (both (f_spec (interp n1)) (f_spec (interp n2))
       (fun x y => res_map_err EOutput (contract_spec axes x y)))).
    { eapply wfm_both; eauto; intros a b s Wa Wb E; apply map_err_ok in E.
      apply (contract_spec_wf axes a b s); auto. }
    split; [apply wfm_by_spec; auto|split; auto].
    eapply wfm_both_shape; eauto; intros a b s Wa Wb E.
    destruct (contract_bty axes a b) eqn:T; try discriminate; apply Ok_inj in E; subst.
    eapply contract_bty_wf; eauto.
Qed.

(** The shape query follows evaluation. *)
Definition shadows {A} (ty : A -> bty) (f : ctx F -> ctx F * res err A)
           (g : ctx F -> ctx F * res err bty) : Prop :=
  forall c c' a, ctx_wf c -> f c = (c', Ok a) -> g c = (c', Ok (ty a)).

Lemma both_inv (A B : Type) (l : ctx F -> ctx F * res err A) (r : ctx F -> ctx F * res err B) k c c' s :
  both l r k c = (c', Ok s) ->
  exists c1 a b, l c = (c1, Ok a) /\ r c1 = (c', Ok b) /\ k a b = Ok s.
Proof.
  unfold both; destruct (l c) as [c1 [a| | |]]; simpl; try (intro H; inversion H; fail).
  destruct (r c1) as [c2 [b| | |]] eqn:Er; simpl; intro H; inversion H; subst; eauto 6.
Qed.
Lemma both_eval_inv (l r : ctx F -> ctx F * res err (value F)) k c c' s :
  both_eval l r k c = (c', Ok s) ->
  exists c1 a b, l c = (c1, Ok a) /\ r c1 = (c', Ok b) /\ k a b = Ok s.
Proof.
  unfold both_eval; destruct (l c) as [c1 [a| | |]]; simpl; try (intro H; inversion H; fail).
  destruct (r c1) as [c2 [b| | |]] eqn:Er; simpl; intro H; inversion H; subst; eauto 6.
Qed.
Lemma both_shape_ok (l r : ctx F -> ctx F * res err bty) k c c1 c2 a b :
  l c = (c1, Ok a) -> r c1 = (c2, Ok b) -> both_shape l r k c = (c2, k a b).
Proof. intros E1 E2; unfold both_shape; rewrite E1; simpl; rewrite E2; auto. Qed.

Lemma shadows_by_spec sp g : shadows (@spec_bty F) sp g -> shadows bty_of (eval_by_spec sp) g.
Proof.
  intros H c c' v Hc E; unfold eval_by_spec in E; destruct (sp c) as [c1 [s| | |]] eqn:Es;
    inversion E; subst; rewrite unwrap_bty; eauto.
Qed.
Lemma shadows_default_spec ev g : shadows (@bty_of F) ev g -> shadows spec_bty (default_spec ev) g.
Proof.
  intros H c c' v Hc E; unfold default_spec in E; destruct (ev c) as [c1 [s| | |]] eqn:Es;
    inversion E; subst; simpl; eauto.
Qed.

Lemma zip_like_bty (m : spec F -> spec F -> res incompat (spec F)) x y s :
  zip_like m -> spec_wf x -> spec_wf y -> m x y = Ok s ->
  bcast_bty (spec_bty x) (spec_bty y) = Ok (spec_bty s).
Proof.
  intros M Wx Wy E; specialize (M x y Wx Wy); destruct (bcast_bty _ _).
  - destruct M as (s' & E' & B & W); congruence.
  - destruct M; congruence.
  - tauto.
  - congruence.
Qed.

Lemma shadows_zip (n1 n2 : node F) m :
  node_wf n1 -> node_wf n2 -> zip_like m ->
  shadows spec_bty (f_spec (interp n1)) (f_shape (interp n1)) ->
  shadows spec_bty (f_spec (interp n2)) (f_shape (interp n2)) ->
  shadows spec_bty (both (f_spec (interp n1)) (f_spec (interp n2)) (fun x y => res_map_err EOutput (m x y)))
          (both_shape (f_shape (interp n1)) (f_shape (interp n2)) bcast_post).
Proof.
  intros W1 W2 M S1 S2 c c' s Hc E.
  destruct (wf_all n1 W1) as (_ & Ws1 & _); destruct (wf_all n2 W2) as (_ & Ws2 & _).
  apply both_inv in E; destruct E as (c1 & a & b & E1 & E2 & E).
  destruct (Ws1 c Hc) as [C1 Wa]; rewrite E1 in C1, Wa; simpl in *.
  destruct (Ws2 c1 C1) as [C2 Wb]; rewrite E2 in C2, Wb; simpl in *.
  erewrite both_shape_ok; [|eapply S1; eauto|eapply S2; eauto].
  apply map_err_ok in E; unfold bcast_post; erewrite zip_like_bty; eauto; reflexivity.
Qed.

Lemma un_post_bty u (s : spec F) : spec_bty (un_spec_post u s) = spec_bty s.
Proof.
  destruct s; simpl; auto; rewrite vmutate_bty; auto; unfold diagonal; apply build_bty.
Qed.

Lemma shape_agrees (n : node F) :
  node_wf n -> shape_pure n = true ->
  shadows bty_of (f_eval (interp n)) (f_shape (interp n)) /\
  shadows spec_bty (f_spec (interp n)) (f_shape (interp n)).
Proof.
  induction n; simpl; intros W SP;
    try (apply andb_true_iff in SP; destruct SP as [SP1 SP2]; destruct W as [W1 W2]).
  - split; intros c c' a Hc; simpl; unfold read, read_spec, read_bty; destruct (c i) as [v|]; simpl;
      intro E; inversion E; subst; auto.
  - assert (S1 : shadows spec_bty (varadj_spec i t) (varadj_shape i t)).
    { intros c c' s Hc.
      destruct (c i) as [vi|] eqn:Ei;
        [|unfold varadj_spec, read_bty; rewrite Ei; intro Q; inversion Q].
      destruct (c t) as [vt|] eqn:Et;
        [|unfold varadj_spec, read_bty; rewrite Ei, Et; intro Q; inversion Q].
      destruct (adj_bty (bty_of vi) (bty_of vt)) as [sa|] eqn:Ea.
      - destruct (varadj_spec_ok c i t vi vt sa Ei Et Ea) as (s' & Es & B & Ws & _).
        rewrite Es; intro Q; inversion Q; subst.
        unfold varadj_shape, read_bty; rewrite Ei, Et; simpl; rewrite Ea; auto.
      - unfold varadj_spec, read_bty; rewrite Ei, Et; simpl; rewrite Ea; intro Q; inversion Q. }
    split; [apply shadows_by_spec|]; auto.
  - split; [apply shadows_by_spec|]; intros c c' a Hc E; inversion E; subst; auto.
  - split; [apply shadows_by_spec|]; intros c c' a Hc E; inversion E; subst; auto.
  - assert (S1 : shadows spec_bty (constadj_spec (interp n) t) (constadj_shape (interp n) t)).
    { intros c c' s Hc; unfold constadj_spec; destruct (constadj_shape (interp n) t c) as [c1 [x| | |]];
        simpl; intro E; inversion E; subst; auto. }
    split; [apply shadows_by_spec|]; auto.
  - assert (S1 : shadows bty_of (cached_eval (interp n) k) (default_shape (cached_eval (interp n) k))).
    { intros c c' a Hc E; unfold default_shape; rewrite E; auto. }
    split; [|apply shadows_default_spec]; auto.
  - destruct (IHn W SP) as [He Hs]; split; intros c c' a Hc E; simpl in E.
    + destruct (f_eval (interp n) c) as [c1 [v| | |]] eqn:Ev; inversion E; subst.
      rewrite vmutate_bty; eapply He; eauto.
    + destruct (f_spec (interp n) c) as [c1 [v| | |]] eqn:Ev; inversion E; subst.
      rewrite un_post_bty; eapply Hs; eauto.
  - destruct (cache_free_ctx n SP) as (Ce & Cs & _); split; intros c c' a Hc E; simpl in E.
    + specialize (Ce c); destruct (f_eval (interp n) c) as [c1 [v| | |]]; inversion E; subst; simpl in *; subst; auto.
    + specialize (Cs c); destruct (wf_all n W) as (_ & Ws & _); destruct (Ws c Hc) as [_ Q].
      destruct (f_spec (interp n) c) as [c1 [v| | |]] eqn:Ev; inversion E; simpl in *.
      assert (K : good (E := err) (spty KS) (sum_spec_post v)).
      { apply sum_good with (k := sty_of (spec_bty v)); split; auto. }
      rewrite H1 in K; destruct K as [_ K]; apply sty_KS in K; rewrite K; congruence.
  - destruct (cache_free_ctx n1 SP1) as (_ & Cs1 & _); destruct (cache_free_ctx n2 SP2) as (_ & Cs2 & _).
    assert (S1 : shadows spec_bty (both (f_spec (interp n1)) (f_spec (interp n2)) power_post)
                   (fun c => (c, Ok TS))).
    { intros c c' s Hc E; assert (X := both_ctx_id _ _ _ _ power_post c Cs1 Cs2).
      rewrite E in X; simpl in X; subst c'.
      apply both_inv in E; destruct E as (c1 & a & b & E1 & E2 & E).
      destruct (wf_all n1 W1) as (_ & Ws1 & _); destruct (wf_all n2 W2) as (_ & Ws2 & _).
      destruct (Ws1 c Hc) as [C1 Wa]; rewrite E1 in C1, Wa; simpl in *.
      destruct (Ws2 c1 C1) as [C2 Wb]; rewrite E2 in C2, Wb; simpl in *.
      destruct (power_wf a b s) as [_ ->]; auto. }
    split; [apply shadows_by_spec|]; auto.
  - destruct (IHn1 W1 SP1), (IHn2 W2 SP2).
    split; [apply shadows_by_spec|]; apply shadows_zip; auto using add_like.
  - destruct (IHn1 W1 SP1), (IHn2 W2 SP2).
    split; [apply shadows_by_spec|]; apply shadows_zip; auto using sub_like.
  - destruct (IHn1 W1 SP1), (IHn2 W2 SP2).
    split; [apply shadows_by_spec|]; apply shadows_zip; auto using mul_like.
  - destruct (IHn1 W1 SP1) as [He1 _], (IHn2 W2 SP2) as [He2 _].
    assert (S1 : shadows bty_of (both_eval (f_eval (interp n1)) (f_eval (interp n2))
       (fun x y => res_map_err EOutput (zip_map_id fdiv x y)))
       (both_shape (f_shape (interp n1)) (f_shape (interp n2)) bcast_post)).
    { intros c c' s Hc E.
      destruct (wf_all n1 W1) as (Ws1 & _ & _); destruct (wf_all n2 W2) as (Ws2 & _ & _).
      apply both_eval_inv in E; destruct E as (c1 & a & b & E1 & E2 & E).
      destruct (Ws1 c Hc) as [C1 Wa]; rewrite E1 in C1, Wa; simpl in *.
      destruct (Ws2 c1 C1) as [C2 Wb]; rewrite E2 in C2, Wb; simpl in *.
      erewrite both_shape_ok; [|eapply He1; eauto|eapply He2; eauto].
      apply map_err_ok in E; unfold bcast_post; apply div_ok in E; auto.
      destruct E as [_ ->]; auto. }
    split; [|apply shadows_default_spec]; auto.
  - destruct (IHn1 W1 SP1) as [_ Hs1], (IHn2 W2 SP2) as [_ Hs2].
    assert (S1 : shadows spec_bty (both (f_spec (interp n1)) (f_spec (interp n2))
       (fun x y => res_map_err EOutput (contract_spec axes x y)))
       (both_shape (f_shape (interp n1)) (f_shape (interp n2))
               (fun x y => match contract_bty axes x y with Some t => Ok t | None => Stuck end))).
    { intros c c' s Hc E.
      destruct (wf_all n1 W1) as (_ & Ws1 & _); destruct (wf_all n2 W2) as (_ & Ws2 & _).
      apply both_inv in E; destruct E as (c1 & a & b & E1 & E2 & E).
      destruct (Ws1 c Hc) as [C1 Wa]; rewrite E1 in C1, Wa; simpl in *.
      destruct (Ws2 c1 C1) as [C2 Wb]; rewrite E2 in C2, Wb; simpl in *.
      erewrite both_shape_ok; [|eapply Hs1; eauto|eapply Hs2; eauto].
      apply map_err_ok in E; apply contract_spec_wf in E; auto.
      destruct E as [_ ->]; auto. }
    split; [apply shadows_by_spec|]; auto.
Qed.

(** Errors of cache-free trees. *)
Definition tracks {A} (c : ctx F) (rs : list err) (r : res err A) : Prop :=
  match r with
  | Ok _ => find (undef_in c) rs = None
  | Err e => find (undef_in c) rs = Some e \/ err_ident e = None
  | _ => True
  end.

Lemma find_app (A : Type) (p : A -> bool) l m :
  find p (l ++ m) = match find p l with Some x => Some x | None => find p m end.
Proof. induction l as [|x l IH]; simpl; auto; destruct (p x); auto. Qed.
Lemma find_map (A B : Type) (p : B -> bool) (q : A -> bool) (f : A -> B) l :
  (forall x, p (f x) = q x) -> find p (map f l) = option_map f (find q l).
Proof. intro H; induction l as [|x l IH]; simpl; auto; rewrite H; destruct (q x); auto. Qed.
Lemma find_ELeft (c : ctx F) l : find (undef_in c) (map ELeft l) = option_map ELeft (find (undef_in c) l).
Proof. apply find_map; auto. Qed.
Lemma find_ERight (c : ctx F) l : find (undef_in c) (map ERight l) = option_map ERight (find (undef_in c) l).
Proof. apply find_map; auto. Qed.

Lemma tracks_post (A B : Type) c rs (r : res err A) (g : A -> res err B) :
  tracks c rs r -> (forall a e, g a = Err e -> err_ident e = None) -> tracks c rs (res_bind r g).
Proof.
  intros H Hg; destruct r as [a| | |]; simpl in *; auto.
  destruct (g a) eqn:E; simpl; auto; right; eauto.
Qed.
Lemma tracks_map (A B : Type) c rs (r : res err A) (g : A -> B) :
  tracks c rs r -> tracks c rs (res_map g r).
Proof. destruct r; auto. Qed.

Lemma tracks_both (A B : Type) c ls rs (l : ctx F -> ctx F * res err A) (r : ctx F -> ctx F * res err B) k :
  fst (l c) = c -> tracks c ls (snd (l c)) -> tracks c rs (snd (r c)) ->
  (forall a b e, k a b = Err e -> err_ident e = None) ->
  tracks c (map ELeft ls ++ map ERight rs) (snd (both l r k c)).
Proof.
  intros C Hl Hr Hk; unfold both; destruct (l c) as [c1 x]; simpl in *; subst c1.
  destruct x as [a|e| |]; simpl in *; auto.
  - destruct (r c) as [c2 y]; simpl in *; destruct y as [b|e| |]; simpl in *; auto.
    + destruct (k a b) eqn:E; simpl; eauto.
      rewrite find_app, find_ELeft, find_ERight, Hl, Hr; auto.
    + destruct Hr as [Hr|Hr]; auto; left; rewrite find_app, find_ELeft, find_ERight, Hl, Hr; auto.
  - destruct Hl as [Hl|Hl]; auto; left; rewrite find_app, find_ELeft, Hl; auto.
Qed.
Lemma tracks_both_shape c ls rs (l r : ctx F -> ctx F * res err bty) k :
  fst (l c) = c -> tracks c ls (snd (l c)) -> tracks c rs (snd (r c)) ->
  (forall a b e, k a b = Err e -> err_ident e = None) ->
  tracks c (map ELeft ls ++ map ERight rs) (snd (both_shape l r k c)).
Proof.
  intros C Hl Hr Hk; unfold both_shape; destruct (l c) as [c1 x]; simpl in *; subst c1.
  destruct x as [a|e| |]; simpl in *; auto.
  - destruct (r c) as [c2 y]; simpl in *; destruct y as [b|e| |]; simpl in *; auto.
    + destruct (k a b) eqn:E; simpl; eauto.
      rewrite find_app, find_ELeft, find_ERight, Hl, Hr; auto.
    + destruct Hr as [Hr|Hr]; auto; left; rewrite find_app, find_ELeft, find_ERight, Hl, Hr; auto.
  - destruct Hl as [Hl|Hl]; auto; left; rewrite find_app, find_ELeft, Hl; auto.
Qed.
Lemma tracks_both_eval c ls rs (l r : ctx F -> ctx F * res err (value F)) k :
  fst (l c) = c -> tracks c ls (snd (l c)) -> tracks c rs (snd (r c)) ->
  (forall a b e, k a b = Err e -> err_ident e = None) ->
  tracks c (map ELeft ls ++ map ERight rs) (snd (both_eval l r k c)).
Proof.
  intros C Hl Hr Hk; unfold both_eval; destruct (l c) as [c1 x]; simpl in *; subst c1.
  destruct x as [a|e| |]; simpl in *; auto.
  - destruct (r c) as [c2 y]; simpl in *; destruct y as [b|e| |]; simpl in *; auto.
    + destruct (k a b) eqn:E; simpl; eauto.
      rewrite find_app, find_ELeft, find_ERight, Hl, Hr; auto.
    + destruct Hr as [Hr|Hr]; auto; left; rewrite find_app, find_ELeft, find_ERight, Hl, Hr; auto.
  - destruct Hl as [Hl|Hl]; auto; left; rewrite find_app, find_ELeft, Hl; auto.
Qed.
Lemma tracks_by_spec c rs sp : tracks c rs (snd (sp c)) -> tracks c rs (snd (@eval_by_spec F SF sp c)).
Proof. intro H; unfold eval_by_spec; destruct (sp c); simpl in *; apply tracks_map; auto. Qed.
Lemma tracks_default_spec c rs ev : tracks c rs (snd (ev c)) -> tracks c rs (snd (@default_spec F ev c)).
Proof. intro H; unfold default_spec; destruct (ev c); simpl in *; apply tracks_map; auto. Qed.

Lemma out_err (A : Type) (r : res incompat A) e : res_map_err EOutput r = Err e -> err_ident e = None.
Proof. destruct r; simpl; intro H; inversion H; auto. Qed.

Lemma power_no_err b e x : power_post b e <> @Err err (spec F) x.
Proof.
  unfold power_post; destruct (spec_bty b); try discriminate; destruct (spec_bty e); try discriminate.
  assert (U : forall g, res_bind (@unwrap_scal F SF err e) (fun x => Ok (Raw (vmutate (g x) (unwrap b)))) <> Err x).
  { intro g; unfold unwrap_scal; destruct (unwrap e); discriminate. }
  destruct e as [?|? y|? y]; try destruct (feq y fzero); try discriminate;
    destruct b as [?|? z|? z]; try apply U;
    destruct (feq z fone); try discriminate; destruct (feq z fzero); try discriminate; apply U.
Qed.

Lemma errors_all (n : node F) (c : ctx F) :
  cache_free n = true ->
  tracks c (reads n) (snd (f_eval (interp n) c)) /\
  tracks c (reads n) (snd (f_spec (interp n) c)) /\
  tracks c (sreads n) (snd (f_shape (interp n) c)).
Proof.
  induction n; simpl; intro CF;
    try (apply andb_true_iff in CF; destruct CF as [H1 H2];
         destruct (cache_free_ctx _ H1) as (Ce & Cs & Ch);
         destruct (IHn1 H1) as (He1 & Hs1 & Hh1); destruct (IHn2 H2) as (He2 & Hs2 & Hh2)).
  - unfold read, read_spec, read_bty; destruct (c i) as [v|] eqn:E; simpl;
      unfold undef_in; simpl; rewrite E; simpl; auto.
  - assert (S1 : tracks c [ELeft (Undefined i); ERight (Undefined t)] (snd (varadj_spec i t c))).
    { unfold varadj_spec, read_bty; simpl; unfold undef_in; simpl.
      destruct (c i) as [vi|] eqn:Ei; simpl; unfold undef_in; simpl; rewrite ?Ei; simpl; auto.
      destruct (c t) as [vt|] eqn:Et; simpl; unfold undef_in; simpl; rewrite ?Ei, ?Et; simpl; auto.
      destruct (adj_bty _ _) as [sa|] eqn:Ea; simpl; auto.
      destruct (varadj_spec_ok c i t vi vt sa Ei Et Ea) as (s' & Es & _).
      unfold varadj_spec, read_bty in Es; rewrite Ei, Et in Es; simpl in Es; rewrite Ea in Es.
      inversion Es as [Q]; rewrite Q; simpl; unfold undef_in; simpl; rewrite Ei, Et; auto. }
    split; [apply (tracks_by_spec c _ (varadj_spec i t)); auto|split; auto].
    unfold varadj_shape, read_bty; simpl.
    destruct (c i) as [vi|] eqn:Ei; simpl; unfold undef_in; simpl; rewrite ?Ei; simpl; auto.
    destruct (c t) as [vt|] eqn:Et; simpl; unfold undef_in; simpl; rewrite ?Ei, ?Et; simpl; auto.
    destruct (adj_bty _ _); simpl; unfold undef_in; simpl; rewrite ?Ei, ?Et; simpl; auto.
  - auto.
  - auto.
  - destruct (cache_free_ctx _ CF) as (_ & _ & Ch); destruct (IHn CF) as (_ & _ & Hh).
    assert (S1 : tracks c (map ELeft (sreads n) ++ [ERight (Undefined t)]) (snd (constadj_shape (interp n) t c))).
    { unfold constadj_shape; specialize (Ch c); destruct (f_shape (interp n) c) as [c1 x]; simpl in *; subst c1.
      destruct x as [sv|e| |]; simpl in *; auto.
      - unfold read; destruct (c t) as [vt|] eqn:Et; simpl.
        + destruct (adj_bty _ _); simpl; auto.
          rewrite find_app, find_ELeft, Hh; simpl; unfold undef_in; simpl; rewrite Et; auto.
        + left; rewrite find_app, find_ELeft, Hh; simpl; unfold undef_in; simpl; rewrite Et; auto.
      - destruct Hh as [Hh|Hh]; auto; left; rewrite find_app, find_ELeft, Hh; auto. }
    assert (S2 : tracks c (map ELeft (sreads n) ++ [ERight (Undefined t)]) (snd (constadj_spec (interp n) t c))).
    { unfold constadj_spec; destruct (constadj_shape (interp n) t c); apply tracks_map; auto. }
    split; [apply tracks_by_spec; auto|split; auto].
  - discriminate.
  - destruct (IHn CF) as (He & Hs & Hh); split; [|split; auto].
    + destruct (f_eval (interp n) c); apply tracks_map; auto.
    + destruct (f_spec (interp n) c); apply tracks_map; auto.
  - destruct (IHn CF) as (He & Hs & Hh); split; [|split; auto].
    + destruct (f_eval (interp n) c); apply tracks_map; auto.
    + destruct (f_spec (interp n) c); apply tracks_post; auto.
      intros s e; destruct s; simpl; try discriminate; destruct (fof_usize _); simpl; discriminate.
  - assert (S1 : tracks c (map ELeft (reads n1) ++ map ERight (reads n2))
                   (snd (both (f_spec (interp n1)) (f_spec (interp n2)) power_post c))).
    { apply tracks_both; auto; intros a b e E; destruct (power_no_err _ _ _ E). }
    split; [apply tracks_by_spec; auto|split; auto]; reflexivity.
  - assert (S1 : tracks c (map ELeft (reads n1) ++ map ERight (reads n2))
                   (snd (both (f_spec (interp n1)) (f_spec (interp n2))
                              (fun x y => res_map_err EOutput (add_match x y)) c))).
    { apply tracks_both; auto; intros a b e; apply out_err. }
    split; [apply tracks_by_spec; auto|split; auto].
    apply tracks_both_shape; auto; intros a b e; apply out_err.
  - assert (S1 : tracks c (map ELeft (reads n1) ++ map ERight (reads n2))
                   (snd (both (f_spec (interp n1)) (f_spec (interp n2))
                              (fun x y => res_map_err EOutput (sub_match x y)) c))).
    { apply tracks_both; auto; intros a b e; apply out_err. }
    split; [apply tracks_by_spec; auto|split; auto].
    apply tracks_both_shape; auto; intros a b e; apply out_err.
  - assert (S1 : tracks c (map ELeft (reads n1) ++ map ERight (reads n2))
                   (snd (both (f_spec (interp n1)) (f_spec (interp n2))
                              (fun x y => res_map_err EOutput (mul_match x y)) c))).
    { apply tracks_both; auto; intros a b e; apply out_err. }
    split; [apply tracks_by_spec; auto|split; auto].
    apply tracks_both_shape; auto; intros a b e; apply out_err.
  - assert (S1 : tracks c (map ELeft (reads n1) ++ map ERight (reads n2))
                   (snd (both_eval (f_eval (interp n1)) (f_eval (interp n2))
                              (fun x y => res_map_err EOutput (zip_map_id fdiv x y)) c))).
    { apply tracks_both_eval; auto; intros a b e; apply out_err. }
    split; [auto|split; [apply tracks_default_spec; auto|]].
    apply tracks_both_shape; auto; intros a b e; apply out_err.
  - assert (S1 : tracks c (map ELeft (reads n1) ++ map ERight (reads n2))
                   (snd (both (f_spec (interp n1)) (f_spec (interp n2))
                              (fun x y => res_map_err EOutput (contract_spec axes x y)) c))).
    { apply tracks_both; auto; intros a b e; apply out_err. }
    split; [apply tracks_by_spec; auto|split; auto].
    apply tracks_both_shape; auto; intros a b e; destruct (contract_bty axes a b); discriminate.
Qed.

(** Progress for typed trees without [Vec]. *)
Definition prg {A} (G : tenv) (P : ident -> Prop) (f : ctx F -> ctx F * res err A) : Prop :=
  forall c, ctx_ok G c ->
    match snd (f c) with
    | Ok _ => True
    | Err e => exists i, err_ident e = Some i /\ P i /\ c i = None
    | _ => False
    end.
Definition mono {A} (f : ctx F -> ctx F * A) : Prop :=
  forall c j, fst (f c) j = None -> c j = None.

Lemma mono_all (n : node F) :
  mono (f_eval (interp n)) /\ mono (f_spec (interp n)) /\ mono (f_shape (interp n)).
Proof.
  destruct (frame_all n) as (H1 & H2 & H3).
  split; [|split]; intros c j Hj; destruct (c j) eqn:E; auto;
    [rewrite (H1 c j) in Hj|rewrite (H2 c j) in Hj|rewrite (H3 c j) in Hj]; try congruence; left; congruence.
Qed.

Lemma prg_both (A B : Type) G (Pl Pr : ident -> Prop) (P : A -> Prop) (Q : B -> Prop) l r k :
  sound G P l -> sound G Q r -> mono l -> prg G Pl l -> prg G Pr r ->
  (forall a b, P a -> Q b -> exists s, k a b = Ok s) ->
  prg G (fun i => Pl i \/ Pr i) (both l r k).
Proof.
  intros Sl Sr Ml Hl Hr Hk c Hc; unfold both; destruct (Sl c Hc) as [C1 G1].
  specialize (Hl c Hc); specialize (Ml c).
  destruct (l c) as [c1 x]; simpl in *; destruct x as [a|e| |]; simpl in *; try tauto.
  - destruct (Sr c1 C1) as [C2 G2]; specialize (Hr c1 C1).
    destruct (r c1) as [c2 y]; simpl in *; destruct y as [b|e| |]; simpl in *; try tauto.
    + destruct (Hk a b G1 G2) as [s ->]; auto.
    + destruct Hr as (i & E1 & E2 & E3); exists i; auto.
  - destruct Hl as (i & E1 & E2 & E3); exists i; auto.
Qed.
Lemma prg_both_shape G (Pl Pr : ident -> Prop) (P Q : bty -> Prop) l r k :
  sound G P l -> sound G Q r -> mono l -> prg G Pl l -> prg G Pr r ->
  (forall a b, P a -> Q b -> exists s, k a b = Ok s) ->
  prg G (fun i => Pl i \/ Pr i) (both_shape l r k).
Proof.
  intros Sl Sr Ml Hl Hr Hk c Hc; unfold both_shape; destruct (Sl c Hc) as [C1 G1].
  specialize (Hl c Hc); specialize (Ml c).
  destruct (l c) as [c1 x]; simpl in *; destruct x as [a|e| |]; simpl in *; try tauto.
  - destruct (Sr c1 C1) as [C2 G2]; specialize (Hr c1 C1).
    destruct (r c1) as [c2 y]; simpl in *; destruct y as [b|e| |]; simpl in *; try tauto.
    + destruct (Hk a b G1 G2) as [s ->]; auto.
    + destruct Hr as (i & E1 & E2 & E3); exists i; auto.
  - destruct Hl as (i & E1 & E2 & E3); exists i; auto.
Qed.
Lemma prg_both_eval G (Pl Pr : ident -> Prop) (P Q : value F -> Prop) l r k :
  sound G P l -> sound G Q r -> mono l -> prg G Pl l -> prg G Pr r ->
  (forall a b, P a -> Q b -> exists s, k a b = Ok s) ->
  prg G (fun i => Pl i \/ Pr i) (both_eval l r k).
Proof.
  intros Sl Sr Ml Hl Hr Hk c Hc; unfold both_eval; destruct (Sl c Hc) as [C1 G1].
  specialize (Hl c Hc); specialize (Ml c).
  destruct (l c) as [c1 x]; simpl in *; destruct x as [a|e| |]; simpl in *; try tauto.
  - destruct (Sr c1 C1) as [C2 G2]; specialize (Hr c1 C1).
    destruct (r c1) as [c2 y]; simpl in *; destruct y as [b|e| |]; simpl in *; try tauto.
    + destruct (Hk a b G1 G2) as [s ->]; auto.
    + destruct Hr as (i & E1 & E2 & E3); exists i; auto.
  - destruct Hl as (i & E1 & E2 & E3); exists i; auto.
Qed.
Lemma prg_by_spec G P sp : prg G P sp -> prg G P (@eval_by_spec F SF sp).
Proof.
  intros H c Hc; specialize (H c Hc); unfold eval_by_spec; destruct (sp c) as [c1 [a| | |]]; auto.
Qed.
Lemma prg_default_spec G P ev : prg G P ev -> prg G P (@default_spec F ev).
Proof.
  intros H c Hc; specialize (H c Hc); unfold default_spec; destruct (ev c) as [c1 [a| | |]]; auto.
Qed.
Lemma prg_default_shape G P ev : prg G P ev -> prg G P (@default_shape F ev).
Proof.
  intros H c Hc; specialize (H c Hc); unfold default_shape; destruct (ev c) as [c1 [a| | |]]; auto.
Qed.
Lemma prg_const (A : Type) G P (a : A) : prg G P (fun c => (c, Ok a)).
Proof. intros c Hc; exact I. Qed.

Lemma adj_sty_novec l r k : adj_sty l r = Some k -> k <> KV.
Proof.
  unfold adj_sty; destruct (sty_dims l); try discriminate; destruct (sty_dims r); try discriminate.
  destruct (shape_concat _ _) as [s|] eqn:E; try discriminate.
  apply shape_concat_dims in E; subst s; destruct (mk_bty _ _) as [t|] eqn:M; try discriminate.
  apply mk_bty_shape in M; intro H; inversion H; subst; destruct t; simpl in *; discriminate.
Qed.

Lemma novec_ty G (n : node F) k :
  novec G n -> typeof G n = Some k -> k <> KV.
Proof.
  revert k; induction n; simpl; intros ty Hn H.
  - congruence.
  - destruct (G i); try discriminate; destruct (G t); try discriminate; simpl in H.
    destruct (self_concat s); try discriminate; eapply adj_sty_novec; eauto.
  - inversion H; subst; auto.
  - inversion H; subst; auto.
  - destruct (typeof G n); try discriminate; destruct (G t); try discriminate; simpl in H.
    eapply adj_sty_novec; eauto.
  - destruct (typeof G n) as [km|] eqn:E; try discriminate; destruct (G k) as [kc|]; try discriminate; simpl in H.
    specialize (IHn km Hn eq_refl).
    destruct km, kc; try discriminate; try (inversion H; subst; congruence).
    destruct (dims_eqb ds ds0); inversion H; subst; discriminate.
  - auto.
  - destruct (typeof G n); inversion H; subst; discriminate.
  - destruct (typeof G n1); try discriminate; destruct (typeof G n2); try discriminate; simpl in H.
    destruct s, s0; inversion H; subst; discriminate.
  - destruct Hn as [V1 V2].
    destruct (typeof G n1) as [k1|]; try discriminate; destruct (typeof G n2) as [k2|]; try discriminate; simpl in H.
    specialize (IHn1 _ V1 eq_refl); specialize (IHn2 _ V2 eq_refl).
    destruct k1, k2; try discriminate; simpl in H; try (inversion H; subst; congruence).
    destruct (dims_eqb ds ds0); inversion H; subst; discriminate.
  - destruct Hn as [V1 V2].
    destruct (typeof G n1) as [k1|]; try discriminate; destruct (typeof G n2) as [k2|]; try discriminate; simpl in H.
    specialize (IHn1 _ V1 eq_refl); specialize (IHn2 _ V2 eq_refl).
    destruct k1, k2; try discriminate; simpl in H; try (inversion H; subst; congruence).
    destruct (dims_eqb ds ds0); inversion H; subst; discriminate.
  - destruct Hn as [V1 V2].
    destruct (typeof G n1) as [k1|]; try discriminate; destruct (typeof G n2) as [k2|]; try discriminate; simpl in H.
    specialize (IHn1 _ V1 eq_refl); specialize (IHn2 _ V2 eq_refl).
    destruct k1, k2; try discriminate; simpl in H; try (inversion H; subst; congruence).
    destruct (dims_eqb ds ds0); inversion H; subst; discriminate.
  - destruct Hn as [V1 V2].
    destruct (typeof G n1) as [k1|]; try discriminate; destruct (typeof G n2) as [k2|]; try discriminate; simpl in H.
    specialize (IHn1 _ V1 eq_refl); specialize (IHn2 _ V2 eq_refl).
    destruct k1, k2; try discriminate; simpl in H; try (inversion H; subst; congruence).
    destruct (dims_eqb ds ds0); inversion H; subst; discriminate.
  - destruct (typeof G n1) as [k1|]; try discriminate; destruct (typeof G n2) as [k2|]; try discriminate; simpl in H.
    revert H; clear; destruct axes as [|[|axes]]; destruct k1 as [| | |[|a [|b [|? ?]]]];
      destruct k2 as [| | |[|a' [|b' [|? ?]]]]; simpl; intro H; try discriminate;
      try (inversion H; subst; discriminate);
      destruct (Nat.eqb _ _); inversion H; subst; discriminate.
Qed.

Lemma zip_sty_ok l r k :
  bty_wf l -> bty_wf r -> zip_sty (sty_of l) (sty_of r) = Some k ->
  sty_of l <> KV \/ sty_of r <> KV -> exists t, bcast_bty l r = Ok t.
Proof.
  intros Wl Wr H V; rewrite bcast_bty_table by auto.
  destruct l as [| |n|a], r as [| |m|b]; simpl in *; try discriminate; eauto.
  - destruct V; congruence.
  - destruct (dims_eqb a b); [eauto|discriminate].
Qed.

Lemma zip_like_ok (m : spec F -> spec F -> res incompat (spec F)) k x y :
  zip_like m -> spec_wf x -> spec_wf y ->
  zip_sty (sty_of (spec_bty x)) (sty_of (spec_bty y)) = Some k ->
  sty_of (spec_bty x) <> KV \/ sty_of (spec_bty y) <> KV ->
  exists s, m x y = Ok s.
Proof.
  intros M Wx Wy H V; specialize (M x y Wx Wy).
  destruct (zip_sty_ok _ _ _ (spec_wf_bty _ Wx) (spec_wf_bty _ Wy) H V) as [t E].
  rewrite E in M; destruct M as (s & -> & _); eauto.
Qed.

Lemma power_ok (b e : spec F) : spty KS b -> spty KS e -> exists s, power_post b e = @Ok err _ s.
Proof.
  intros [Wb Tb] [We Te]; apply sty_KS in Tb, Te; unfold power_post; rewrite Tb, Te.
  destruct (unwrap_scal_ok err e Te) as [x Ex]; rewrite Ex; simpl.
  destruct e as [?|? y|? y]; try destruct (feq y fzero); eauto;
    destruct b as [?|? z|? z]; eauto;
    destruct (feq z fone); eauto; destruct (feq z fzero); eauto.
Qed.

Lemma narrow_square axes (x y : spec F) k :
  contract_sty axes (sty_of (spec_bty x)) (sty_of (spec_bty y)) = Some k ->
  square_sty axes (sty_of (spec_bty x)) (sty_of (spec_bty y)) ->
  narrow axes (spec_bty x) (spec_bty y) = true.
Proof.
  destruct axes as [|[|axes]]; destruct (spec_bty x) as [| |xn|[|n [|m [|? ?]]]];
    destruct (spec_bty y) as [| |yn|[|n' [|m' [|? ?]]]]; simpl; auto; intros C Q.
  - destruct (Nat.eqb n n') eqn:E; [|discriminate]; apply Nat.eqb_eq in E; subst; apply Nat.leb_refl.
  - subst; apply Nat.leb_refl.
Qed.

Lemma prg_zip G (P Q : ident -> Prop) (n1 n2 : node F) m k1 k2 ty :
  zip_like m -> zip_sty k1 k2 = Some ty -> k1 <> KV ->
  sound G (spty k1) (f_spec (interp n1)) -> sound G (spty k2) (f_spec (interp n2)) ->
  prg G P (f_spec (interp n1)) -> prg G Q (f_spec (interp n2)) ->
  prg G (fun i => P i \/ Q i)
      (both (f_spec (interp n1)) (f_spec (interp n2)) (fun x y => res_map_err EOutput (m x y))).
Proof.
  intros M Z V S1 S2 P1 P2; eapply prg_both; eauto.
  - apply mono_all.
  - intros a b [Wa <-] [Wb <-]; destruct (zip_like_ok m ty a b M Wa Wb Z (or_introl V)) as [s ->].
    eexists; reflexivity.
Qed.
Lemma prg_zip_shape G (P Q : ident -> Prop) (n1 n2 : node F) k1 k2 ty :
  zip_sty k1 k2 = Some ty -> k1 <> KV ->
  sound G (bty_ty k1) (f_shape (interp n1)) -> sound G (bty_ty k2) (f_shape (interp n2)) ->
  prg G P (f_shape (interp n1)) -> prg G Q (f_shape (interp n2)) ->
  prg G (fun i => P i \/ Q i)
      (both_shape (f_shape (interp n1)) (f_shape (interp n2)) bcast_post).
Proof.
  intros Z V S1 S2 P1 P2; eapply prg_both_shape; eauto.
  - apply mono_all.
  - intros a b [Wa <-] [Wb <-]; unfold bcast_post.
    destruct (zip_sty_ok a b ty Wa Wb Z (or_introl V)) as [t ->]; eexists; reflexivity.
Qed.

Lemma progress (G : tenv) (n : node F) k :
  fof_total -> node_wf n -> novec G n -> square G n -> typeof G n = Some k ->
  prg G (uses n) (f_eval (interp n)) /\ prg G (uses n) (f_spec (interp n)) /\
  prg G (uses n) (f_shape (interp n)).
Proof.
  intros FT; revert k; induction n; simpl; intros ty W V SQ H.
  - split; [|split]; intros c Hc; simpl; unfold read, read_spec, read_bty;
      destruct (c i) eqn:E; simpl; eauto.
  - destruct (G i) as [ki|] eqn:Gi; [|discriminate]; simpl in H.
    destruct (G t) as [kt|] eqn:Gt; [|discriminate]; simpl in H.
    destruct (self_concat ki); [|discriminate].
    assert (S1 : prg G (fun j => j = i \/ j = t) (varadj_spec i t)).
    { intros c Hc; unfold varadj_spec; simpl.
      destruct (c i) as [vi|] eqn:Ei; [|unfold read_bty; rewrite Ei; simpl; eauto].
      destruct (c t) as [vt|] eqn:Et; [|unfold read_bty; rewrite Ei, Et; simpl; eauto].
      destruct (Hc _ _ Ei) as [Wi Ti], (Hc _ _ Et) as [Wt Tt].
      assert (ki = sty_of (bty_of vi)) by congruence; assert (kt = sty_of (bty_of vt)) by congruence; subst.
      destruct (adj_sty_sound _ _ _ H) as (sa & Ea & Ta).
      destruct (varadj_spec_ok c i t vi vt sa Ei Et Ea) as (s & Es & _).
      unfold varadj_spec in Es; inversion Es as [Q]; rewrite Q; simpl; auto. }
    split; [apply prg_by_spec; auto|split; auto].
    intros c Hc; unfold varadj_shape; simpl.
    destruct (c i) as [vi|] eqn:Ei; [|unfold read_bty; rewrite Ei; simpl; eauto].
    destruct (c t) as [vt|] eqn:Et; [|unfold read_bty; rewrite Ei, Et; simpl; eauto].
    destruct (Hc _ _ Ei) as [Wi Ti], (Hc _ _ Et) as [Wt Tt].
    assert (ki = sty_of (bty_of vi)) by congruence; assert (kt = sty_of (bty_of vt)) by congruence; subst.
    destruct (adj_sty_sound _ _ _ H) as (sa & Ea & Ta).
    unfold read_bty; rewrite Ei, Et; simpl; rewrite Ea; simpl; auto.
  - split; [apply prg_by_spec|split]; apply prg_const.
  - split; [apply prg_by_spec|split]; apply prg_const.
  - destruct (typeof G n) as [km|] eqn:Gm; [|discriminate]; simpl in H.
    destruct (G t) as [kt|] eqn:Gt; [|discriminate]; simpl in H.
    destruct (IHn km W V SQ eq_refl) as (_ & _ & Hsh).
    destruct (typing_sound G n km W Gm) as (_ & _ & Ssh).
    destruct (mono_all n) as (_ & _ & Mh).
    assert (S1 : prg G (fun j => uses n j \/ j = t) (constadj_shape (interp n) t)).
    { intros c Hc; unfold constadj_shape; destruct (Ssh c Hc) as [C1 G1].
      specialize (Hsh c Hc); specialize (Mh c).
      destruct (f_shape (interp n) c) as [c1 x]; simpl in *; destruct x as [sv|e| |]; simpl in *; auto.
      - unfold read; destruct (c1 t) as [vt|] eqn:Et; simpl; [|eauto 6].
        destruct (C1 _ _ Et) as [Wt Tt]; destruct G1 as [Wv Tv].
        assert (kt = sty_of (bty_of vt)) by congruence; subst.
        destruct (adj_sty_sound _ _ _ H) as (sa & Ea & Ta); rewrite Ea; exact I.
      - destruct Hsh as (i & ? & ? & ?); eauto 6. }
    assert (S2 : prg G (fun j => uses n j \/ j = t) (constadj_spec (interp n) t)).
    { intros c Hc; specialize (S1 c Hc); unfold constadj_spec.
      destruct (constadj_shape (interp n) t c) as [c1 [a| | |]]; auto. }
    split; [apply prg_by_spec; auto|split; auto].
  - destruct (typeof G n) as [km|] eqn:Gm; [|discriminate]; simpl in H.
    destruct (IHn km W V SQ eq_refl) as (He & _ & _).
    assert (S1 : prg G (uses n) (cached_eval (interp n) k)).
    { intros c Hc; unfold cached_eval, read; destruct (c k) as [v|] eqn:Ek; simpl; auto.
      specialize (He c Hc); destruct (f_eval (interp n) c) as [c1 [v| | |]]; simpl in *; auto. }
    split; [auto|split; [apply prg_default_spec|apply prg_default_shape]; auto].
  - destruct (IHn ty W V SQ H) as (He & Hs & Hsh); split; [|split; auto]; intros c Hc; simpl.
    + specialize (He c Hc); destruct (f_eval (interp n) c) as [c1 [v| | |]]; simpl in *; auto.
    + specialize (Hs c Hc); destruct (f_spec (interp n) c) as [c1 [v| | |]]; simpl in *; auto.
  - destruct (typeof G n) as [km|] eqn:Gm; [|discriminate].
    destruct (IHn km W V SQ eq_refl) as (He & Hs & _); split; [|split]; intros c Hc; simpl; auto.
    + specialize (He c Hc); destruct (f_eval (interp n) c) as [c1 [v| | |]]; simpl in *; auto.
    + specialize (Hs c Hc); destruct (f_spec (interp n) c) as [c1 [v| | |]]; simpl in *; auto.
      destruct v; simpl; auto.
      destruct (fof_usize _) eqn:E; simpl; auto; destruct (FT _ E).
  - destruct W as [W1 W2], V as [V1 V2], SQ as [Q1 Q2].
    destruct (typeof G n1) as [k1|] eqn:G1; [|discriminate]; simpl in H.
    destruct (typeof G n2) as [k2|] eqn:G2; [|discriminate]; simpl in H.
    destruct k1, k2; inversion H; subst; clear H.
    destruct (IHn1 KS W1 V1 Q1 eq_refl) as (_ & Hs1 & _); destruct (IHn2 KS W2 V2 Q2 eq_refl) as (_ & Hs2 & _).
    destruct (typing_sound G n1 KS W1 G1) as (_ & Ss1 & _); destruct (typing_sound G n2 KS W2 G2) as (_ & Ss2 & _).
    assert (S1 : prg G (fun i => uses n1 i \/ uses n2 i) (both (f_spec (interp n1)) (f_spec (interp n2)) power_post)).
    { eapply prg_both; eauto; [apply mono_all|intros; apply power_ok; auto]. }
    split; [apply prg_by_spec; auto|split; auto]; apply prg_const.
  - destruct W as [W1 W2], V as [V1 V2], SQ as [Q1 Q2].
    destruct (typeof G n1) as [k1|] eqn:G1; [|discriminate]; simpl in H.
    destruct (typeof G n2) as [k2|] eqn:G2; [|discriminate]; simpl in H.
    destruct (IHn1 k1 W1 V1 Q1 eq_refl) as (_ & Hs1 & Hh1); destruct (IHn2 k2 W2 V2 Q2 eq_refl) as (_ & Hs2 & Hh2).
    destruct (typing_sound G n1 k1 W1 G1) as (_ & Ss1 & Sh1); destruct (typing_sound G n2 k2 W2 G2) as (_ & Ss2 & Sh2).
    assert (N1 := novec_ty G n1 k1 V1 G1).
    split; [apply prg_by_spec|split]; try (eapply prg_zip; eauto using add_like); eapply prg_zip_shape; eauto.
  - destruct W as [W1 W2], V as [V1 V2], SQ as [Q1 Q2].
    destruct (typeof G n1) as [k1|] eqn:G1; [|discriminate]; simpl in H.
    destruct (typeof G n2) as [k2|] eqn:G2; [|discriminate]; simpl in H.
    destruct (IHn1 k1 W1 V1 Q1 eq_refl) as (_ & Hs1 & Hh1); destruct (IHn2 k2 W2 V2 Q2 eq_refl) as (_ & Hs2 & Hh2).
    destruct (typing_sound G n1 k1 W1 G1) as (_ & Ss1 & Sh1); destruct (typing_sound G n2 k2 W2 G2) as (_ & Ss2 & Sh2).
    assert (N1 := novec_ty G n1 k1 V1 G1).
    split; [apply prg_by_spec|split]; try (eapply prg_zip; eauto using sub_like); eapply prg_zip_shape; eauto.
  - destruct W as [W1 W2], V as [V1 V2], SQ as [Q1 Q2].
    destruct (typeof G n1) as [k1|] eqn:G1; [|discriminate]; simpl in H.
    destruct (typeof G n2) as [k2|] eqn:G2; [|discriminate]; simpl in H.
    destruct (IHn1 k1 W1 V1 Q1 eq_refl) as (_ & Hs1 & Hh1); destruct (IHn2 k2 W2 V2 Q2 eq_refl) as (_ & Hs2 & Hh2).
    destruct (typing_sound G n1 k1 W1 G1) as (_ & Ss1 & Sh1); destruct (typing_sound G n2 k2 W2 G2) as (_ & Ss2 & Sh2).
    assert (N1 := novec_ty G n1 k1 V1 G1).
    split; [apply prg_by_spec|split]; try (eapply prg_zip; eauto using mul_like); eapply prg_zip_shape; eauto.
  - destruct W as [W1 W2], V as [V1 V2], SQ as [Q1 Q2].
    destruct (typeof G n1) as [k1|] eqn:G1; [|discriminate]; simpl in H.
    destruct (typeof G n2) as [k2|] eqn:G2; [|discriminate]; simpl in H.
    destruct (IHn1 k1 W1 V1 Q1 eq_refl) as (He1 & _ & Hh1); destruct (IHn2 k2 W2 V2 Q2 eq_refl) as (He2 & _ & Hh2).
    destruct (typing_sound G n1 k1 W1 G1) as (Se1 & _ & Sh1); destruct (typing_sound G n2 k2 W2 G2) as (Se2 & _ & Sh2).
    assert (N1 := novec_ty G n1 k1 V1 G1).
    assert (S1 : prg G (fun i => uses n1 i \/ uses n2 i) (both_eval (f_eval (interp n1)) (f_eval (interp n2))
       (fun x y => res_map_err EOutput (zip_map_id fdiv x y)))).
    { eapply prg_both_eval; eauto; [apply mono_all|]. intros a b [Wa <-] [Wb <-].
      rewrite div_eq by auto.
      destruct (zip_sty_ok _ _ ty (vwf_bty _ Wa) (vwf_bty _ Wb) H (or_introl N1)) as [t ->]; eexists; reflexivity. }
    split; [auto|split; [apply prg_default_spec; auto|]]; eapply prg_zip_shape; eauto.
  - destruct W as [W1 W2], V as [V1 V2], SQ as (Q1 & Q2 & Q3).
    destruct (typeof G n1) as [k1|] eqn:G1; [|discriminate]; simpl in H.
    destruct (typeof G n2) as [k2|] eqn:G2; [|discriminate]; simpl in H.
    destruct (IHn1 k1 W1 V1 Q1 eq_refl) as (_ & Hs1 & Hh1); destruct (IHn2 k2 W2 V2 Q2 eq_refl) as (_ & Hs2 & Hh2).
    destruct (typing_sound G n1 k1 W1 G1) as (_ & Ss1 & Sh1); destruct (typing_sound G n2 k2 W2 G2) as (_ & Ss2 & Sh2).
    specialize (Q3 k1 k2 eq_refl eq_refl).
    assert (S1 : prg G (fun i => uses n1 i \/ uses n2 i) (both (f_spec (interp n1)) (f_spec (interp n2))
       (fun x y => res_map_err EOutput (contract_spec axes x y)))).
    { eapply prg_both; eauto; [apply mono_all|]; intros a b [Wa <-] [Wb <-].
      destruct (contract_sty_sound _ _ _ _ H) as (t & Et & Tt).
      assert (K := contract_spec_fits axes a b t Wa Wb Et).
      assert (P := contract_spec_not_panic axes a b t FT Wa Wb Et (narrow_square _ _ _ _ H Q3)).
      destruct (contract_spec axes a b); simpl in *; try tauto; eauto. }
    split; [apply prg_by_spec; auto|split; auto].
    eapply prg_both_shape; eauto; [apply mono_all|]; intros a b [Wa <-] [Wb <-].
    destruct (contract_sty_sound _ _ _ _ H) as (t & Et & Tt); rewrite Et; eauto.
Qed.

End ProgressFacts.
