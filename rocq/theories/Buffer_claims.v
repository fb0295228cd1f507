(** Buffer, spec and contraction facts in the form used by Properties_buffers.v. *)
From Coq Require Import List Arith ZArith Bool Lia Ring.
Import ListNotations.
From Verif Require Import Base Shapes Scalar Buffers Spec Contraction Node Eval Types Instances
  Vocab Math Index_facts Shapes_facts Buffers_facts Spec_facts Subset_facts Contraction_facts
  Contraction_entries Match_facts Eval_facts Typing_facts Progress_facts Exact_facts Math_facts.

Section Plain.
Context {F : Type}.

Lemma build_get E t (f : list nat -> F) ix :
  length ix = length (tdims_of t) ->
  (in_box (tdims_of t) ix -> @get F E (build t f) ix = Ok (Some (f ix))) /\
  (~ in_box (tdims_of t) ix -> @get F E (build t f) ix = Ok None).
Proof.
  intro L; assert (C := contains_box (bty_shape t) ix L).
  assert (U := fun B => @get_unchecked_build F E t f ix B).
  destruct t as [| |n|ds].
  - destruct ix; [|discriminate]; split; auto; intro N; exfalso; apply N; constructor.
  - destruct ix as [|i [|? ?]]; try discriminate; simpl; split; intro B.
    + apply box1_inv in B; destruct B as (j & E1 & Hj); inversion E1; subst j.
      destruct i as [|[|i]]; auto; lia.
    + destruct i as [|[|i]]; auto; exfalso; apply B; change (tdims_of TT) with [2]; apply box1; lia.
  - assert (G : @get F E (build (TV n) f) ix =
                if shape_contains (bty_shape (TV n)) ix
                then res_map Some (@get_unchecked F E (build (TV n) f) ix) else Ok None).
    { unfold get, vshape; cbn [build bty_of bty_shape]; rewrite map_length, seq_length; reflexivity. }
    rewrite G; clear G; destruct (shape_contains (bty_shape (TV n)) ix); split; intro B.
    + rewrite U by auto; reflexivity.
    + exfalso; apply B, C; auto.
    + apply C in B; discriminate.
    + reflexivity.
  - assert (G : @get F E (build (TA ds) f) ix =
                if shape_contains (bty_shape (TA ds)) ix
                then res_map Some (@get_unchecked F E (build (TA ds) f) ix) else Ok None)
      by reflexivity.
    rewrite G; clear G; destruct (shape_contains (bty_shape (TA ds)) ix); split; intro B.
    + rewrite U by auto; reflexivity.
    + exfalso; apply B, C; auto.
    + apply C in B; discriminate.
    + reflexivity.
Qed.

Lemma get_vat E (v : value F) d ix :
  vwf v -> length ix = length (dims (vshape v)) ->
  (in_box (dims (vshape v)) ix -> @get F E v ix = Ok (Some (vat d v ix)) /\
                                  @get_unchecked F E v ix = Ok (vat d v ix)) /\
  (~ in_box (dims (vshape v)) ix -> @get F E v ix = Ok None).
Proof.
  intros W L; rewrite (value_eta d v W); set (g := vat d v); set (t := bty_of v) in *.
  assert (T : dims (vshape (build t g)) = tdims_of t) by (unfold vshape; rewrite build_bty; auto).
  rewrite T; destruct (build_get E t g ix L) as [A B]; split; auto.
  intro I; rewrite vat_build by auto; split; auto; apply get_unchecked_build; auto.
Qed.

Lemma unchecked_outside E (v : value F) ix :
  vwf v -> length ix = length (dims (vshape v)) -> ~ in_box (dims (vshape v)) ix ->
  @get_unchecked F E v ix = Panic.
Proof.
  destruct v as [x|x y|l|ds a]; simpl; intros W L N.
  - destruct ix; [exfalso; apply N; constructor | discriminate].
  - destruct ix as [|i [|j ix]]; try discriminate.
    destruct i as [|[|i]]; auto; exfalso; apply N; repeat constructor.
  - destruct ix as [|i [|j ix]]; try discriminate; simpl.
    destruct (nth_error l i) eqn:Hn; auto; exfalso; apply N.
    repeat constructor; apply nth_error_Some; congruence.
  - rewrite (arr_get_out ds a ix); auto; tauto.
Qed.

Lemma same_diag ix : same_components ix = is_diagonal ix.
Proof.
  apply eq_true_iff_eq; rewrite is_diagonal_equal; destruct ix as [|i l]; simpl.
  - split; auto; intros _ ? ? [].
  - rewrite forallb_forall; split; intro H.
    + assert (E : forall x, i = x \/ In x l -> x = i).
      { intros x [E|E]; auto; apply H in E; apply Nat.eqb_eq in E; auto. }
      intros a b Ha Hb; rewrite (E a Ha), (E b Hb); auto.
    + intros x Hx; apply Nat.eqb_eq, H; auto.
Qed.

Lemma constant_buffers (SF : Scalar F) t (x : F) :
  (bty_of (full t x) = t /\ bty_of (zeroes t) = t /\ bty_of (ones t) = t /\
   bty_of (diagonal t x) = t /\ bty_of (identity t) = t) /\
  forall d ix, in_box (tdims_of t) ix ->
    vat d (full t x) ix = x /\ vat d (zeroes t) ix = fzero /\ vat d (ones t) ix = fone /\
    vat d (diagonal t x) ix = (if same_components ix then x else fzero) /\
    vat d (identity t) ix = (if same_components ix then fone else fzero).
Proof.
  unfold zeroes, ones, identity, diagonal; rewrite !full_build, !build_bty; split; auto.
  intros d ix B; rewrite !vat_build by auto; auto.
Qed.

Lemma mapping (B : Type) (f : F -> B) (g : F -> F) v :
  vwf v ->
  bty_of (vmap f v) = bty_of v /\ vwf (vmap f v) /\
  (forall d d' ix, in_box (dims (vshape v)) ix -> vat d (vmap f v) ix = f (vat d' v ix)) /\
  vmap_ref f v = vmap f v /\ vmutate g v = vmap g v.
Proof.
  intro W; split; [apply vmap_bty|split; [apply vmap_wf; auto|split; [|split]]].
  - intros d d' ix I; rewrite (value_eta d' v W) at 1; rewrite vmap_build, vat_build; auto.
  - apply vmap_ref_vmap.
  - apply vmutate_vmap.
Qed.

Lemma folding (A : Type) (f : A -> F -> A) init d v :
  vwf v -> vfold f init v = fold_left (fun acc ix => f acc (vat d v ix)) (all_ix (dims (vshape v))) init.
Proof. intro W; rewrite (value_eta d v W) at 1; rewrite vfold_build; reflexivity. Qed.

Lemma summing (SF : Scalar F) d v :
  vwf v -> vsum v = fold_left (fun acc ix => fadd acc (vat d v ix)) (all_ix (dims (vshape v))) fzero.
Proof. intro W; unfold vsum; apply folding; auto. Qed.

Lemma subset_build E t base subset (active : list nat -> F) :
  (forall ix, In ix subset -> in_box (tdims_of t) ix) ->
  exists v, @build_subset F E t base subset active = Ok v /\ bty_of v = t /\
    forall d ix, in_box (tdims_of t) ix ->
      (In ix subset -> vat d v ix = active ix) /\ (~ In ix subset -> vat d v ix = base).
Proof.
  intro H; rewrite build_subset_build by auto; eexists; split; [reflexivity|].
  split; [apply build_bty|]; intros d ix B; rewrite vat_build by auto; split; intro I.
  - apply mem_ix_In in I; rewrite I; auto.
  - destruct (mem_ix ix subset) eqn:M; auto; apply mem_ix_In in M; contradiction.
Qed.

(** Elementwise combination. *)
Lemma vat_pick d (v : value F) ix : vat d v (pick (bty_of v) ix) = vat d v ix.
Proof. destruct v; reflexivity. Qed.

Lemma zip_map_entries (B : Type) (f : F -> F -> B) l r v d' :
  vwf l -> vwf r -> zip_map f l r = Ok v ->
  bcast_bty (bty_of l) (bty_of r) = Ok (bty_of v) /\ vwf v /\
  forall d ix, in_box (dims (vshape v)) ix ->
    vat d v ix = if swapped (bty_of l) (bty_of r) then f (vat d' r ix) (vat d' l ix)
                 else f (vat d' l ix) (vat d' r ix).
Proof.
  intros Wl Wr H; rewrite (value_eta d' l Wl), (value_eta d' r Wr) in H.
  rewrite zip_map_build in H by (apply vwf_bty; auto).
  destruct (bcast_bty (bty_of l) (bty_of r)) as [t| | |] eqn:Bt; try discriminate.
  apply Ok_inj in H; subst v; rewrite build_bty; split; auto.
  split; [apply build_wf; eapply bcast_bty_wf; eauto|].
  intros d ix Bx; unfold vshape in Bx; rewrite build_bty in Bx; rewrite vat_build by auto.
  rewrite !vat_pick; reflexivity.
Qed.

Lemma zip_map_pointwise (SF : Scalar F) (B : Type) (f : F -> F -> B) l r v :
  vwf l -> vwf r ->
  ~ (exists x ds a, l = VScal x /\ r = VArr ds a /\ 2 <= length ds) ->
  zip_map f l r = Ok v ->
  vwf v /\ dims (vshape v) = (match dims (vshape l) with [] => dims (vshape r) | ds => ds end) /\
  forall d d' ix, in_box (dims (vshape v)) ix -> vat d v ix = f (vat d' l ix) (vat d' r ix).
Proof.
  intros Wl Wr NS H.
  assert (Sw : swapped (bty_of l) (bty_of r) = false).
  { destruct l, r; simpl bty_of; auto; cbn [swapped]; apply Nat.leb_gt.
    destruct (le_lt_dec 2 (length ds)); auto; exfalso; apply NS; eauto 7. }
  assert (K := fun d' => zip_map_entries B f l r v d' Wl Wr H); rewrite Sw in K.
  destruct (K fzero) as (Bt & Wv & _); split; auto; split; [|intros d d'; apply K].
  destruct (bcast_ok _ _ _ (vwf_bty l Wl) (vwf_bty r Wr) Bt) as [E _].
  change (dims (vshape v)) with (tdims_of (bty_of v)); rewrite E.
  change (dims (vshape l)) with (tdims_of (bty_of l)); destruct (tdims_of (bty_of l)); reflexivity.
Qed.

Lemma zip_map_swapped (B : Type) (f : F -> F -> B) x ds a v :
  vwf (VArr ds a) -> 2 <= length ds -> zip_map f (VScal x) (VArr ds a) = Ok v ->
  vshape v = St ds /\
  forall d d' ix, in_box ds ix -> vat d v ix = f (vat d' (VArr ds a) ix) x.
Proof.
  intros W L H; assert (Sw : swapped (bty_of (VScal x)) (bty_of (VArr ds a)) = true)
    by (cbn [bty_of swapped]; apply Nat.leb_le; auto).
  assert (K := fun d' => zip_map_entries B f (VScal x) (VArr ds a) v d' I W H); rewrite Sw in K.
  destruct (K x) as (Bt & Wv & _).
  rewrite bcast_bty_table in Bt by (simpl; auto; apply (vwf_bty _ W)); cbn [bty_of] in Bt.
  apply Ok_inj in Bt; unfold vshape; rewrite <- Bt; split; auto.
  intros d d' ix Bx; destruct (K d') as (_ & _ & E); rewrite (E d).
  - reflexivity.
  - unfold vshape; rewrite <- Bt; auto.
Qed.

(** When the combination is defined. *)
Lemma zip_map_total (B : Type) (f : F -> F -> B) l r :
  vwf l -> vwf r ->
  bty_of l = bty_of r \/ (bty_of r = TS /\ bty_of l <> TT) \/ (bty_of l = TS /\ bty_of r <> TT) ->
  exists v, zip_map f l r = Ok v.
Proof.
  intros Wl Wr H; destruct l as [x|x y|xs|ds a], r as [x'|x' y'|ys|ds' a']; simpl in *; eauto;
    destruct H as [H|[[H1 H2]|[H1 H2]]]; try discriminate; try congruence.
  - injection H as H; rewrite H, Nat.eqb_refl; simpl; eauto.
  - injection H as ->; assert (E : dims_eqb ds' ds' = true) by (apply dims_eqb_eq; auto); rewrite E; eauto.
Qed.

Lemma zip_map_mismatch (B : Type) (f : F -> F -> B) xs ys :
  length xs <> length ys ->
  zip_map f (VVec xs) (VVec ys) = Err (Incompat (Dy [length xs]) (Dy [length ys])).
Proof. intro H; simpl; apply Nat.eqb_neq in H; rewrite H; reflexivity. Qed.

Lemma zip_mut_map (f : F -> F -> F) l r v :
  zip_mut f l r = Ok v -> zip_map f l r = Ok v.
Proof. destruct l, r; simpl; auto; discriminate. Qed.

Lemma zip_fold_pointwise (A : Type) (f : A -> F * F -> A) init l r :
  vwf l -> vwf r ->
  bty_of l = bty_of r \/ (bty_of r = TS /\ exists ds, bty_of l = TA ds) ->
  forall d, zip_fold f init l r =
    Ok (fold_left (fun acc ix => f acc (vat d l ix, vat d r ix)) (all_ix (dims (vshape l))) init).
Proof.
  intros Wl Wr H d.
  assert (L : forall v E ix, vwf v -> in_box (dims (vshape v)) ix ->
      @get_unchecked F E v ix = Ok (vat d v ix)).
  { intros v E ix W B; rewrite (value_eta d v W) at 1; apply get_unchecked_build; auto. }
  destruct l as [x|x y|xs|ds a], r as [x'|x' y'|ys|ds' a']; try (exfalso; clear - H; simpl in H;
    destruct H as [H|[H1 [ds0 H2]]]; discriminate); try reflexivity.
  - assert (E : length xs = length ys).
    { destruct H as [H|[H _]]; [injection H; auto|discriminate]. }
    cbn [zip_fold]; rewrite E, Nat.eqb_refl, <- E.
    rewrite fold_zip_loop with (hl := vat d (VVec xs)) (hr := vat d (VVec ys)).
    + unfold vshape; cbn [bty_of bty_shape dims all_ix]; rewrite fold_left_flat_map, fold_left_map; reflexivity.
    + intros ix Hi; apply in_map_iff in Hi; destruct Hi as (i & <- & Hi); apply in_seq in Hi.
      apply L; auto; unfold vshape; simpl; apply box1; lia.
    + intros ix Hi; apply in_map_iff in Hi; destruct Hi as (i & <- & Hi); apply in_seq in Hi.
      apply L; auto; unfold vshape; simpl; apply box1; lia.
  - cbn [zip_fold]; rewrite st_indices_iproduct; rewrite fold_zip_loop with (hl := vat d (VArr ds a)) (hr := fun _ => x').
    + reflexivity.
    + intros ix Hi; apply L; auto; unfold vshape; simpl; apply in_iproduct; auto.
    + auto.
  - assert (E : ds = ds').
    { destruct H as [H|[H _]]; [injection H; auto|discriminate]. }
    subst ds'; cbn [zip_fold]; assert (E : dims_eqb ds ds = true) by (apply dims_eqb_eq; auto); rewrite E.
    rewrite st_indices_iproduct; rewrite fold_zip_loop with (hl := vat d (VArr ds a)) (hr := vat d (VArr ds a')).
    + reflexivity.
    + intros ix Hi; apply L; auto; unfold vshape; simpl; apply in_iproduct; auto.
    + intros ix Hi; apply L; auto; unfold vshape; simpl; apply in_iproduct; auto.
Qed.

End Plain.

Section Specs.
Context {F : Type} {SF : Scalar F}.

Lemma spec_map_claim (B : Type) (SB : Scalar B) (f : F -> B) (s : spec F) :
  spec_wf s ->
  unwrap (spec_map f s) = vmap f (unwrap s) /\ spec_shape (spec_map f s) = spec_shape s /\
  vshape (unwrap s) = spec_shape s.
Proof.
  intro W; split; [apply spec_map_unwrap; auto|split].
  - unfold spec_shape; rewrite spec_map_bty; auto.
  - unfold spec_shape, vshape; rewrite unwrap_bty; auto.
Qed.

Lemma spec_zip_claim (B : Type) (SB : Scalar B) (f : F -> F -> B) (l r : spec F) :
  spec_wf l -> spec_wf r ->
  ~ (exists x y ds, l = Full TS x /\ r = Full (TA ds) y /\ 2 <= length ds) ->
  res_map unwrap (spec_zip_map f l r) = zip_map f (unwrap l) (unwrap r).
Proof.
  intros Wl Wr NS.
  assert (T : forall z : res incompat (value B), res_map unwrap (res_map Raw z) = z)
    by (intros [ | | | ]; reflexivity).
  destruct l as [v|t x|t x]; try (apply T).
  destruct r as [v|t' y|t' y]; try (apply T).
  apply spec_zip_map_unwrap; auto; cbn [spec_bty].
  destruct t, t'; auto; cbn [swapped]; apply Nat.leb_gt.
  destruct (le_lt_dec 2 (length ds)); auto; exfalso; apply NS; eauto 7.
Qed.

Lemma centry_holds (EX : exact F) axes x y t a b :
  spec_wf x -> spec_wf y -> sholds x a -> sholds y b ->
  sq axes (spec_bty x) (spec_bty y) ->
  contract_bty axes (spec_bty x) (spec_bty y) = Some t ->
  tdims_of t = tdims (match axes with 0 => outer a b | _ => inner a b end) /\
  forall ix, in_box (tdims_of t) ix ->
    centry axes (spec_bty x) (spec_bty y) (sfun x) (sfun y) ix =
    tat (match axes with 0 => outer a b | _ => inner a b end) ix.
Proof.
  intros Wx Wy [Dx Ex] [Dy Ey] Sq C.
  assert (R : forall u v : F, fmul u v = fmul v u) by (apply (Rmul_comm (ex_ring EX))).
  split.
  - clear - C Dx Dy Sq; destruct axes as [|[|?]]; [| |discriminate];
      destruct (spec_bty x) as [| |?|[|? [|? [|? ?]]]], (spec_bty y) as [| |?|[|? [|? [|? ?]]]];
      try discriminate; cbn [contract_bty] in C;
      try (destruct (Nat.eqb _ _) eqn:Q in C; [|discriminate]; apply Nat.eqb_eq in Q; subst);
      inversion C as [C']; unfold outer, inner; cbn [tdims]; rewrite <- Dx, <- Dy; cbn in *; subst; auto.
  - intros ix B.
    destruct axes as [|[|?]]; [| |discriminate];
      destruct (spec_bty x) as [| |?|[|? [|? [|? ?]]]], (spec_bty y) as [| |?|[|? [|? [|? ?]]]];
      try discriminate; cbn [contract_bty] in C;
      try (destruct (Nat.eqb _ _) eqn:Q in C; [|discriminate]; apply Nat.eqb_eq in Q; subst);
      inversion C as [C']; rewrite <- C' in B; unfold outer, inner; cbn [tat];
      try (rewrite <- Dx); try (rewrite <- Dy); cbn in B |- *; cbn in Sq; subst;
      try (apply in_box_nil in B; subst ix);
      try (apply box1_inv in B; destruct B as (i & -> & Hi));
      try (apply box2_inv in B; destruct B as (i & j & -> & Hi & Hj));
      cbn; rewrite ?(lsum_over);
      try (apply (sum_over_ext EX); intros k Hk; apply in_seq in Hk);
      rewrite ?Ex, ?Ey by (rewrite <- ?Dx, <- ?Dy; cbn; repeat constructor; auto; lia);
      try reflexivity; apply R.
Qed.

Lemma tensor_sholds (v : value F) : sholds (Raw v) (tensor_of v).
Proof. split; auto. Qed.

Lemma square_sq axes x y : square_dims (tensor_of (unwrap x)) (tensor_of (unwrap y)) ->
  sq axes (spec_bty x) (spec_bty y).
Proof.
  unfold square_dims, tensor_of, vshape; cbn [tdims]; rewrite !unwrap_bty; intro H.
  destruct axes as [|[|?]]; simpl; auto;
    destruct (spec_bty x) as [| |?|[|? [|? [|? ?]]]], (spec_bty y) as [| |?|[|? [|? [|? ?]]]]; auto.
Qed.

Lemma sholds_unwrap s : spec_wf s -> sholds s (tensor_of (unwrap s)).
Proof.
  intro W; split; unfold tensor_of, vshape; cbn [tdims tat]; rewrite unwrap_bty; auto.
  intros ix B; rewrite vat_unwrap; auto.
Qed.

(** The product a contraction with [axes] axes stands for. *)
Lemma contract_claim (EX : exact F) axes (l r : value F) t :
  vwf l -> vwf r -> contract_bty axes (bty_of l) (bty_of r) = Some t ->
  (axes = 0 \/ square_dims (tensor_of l) (tensor_of r)) ->
  exists v, contract axes l r = Ok v /\ bty_of v = t /\ vwf v /\
    holds v (match axes with 0 => outer (tensor_of l) (tensor_of r)
             | _ => inner (tensor_of l) (tensor_of r) end).
Proof.
  intros Wl Wr C SQ.
  assert (Sq : sq axes (bty_of l) (bty_of r)).
  { destruct SQ as [-> |SQ]; [simpl; auto|]; apply (square_sq axes (Raw l) (Raw r) SQ). }
  assert (K := contract_dense_ok axes (Raw l) (Raw r) t Wl Wr C (sq_narrow _ _ _ _ C Sq)).
  unfold contract_dense in K; cbn [unwrap spec_bty] in K.
  destruct (contract axes l r) as [v| | |] eqn:Q; try discriminate; apply Ok_inj in K.
  assert (K' : v = build t (centry axes (bty_of l) (bty_of r) (sfun (Raw l)) (sfun (Raw r))))
    by congruence.
  exists v; split; auto; clear Q; subst v; split; [apply build_bty|].
  assert (Wt : bty_wf t) by (eapply contract_bty_wf; eauto).
  split; [apply build_wf; auto|].
  destruct (centry_holds EX axes (Raw l) (Raw r) t (tensor_of l) (tensor_of r)) as [D E];
    auto using tensor_sholds.
  split; [unfold vshape; rewrite build_bty; auto|].
  rewrite <- D; intros ix B; rewrite vat_build by auto; apply E; auto.
Qed.

Lemma contract_spec_claim (EX : exact F) axes (x y : spec F) t :
  spec_wf x -> spec_wf y -> contract_bty axes (spec_bty x) (spec_bty y) = Some t ->
  (axes = 0 \/ square_dims (tensor_of (unwrap x)) (tensor_of (unwrap y))) ->
  exists s v, contract_spec axes x y = Ok s /\ contract axes (unwrap x) (unwrap y) = Ok v /\
    unwrap s = v.
Proof.
  intros Wx Wy C SQ.
  assert (Sq : sq axes (spec_bty x) (spec_bty y)).
  { destruct SQ as [-> |SQ]; [simpl; auto|]; apply square_sq; auto. }
  assert (N := sq_narrow _ _ _ _ C Sq).
  assert (Ft := contract_spec_fits axes x y t Wx Wy C).
  assert (TF : fof_total) by (intros k; rewrite (ex_of EX); discriminate).
  assert (NP := contract_spec_not_panic axes x y t TF Wx Wy C N).
  destruct (fits_ok t _ Ft NP) as (s & Es & Ts & Ws).
  destruct (contract_claim EX axes (unwrap x) (unwrap y) t) as (v & Ev & Tv & Wv & Hv);
    auto using unwrap_wf; try (rewrite !unwrap_bty; auto).
  exists s, v; split; auto; split; auto.
  destruct (contract_holds EX axes x y s _ _ Wx Wy (sholds_unwrap x Wx) (sholds_unwrap y Wy) SQ Es)
    as (_ & Hs & _).
  apply (value_ext fzero); auto using unwrap_wf.
  - rewrite unwrap_bty; congruence.
  - destruct Hs as [D1 E1], Hv as [D2 E2]; rewrite unwrap_bty; intros ix B.
    rewrite vat_unwrap by auto; rewrite D1 in B; rewrite E1, E2; auto.
Qed.

(** Vectors against rectangular matrices. *)
Lemma mat_vec_rect n m a b :
  vwf (VArr [n; m] a : value F) -> vwf (VArr [n] b : value F) ->
  (n < m -> contract 1 (VArr [n; m] a) (VArr [n] b) = Panic) /\
  (m <= n -> exists v, contract 1 (VArr [n; m] a) (VArr [n] b) = Ok v /\ vshape v = St [m] /\
     forall i, i < m -> vat fzero v [i] =
       sum_over (seq 0 m) (fun k => fmul (vat fzero (VArr [n; m] a) [i; k])
                                         (vat fzero (VArr [n] b) [k]))).
Proof.
  intros Wa Wb; rewrite (value_eta fzero _ Wa), (value_eta fzero _ Wb).
  assert (C : contract_bty 1 (TA [n; m]) (TA [n]) = Some (TA [m])) by (simpl; rewrite Nat.eqb_refl; auto).
  split; intro H.
  - apply (contract_wide 1 (TA [n; m]) (TA [n]) (TA [m])); auto; apply Nat.leb_gt; auto.
  - cbn [bty_of]; rewrite (contract_entries 1 (TA [n; m]) (TA [n]) (TA [m])); auto; [|apply Nat.leb_le; auto].
    eexists; split; [reflexivity|]; split; [reflexivity|].
    intros i Hi; rewrite vat_build by (apply box1; auto); cbn [centry nth].
    unfold lsum, sum_over; apply fold_left_ext_in; intros acc k Hk; apply in_seq in Hk.
    rewrite !vat_build; auto; [apply box1; lia | apply box2; lia].
Qed.

Lemma vec_mat_rect n m a b :
  vwf (VArr [n] a : value F) -> vwf (VArr [n; m] b : value F) ->
  (n < m -> contract 1 (VArr [n] a) (VArr [n; m] b) = Panic) /\
  (m <= n -> exists v, contract 1 (VArr [n] a) (VArr [n; m] b) = Ok v /\ vshape v = St [m] /\
     forall i, i < m -> vat fzero v [i] =
       sum_over (seq 0 m) (fun k => fmul (vat fzero (VArr [n] a) [k])
                                         (vat fzero (VArr [n; m] b) [k; i]))).
Proof.
  intros Wa Wb; rewrite (value_eta fzero _ Wa), (value_eta fzero _ Wb).
  assert (C : contract_bty 1 (TA [n]) (TA [n; m]) = Some (TA [m])) by (simpl; rewrite Nat.eqb_refl; auto).
  split; intro H.
  - apply (contract_wide 1 (TA [n]) (TA [n; m]) (TA [m])); auto; apply Nat.leb_gt; auto.
  - cbn [bty_of]; rewrite (contract_entries 1 (TA [n]) (TA [n; m]) (TA [m])); auto; [|apply Nat.leb_le; auto].
    eexists; split; [reflexivity|]; split; [reflexivity|].
    intros i Hi; rewrite vat_build by (apply box1; auto); cbn [centry nth].
    unfold lsum, sum_over; apply fold_left_ext_in; intros acc k Hk; apply in_seq in Hk.
    rewrite !vat_build; auto; [apply box2; lia | apply box1; lia].
Qed.

(** Adjoint leaves. *)
Lemma varadj_claim (G : tenv) (c : ctx F) i t k vi vt :
  ctx_ok G c -> typeof G (@VarAdj F i t) = Some k -> c i = Some vi -> c t = Some vt ->
  exists v, evaluate (VarAdj i t) c = (c, Ok v) /\ vshape v = St (dims (vshape vi) ++ dims (vshape vt)) /\
    forall ix jx, in_box (dims (vshape vi)) ix -> in_box (dims (vshape vt)) jx ->
      (i = t -> ix = jx -> vat fzero v (ix ++ jx) = fone) /\
      (i <> t \/ ix <> jx -> vat fzero v (ix ++ jx) = fzero).
Proof.
  intros Ok T Ei Et.
  destruct (Ok i vi Ei) as [Wi Ki], (Ok t vt Et) as [Wt Kt].
  cbn [typeof] in T; rewrite Ki, Kt in T; cbn [obind] in T.
  destruct (self_concat _); [|discriminate].
  destruct (adj_sty_sound _ _ _ T) as (sa & Ea & _).
  destruct (varadj_spec_ok c i t vi vt sa Ei Et Ea) as (s & Es & Ts & Ws & En).
  exists (unwrap s); split; [|split].
  - unfold evaluate; cbn [interp varadj_fn f_eval]; unfold eval_by_spec; rewrite Es; reflexivity.
  - unfold vshape; rewrite unwrap_bty, Ts; unfold adj_bty in Ea.
    destruct (shape_concat _ _) as [sh|] eqn:Sc; [|discriminate]; rewrite (mk_bty_shape _ _ _ Ea).
    unfold adj_sty in T; destruct vi, vt; cbn [bty_of sty_of sty_dims] in T; try discriminate;
      apply shape_concat_dims in Sc; auto.
  - intros ix jx Bi Bj; rewrite vat_unwrap; auto.
    + rewrite En by auto; unfold ident_eqb; split.
      * intros -> ->; rewrite Nat.eqb_refl, list_nat_eqb_refl; auto.
      * intro N; destruct (Nat.eqb i t && list_nat_eqb ix jx) eqn:Q; auto; exfalso.
        apply andb_true_iff in Q; destruct Q as [Q1 Q2]; apply Nat.eqb_eq in Q1; apply list_nat_eqb_eq in Q2.
        tauto.
    + rewrite Ts, (adj_bty_dims _ _ _ Ea); apply Forall2_app; auto.
Qed.

Lemma constadj_claim (G : tenv) (c : ctx F) w t k vt :
  vwf w -> ctx_ok G c -> typeof G (ConstAdj (Const w) t) = Some k -> c t = Some vt ->
  exists v, evaluate (ConstAdj (Const w) t) c = (c, Ok v) /\
    vshape v = St (dims (vshape w) ++ dims (vshape vt)) /\
    forall ix, in_box (dims (vshape v)) ix -> vat fzero v ix = fzero.
Proof.
  intros Ww Ok T Et; destruct (Ok t vt Et) as [Wt Kt].
  cbn [typeof] in T; rewrite Kt in T; cbn [obind] in T.
  destruct (adj_sty_sound _ _ _ T) as (sa & Ea & _).
  exists (unwrap (Full sa fzero)); split; [|split].
  - unfold evaluate; cbn [interp constadj_fn f_eval]; unfold eval_by_spec, constadj_spec, constadj_shape.
    cbn [const_spec_fn f_shape res_map_err into_spec spec_bty]; unfold read; rewrite Et; simpl; rewrite Ea; reflexivity.
  - unfold vshape; rewrite unwrap_bty; cbn [spec_bty]; unfold adj_bty in Ea.
    destruct (shape_concat _ _) as [sh|] eqn:Sc; [|discriminate]; rewrite (mk_bty_shape _ _ _ Ea).
    unfold adj_sty in T; destruct w, vt; cbn [bty_of sty_of sty_dims] in T; try discriminate;
      apply shape_concat_dims in Sc; auto.
  - intros ix B; unfold vshape in B; rewrite unwrap_bty in B; rewrite vat_unwrap; auto.
    apply (adj_bty_wf _ _ _ Ea).
Qed.

(** Scalar on the left of a matrix, at the level of expressions. *)
Lemma sub_div_swapped (c : ctx F) i j x ds a :
  c i = Some (VScal x) -> c j = Some (VArr ds a) -> vwf (VArr ds a) -> 2 <= length ds ->
  exists v w,
    evaluate (Sub (Var i) (Var j)) c = (c, Ok v) /\ evaluate (Div (Var i) (Var j)) c = (c, Ok w) /\
    vshape v = St ds /\ vshape w = St ds /\
    forall ix, in_box ds ix ->
      vat fzero v ix = fsub (vat fzero (VArr ds a) ix) x /\
      vat fzero w ix = fdiv (vat fzero (VArr ds a) ix) x.
Proof.
  intros Ei Ej W L.
  assert (T : forall f : F -> F -> F, exists v, zip_map f (VScal x) (VArr ds a) = Ok v)
    by (intro f; simpl; eauto).
  destruct (T fsub) as [v Hv], (T fdiv) as [w Hw]; exists v, w.
  destruct (zip_map_swapped F fsub x ds a v W L Hv) as [Sv Ev].
  destruct (zip_map_swapped F fdiv x ds a w W L Hw) as [Sw Ew].
  split; [|split; [|split; [|split]]]; auto.
  - unfold evaluate; cbn [interp sub_fn f_eval f_spec var_fn]; unfold eval_by_spec, both.
    unfold read_spec; rewrite Ei; cbn [option_map ok_or_undef res_map_err into_spec]; rewrite Ej.
    cbn [option_map ok_or_undef res_map_err into_spec sub_match]; unfold zip_dense, into_spec; cbn [unwrap].
    rewrite zip_map_id_eq, Hv; reflexivity.
  - unfold evaluate; cbn [interp div_fn f_eval f_spec var_fn]; unfold both_eval, read.
    rewrite Ei; cbn [option_map ok_or_undef res_map_err into_spec]; rewrite Ej.
    cbn [option_map ok_or_undef res_map_err into_spec].
    rewrite zip_map_id_eq, Hw; reflexivity.
Qed.

End Specs.

(** Class precedence. *)
Lemma precedence_laws :
  (forall c, precedence CScalars c = c /\ precedence c CScalars = c /\ precedence c c = c) /\
  (forall c, c = CVecs \/ c = CArrays -> precedence CTuples c = c /\ precedence c CTuples = c) /\
  (forall a b, (a = CVecs /\ b = CArrays) \/ (a = CArrays /\ b = CVecs) \/
               precedence a b = precedence b a) /\
  (forall a b c, precedence (precedence a b) c = precedence a (precedence b c)).
Proof.
  split; [intros []; auto|split; [intros c [-> | ->]; auto|split]].
  - intros [] []; simpl; auto.
  - intros [] [] []; reflexivity.
Qed.

(** Witnesses. *)
Lemma pair_subset F E (base : F) subset active : exists x y,
  @build_subset F E TT base subset active = Ok (VTup x y) /\
  (In [0] subset -> x = active [0]) /\ (~ In [0] subset -> x = base) /\
  (In [1] subset -> y = active [1]) /\ (~ In [1] subset -> y = base).
Proof.
  cbn [build_subset]; change (full TT base) with (VTup base base).
  assert (G : forall a b, exists x y,
    fold_left (fun acc ix => res_bind acc (fun buf => @subset_step F E active buf ix)) subset (Ok (VTup a b))
      = Ok (VTup x y) /\
    (In [0] subset -> x = active [0]) /\ (~ In [0] subset -> x = a) /\
    (In [1] subset -> y = active [1]) /\ (~ In [1] subset -> y = b)).
  2:{ apply G. }
  induction subset as [|ix l IH]; intros a b.
  - exists a, b; cbn; tauto.
  - cbn [fold_left res_bind subset_step].
    assert (C : ix = [0] \/ ix = [1] \/ (ix <> [0] /\ ix <> [1])).
    { destruct ix as [|[|[|i]] [|j ix]]; auto; right; right; split; discriminate. }
    destruct C as [-> | [-> | [N0 N1]]].
    + destruct (IH (active [0]) b) as (x & y & E1 & H1 & H2 & H3 & H4); exists x, y; cbn [In].
      split; [exact E1|].
      destruct (in_dec (list_eq_dec Nat.eq_dec) [0] l) as [I|I]; split; auto;
        (split; [intro K; exfalso; apply K; auto|]); (split; [intros [K|K]; [discriminate|auto]|auto]).
    + destruct (IH a (active [1])) as (x & y & E1 & H1 & H2 & H3 & H4); exists x, y; cbn [In].
      split; [exact E1|].
      split; [intros [K|K]; [discriminate|auto]|]; split; [intro K; apply H2; auto|].
      destruct (in_dec (list_eq_dec Nat.eq_dec) [1] l) as [I|I]; split; auto; intro K; exfalso; apply K; auto.
    + destruct (IH a b) as (x & y & E1 & H1 & H2 & H3 & H4); exists x, y; cbn [In].
      split; [destruct ix as [|[|[|i]] [|j ix]]; try congruence; exact E1|].
      split; [intros [K|K]; [congruence|auto]|]; split; [intro K; apply H2; auto|].
      split; [intros [K|K]; [congruence|auto]|]; intro K; apply H4; auto.
Qed.

Lemma tuple_subset_ignored :
  exists (t : bty) (ix : list nat), ~ in_box (tdims_of t) ix /\ length ix = length (tdims_of t) /\
    forall F E (base : F) active, @build_subset F E t base [ix] active = Ok (VTup base base).
Proof.
  exists TT, [2]; split; [|split; auto].
  intro B; apply box1_inv in B; destruct B as (i & Q & Hi); inversion Q; lia.
Qed.

Lemma spec_zip_differs :
  let S := Z_scalar in
  exists (l r : spec Z), spec_wf l /\ spec_wf r /\
    exists v w, res_map unwrap (spec_zip_map Z.sub l r) = Ok v /\
                zip_map Z.sub (unwrap l) (unwrap r) = Ok w /\ v <> w.
Proof.
  exists (Full TS 5%Z), (Full (TA [1; 1]) 3%Z); split; [exact I|]; split; [simpl; lia|].
  eexists; eexists; split; [reflexivity|]; split; [reflexivity|]; vm_compute; discriminate.
Qed.

Lemma zip_scalar_swaps :
  exists (l r v : value Z) ix, vwf l /\ vwf r /\ zip_map Z.sub l r = Ok v /\
    in_box (dims (vshape v)) ix /\ vat 0%Z v ix <> Z.sub (vat 0%Z l ix) (vat 0%Z r ix).
Proof.
  exists (VScal 5%Z), (VArr [1; 1] (AN [AN [AF 3%Z]])), (VArr [1; 1] (AN [AN [AF (-2)%Z]])), [0; 0].
  split; [exact I|]; split; [simpl; repeat constructor|]; split; [reflexivity|].
  split; [repeat constructor|]; vm_compute; discriminate.
Qed.

Lemma contract_wrong :
  let S := Z_scalar in
  (exists l r : value Z, vwf l /\ vwf r /\ contract_bty 1 (bty_of l) (bty_of r) <> None /\
     contract 1 l r = Panic) /\
  (exists l r v : value Z, vwf l /\ vwf r /\ contract 1 l r = Ok v /\
     ~ holds v (inner (tensor_of l) (tensor_of r))) /\
  (exists x y : spec Z, spec_wf x /\ spec_wf y /\ exists s, contract_spec 1 x y = Ok s /\
     contract 1 (unwrap x) (unwrap y) = Panic).
Proof.
  split; [|split].
  - exists (VArr [2; 3]%nat (AN [AN [AF 1; AF 2; AF 3]; AN [AF 4; AF 5; AF 6]]))%Z,
           (VArr [2]%nat (AN [AF 1; AF 1]))%Z.
    split; [simpl; repeat constructor|]; split; [simpl; repeat constructor|].
    split; [discriminate|reflexivity].
  - exists (VArr [2; 1]%nat (AN [AN [AF 1]; AN [AF 1]]))%Z, (VArr [2]%nat (AN [AF 1; AF 1]))%Z,
           (VArr [1]%nat (AN [AF 1]))%Z.
    split; [simpl; repeat constructor|]; split; [simpl; repeat constructor|].
    split; [reflexivity|]; intros [D _]; discriminate.
  - exists (Full (TA [2; 3]) 0%Z), (Raw (VArr [2]%nat (AN [AF 1; AF 1]))%Z).
    split; [simpl; lia|]; split; [simpl; repeat constructor|].
    eexists; split; reflexivity.
Qed.

Lemma precedence_order : exists a b, precedence a b <> precedence b a.
Proof. exists CArrays, CVecs; discriminate. Qed.
