(** Soundness of the static typing rules. *)
From Coq Require Import List Arith Bool Lia.
Import ListNotations.
From Verif Require Import Base Shapes Scalar Buffers Spec Contraction Node Eval Types Vocab
  Index_facts Buffers_facts Spec_facts Contraction_facts Subset_facts Match_facts Eval_facts.

Section TypingFacts.
Context {F : Type} {SF : Scalar F}.

Definition good {E A} (P : A -> Prop) (r : res E A) : Prop :=
  match r with Ok a => P a | Stuck => False | _ => True end.

Lemma good_bind (E A B : Type) (P : A -> Prop) (Q : B -> Prop) (r : res E A) (f : A -> res E B) :
  good P r -> (forall a, P a -> good Q (f a)) -> good Q (res_bind r f).
Proof. destruct r; simpl; auto. Qed.
Lemma good_map (E A B : Type) (P : A -> Prop) (Q : B -> Prop) (r : res E A) (f : A -> B) :
  good P r -> (forall a, P a -> Q (f a)) -> good Q (res_map f r).
Proof. destruct r; simpl; auto. Qed.
Lemma good_map_err (E E' A : Type) (P : A -> Prop) (r : res E A) (f : E -> E') :
  good P r -> good P (res_map_err f r).
Proof. destruct r; simpl; auto. Qed.

Definition vty (k : sty) (v : value F) : Prop := vwf v /\ sty_of (bty_of v) = k.
Definition spty (k : sty) (s : spec F) : Prop := spec_wf s /\ sty_of (spec_bty s) = k.
Definition bty_ty (k : sty) (t : bty) : Prop := bty_wf t /\ sty_of t = k.

(** A method keeps the context well typed and returns a result of type [k]. *)
Definition sound {A} (G : tenv) (P : A -> Prop) (f : ctx F -> ctx F * res err A) : Prop :=
  forall c, ctx_ok G c -> ctx_ok G (fst (f c)) /\ good P (snd (f c)).

Lemma mk_bty_wf c s t : mk_bty c s = Some t -> bty_wf t.
Proof.
  destruct c, s as [ds|ds]; cbv beta iota delta [mk_bty]; try discriminate.
  - destruct ds; intro H; inversion H; exact I.
  - destruct ds as [|d [|]]; try discriminate; destruct (Nat.eqb d 2); intro H; inversion H; exact I.
  - destruct ds as [|d [|]]; intro H; inversion H; exact I.
  - destruct ((1 <=? length ds) && (length ds <=? 5)) eqn:E; intro H; inversion H; subst.
    apply andb_true_iff in E; rewrite !Nat.leb_le in E; exact E.
Qed.

Lemma adj_bty_wf l r t : adj_bty l r = Some t -> bty_wf t.
Proof.
  unfold adj_bty; destruct (shape_concat _ _); try discriminate; apply mk_bty_wf.
Qed.

Lemma adj_sty_sound l r k :
  adj_sty (sty_of l) (sty_of r) = Some k ->
  exists t, adj_bty l r = Some t /\ sty_of t = k.
Proof.
  unfold adj_sty, adj_bty; destruct l as [| |n|a], r as [| |m|b]; simpl sty_of; simpl sty_dims;
    cbv beta iota; try discriminate; cbn [bty_shape sty_cls bty_cls];
    destruct (shape_concat _ _) as [s|]; try discriminate;
    destruct (mk_bty _ _) as [t|]; simpl; intro H; inversion H; eauto.
Qed.

Lemma zip_sty_sound l r k :
  bty_wf l -> bty_wf r -> zip_sty (sty_of l) (sty_of r) = Some k ->
  good (bty_ty k) (bcast_bty l r).
Proof.
  intros Wl Wr; rewrite bcast_bty_table by auto.
  destruct l as [| |n|a], r as [| |m|b]; simpl; intro H; inversion H; subst; simpl;
    try (split; auto; fail); auto.
  - destruct (Nat.eqb n m); simpl; auto; split; simpl; auto.
  - destruct (dims_eqb a b); [|discriminate]; inversion H; subst; split; auto.
Qed.

Lemma contract_sty_sound axes l r k :
  contract_sty axes (sty_of l) (sty_of r) = Some k ->
  exists t, contract_bty axes l r = Some t /\ sty_of t = k.
Proof.
  destruct axes as [|[|axes]]; destruct l as [| |xn|[|n [|m [|? ?]]]];
    destruct r as [| |yn|[|n' [|m' [|? ?]]]]; simpl; intro H; try discriminate;
    try (inversion H; subst; eexists; split; reflexivity);
    destruct (Nat.eqb _ _); inversion H; subst; eexists; split; reflexivity.
Qed.

Lemma contract_bty_wf axes l r t : contract_bty axes l r = Some t -> bty_wf t.
Proof.
  destruct axes as [|[|axes]]; destruct l as [| |xn|[|n [|m [|? ?]]]];
    destruct r as [| |yn|[|n' [|m' [|? ?]]]]; simpl; intro H; try discriminate;
    try (inversion H; subst; simpl; auto; lia);
    destruct (Nat.eqb _ _); inversion H; subst; simpl; auto; lia.
Qed.

Lemma zip_like_good m k x y :
  zip_like m -> spec_wf x -> spec_wf y ->
  zip_sty (sty_of (spec_bty x)) (sty_of (spec_bty y)) = Some k ->
  good (spty k) (m x y).
Proof.
  intros M Wx Wy H; specialize (M x y Wx Wy).
  assert (Z := zip_sty_sound _ _ _ (spec_wf_bty _ Wx) (spec_wf_bty _ Wy) H).
  destruct (bcast_bty _ _) as [t|e| |]; simpl in *; try tauto.
  - destruct M as (s & -> & E & W); simpl; split; auto; rewrite E; apply Z.
  - destruct M as [-> | ->]; simpl; auto.
Qed.

Lemma sound_both (A B : Type) G (P : A -> Prop) (Q : B -> Prop) (R : spec F -> Prop) l r k :
  sound G P l -> sound G Q r -> (forall a b, P a -> Q b -> good R (k a b)) ->
  sound G R (both l r k).
Proof.
  intros Hl Hr Hk c Hc; unfold both; destruct (Hl c Hc) as [C1 G1].
  destruct (l c) as [c1 x]; simpl in *; destruct x as [a| | |]; simpl in *; auto.
  destruct (Hr c1 C1) as [C2 G2]; destruct (r c1) as [c2 y]; simpl in *;
    destruct y as [b| | |]; simpl in *; auto.
Qed.
Lemma sound_both_shape G (P Q R : bty -> Prop) l r k :
  sound G P l -> sound G Q r -> (forall a b, P a -> Q b -> good R (k a b)) ->
  sound G R (both_shape l r k).
Proof.
  intros Hl Hr Hk c Hc; unfold both_shape; destruct (Hl c Hc) as [C1 G1].
  destruct (l c) as [c1 x]; simpl in *; destruct x as [a| | |]; simpl in *; auto.
  destruct (Hr c1 C1) as [C2 G2]; destruct (r c1) as [c2 y]; simpl in *;
    destruct y as [b| | |]; simpl in *; auto.
Qed.
Lemma sound_both_eval G (P Q R : value F -> Prop) l r k :
  sound G P l -> sound G Q r -> (forall a b, P a -> Q b -> good R (k a b)) ->
  sound G R (both_eval l r k).
Proof.
  intros Hl Hr Hk c Hc; unfold both_eval; destruct (Hl c Hc) as [C1 G1].
  destruct (l c) as [c1 x]; simpl in *; destruct x as [a| | |]; simpl in *; auto.
  destruct (Hr c1 C1) as [C2 G2]; destruct (r c1) as [c2 y]; simpl in *;
    destruct y as [b| | |]; simpl in *; auto.
Qed.

Lemma sound_post (A B : Type) G (P : A -> Prop) (Q : B -> Prop) f (g : res err A -> res err B) :
  sound G P f -> (forall r, good P r -> good Q (g r)) ->
  sound G Q (fun c => let (c1, r) := f c in (c1, g r)).
Proof.
  intros Hf Hg c Hc; destruct (Hf c Hc) as [C G1]; destruct (f c) as [c1 r]; simpl in *; auto.
Qed.

Lemma sound_by_spec G k sp : sound G (spty k) sp -> sound G (vty k) (eval_by_spec sp).
Proof.
  intro H; apply (sound_post _ _ _ _ _ _ (res_map unwrap) H).
  intros r Hr; eapply good_map; [exact Hr|]; intros s [W T]; split.
  - apply unwrap_wf; auto.
  - rewrite unwrap_bty; auto.
Qed.
Lemma sound_default_spec G k ev : sound G (vty k) ev -> sound G (spty k) (default_spec ev).
Proof.
  intro H; apply (sound_post _ _ _ _ _ _ (res_map Raw) H).
  intros r Hr; eapply good_map; [exact Hr|]; intros s [W T]; split; auto.
Qed.
Lemma sound_default_shape G k ev : sound G (vty k) ev -> sound G (bty_ty k) (default_shape ev).
Proof.
  intro H; apply (sound_post _ _ _ _ _ _ (res_map bty_of) H).
  intros r Hr; eapply good_map; [exact Hr|]; intros s [W T]; split; auto using vwf_bty.
Qed.

Lemma sound_const (A : Type) G (P : A -> Prop) r : good P r -> sound G P (fun c => (c, r)).
Proof. intros H c Hc; auto. Qed.

Lemma spec_bty_full_scal (s : spec F) : spec_bty s = TS -> exists x, unwrap s = VScal x.
Proof. intro H; rewrite <- unwrap_bty in H; apply bty_TS; auto. Qed.

Lemma sty_KS t : sty_of t = KS -> t = TS.
Proof. destruct t; simpl; intro H; inversion H; auto. Qed.

Lemma power_good b e : spty KS b -> spty KS e -> good (spty KS) (power_post b e).
Proof.
  intros [Wb Tb] [We Te]; apply sty_KS in Tb, Te; unfold power_post; rewrite Tb, Te.
  destruct (spec_bty_full_scal _ Tb) as [xb Eb].
  assert (G : good (spty KS) (res_bind (@unwrap_scal F SF err e) (fun x =>
             Ok (Raw (vmutate (fun y => fpow y x) (unwrap b)))))).
  { destruct (unwrap_scal_ok err e Te) as [x ->]; simpl; rewrite Eb; simpl; split; simpl; auto. }
  assert (G2 : good (E := err) (spty KS) (match b with
        | Full sx fx =>
            if feq fx fone then Ok (Full sx fx)
            else if feq fx fzero then Ok (Full sx fx)
            else (res_bind (@unwrap_scal F SF err e) (fun x =>
             Ok (Raw (vmutate (fun y => fpow y x) (unwrap b)))))
        | _ => (res_bind (@unwrap_scal F SF err e) (fun x =>
             Ok (Raw (vmutate (fun y => fpow y x) (unwrap b)))))
        end)).
  { destruct b as [v|t x|t x]; auto.
    simpl in Tb; subst t.
    destruct (feq x fone); [split; simpl; auto|].
    destruct (feq x fzero); [split; simpl; auto|]; exact G. }
  destruct e as [v|t x|t x]; auto; simpl; destruct (feq x fzero); auto; split; simpl; auto.
Qed.

Lemma sum_good s k : spty k s -> good (spty KS) (sum_spec_post s).
Proof.
  intros [W T]; destruct s; simpl; try (split; simpl; auto).
  destruct (fof_usize _); simpl; auto; split; simpl; auto.
Qed.

Lemma un_good u s k : spty k s -> spty k (un_spec_post u s).
Proof.
  intros [W T]; destruct s; simpl in *; auto; split; simpl; auto;
    rewrite ?vmutate_bty, ?full_bty; auto using vmutate_wf.
  - apply vmutate_wf, build_wf; auto.
  - unfold diagonal; rewrite build_bty; auto.
Qed.

Lemma read_good G (c : ctx F) i k :
  ctx_ok G c -> G i = Some k -> good (vty k) (ok_or_undef i (read c i)).
Proof.
  intros H Hi; unfold read; destruct (c i) as [v|] eqn:E; simpl; auto.
  destruct (H i v E) as [W T]; split; congruence.
Qed.

Lemma read_bty_good G (c : ctx F) i k :
  ctx_ok G c -> G i = Some k -> good (bty_ty k) (ok_or_undef i (read_bty c i)).
Proof.
  intros H Hi; unfold read_bty; destruct (c i) as [v|] eqn:E; simpl; auto.
  destruct (H i v E) as [W T]; split; [apply vwf_bty; auto | congruence].
Qed.

Lemma shape_concat_dims a b s : shape_concat (St a) (St b) = Some s -> s = St (a ++ b).
Proof. unfold shape_concat; destruct (_ && _); intro H; inversion H; auto. Qed.

Lemma mk_bty_shape c s t : mk_bty c s = Some t -> bty_shape t = s.
Proof.
  destruct c, s as [ds|ds]; cbv beta iota delta [mk_bty]; try discriminate.
  - destruct ds; intro H; inversion H; auto.
  - destruct ds as [|d [|]]; try discriminate; destruct (Nat.eqb d 2) eqn:E; intro H; inversion H.
    apply Nat.eqb_eq in E; subst; auto.
  - destruct ds as [|d [|]]; intro H; inversion H; auto.
  - destruct ((1 <=? length ds) && (length ds <=? 5)); intro H; inversion H; auto.
Qed.

(** The dimensions of an adjoint type. *)
Lemma adj_bty_dims l r t : adj_bty l r = Some t -> tdims_of t = tdims_of l ++ tdims_of r.
Proof.
  unfold adj_bty, tdims_of; destruct (shape_concat _ _) as [s|] eqn:E; try discriminate.
  intro H; apply mk_bty_shape in H; rewrite H.
  destruct (bty_shape l) as [a|a], (bty_shape r) as [b|b]; unfold shape_concat in E;
    try discriminate; destruct (_ && _); inversion E; auto.
Qed.

Lemma varadj_ixs_in ds ix :
  In ix (map (fun p => concat_indices (fst p) (snd p)) (combine (st_indices ds) (st_indices ds))) <->
  exists jx, in_box ds jx /\ ix = jx ++ jx.
Proof.
  rewrite in_map_iff, st_indices_iproduct; split.
  - intros ((a & b) & <- & H); simpl.
    assert (a = b /\ In a (iproduct ds)) as [-> Hb].
    { revert H; induction (iproduct ds) as [|x l IH]; simpl; intros H; [destruct H|].
      destruct H as [H|H]; [inversion H; subst; auto|]; destruct (IH H); auto. }
    exists b; split; auto; apply in_iproduct; auto.
  - intros (jx & Hj & ->); exists (jx, jx); split; auto.
    apply in_iproduct in Hj; induction (iproduct ds) as [|x l IH]; simpl in *; auto.
    destruct Hj as [->|Hj]; auto.
Qed.

Lemma app_inj_length (A : Type) (a b c d : list A) :
  length a = length c -> a ++ b = c ++ d -> a = c /\ b = d.
Proof.
  revert c; induction a as [|x a IH]; intros [|y c]; simpl; intros L E; try discriminate; auto.
  inversion E; subst; destruct (IH c) as [-> ->]; auto.
Qed.

(** Entries of a variable's adjoint. *)
Lemma varadj_spec_ok (c : ctx F) i t vi vt sa :
  c i = Some vi -> c t = Some vt -> adj_bty (bty_of vi) (bty_of vt) = Some sa ->
  exists s, varadj_spec i t c = (c, Ok s) /\ spec_bty s = sa /\ spec_wf s /\
    forall ix jx, in_box (dims (vshape vi)) ix -> in_box (dims (vshape vt)) jx ->
      sfun s (ix ++ jx) = if ident_eqb i t && list_nat_eqb ix jx then fone else fzero.
Proof.
  intros Ei Et Ha; assert (W := adj_bty_wf _ _ _ Ha); assert (D := adj_bty_dims _ _ _ Ha).
  unfold varadj_spec, read_bty; rewrite Ei, Et; simpl; rewrite Ha.
  destruct (ident_eqb i t) eqn:Eit.
  2:{ eexists; split; [reflexivity|]; simpl; auto. }
  apply ident_eqb_eq in Eit; subst t; assert (vt = vi) by congruence; subst vt; clear Et.
  destruct (Nat.eqb _ 2) eqn:E2.
  - eexists; split; [reflexivity|]; simpl; split; [auto|split; [auto|]].
    intros ix jx Hi Hj; apply in_box_length in Hi as Li; apply in_box_length in Hj as Lj.
    apply Nat.eqb_eq in E2; unfold shape_DIM in E2; fold (vshape vi) in E2.
    destruct ix as [|x [|]], jx as [|y [|]]; simpl in Li, Lj; try lia.
    simpl; rewrite !andb_true_r; destruct (Nat.eqb x y); auto.
  - rewrite build_subset_build.
    2:{ intros ix Hx; apply varadj_ixs_in in Hx; destruct Hx as (jx & Hj & ->).
        rewrite D; apply in_box_app2; auto. }
    eexists; split; [reflexivity|]; simpl; split; [apply build_bty|split; [apply build_wf; auto|]].
    intros ix jx Hi Hj; rewrite vat_build by (rewrite D; apply in_box_app2; auto).
    destruct (mem_ix _ _) eqn:M.
    + apply mem_ix_In in M; apply varadj_ixs_in in M; destruct M as (kx & Hk & E).
      apply in_box_length in Hi as Li; apply in_box_length in Hk as Lk.
      assert (ix = kx /\ jx = kx) as [-> ->].
      { apply app_inj_length; auto; unfold vshape in Li; congruence. }
      rewrite list_nat_eqb_refl; auto.
    + destruct (list_nat_eqb ix jx) eqn:Q; auto.
      apply list_nat_eqb_eq in Q; subst jx.
      assert (K : In (ix ++ ix) (map (fun p => concat_indices (fst p) (snd p))
          (combine (st_indices (dims (bty_shape (bty_of vi)))) (st_indices (dims (bty_shape (bty_of vi)))))))
        by (apply varadj_ixs_in; exists ix; auto).
      apply mem_ix_In in K; congruence.
Qed.

Lemma typing_sound (G : tenv) n k :
  node_wf n -> typeof G n = Some k ->
  sound G (vty k) (f_eval (interp n)) /\
  sound G (spty k) (f_spec (interp n)) /\
  sound G (bty_ty k) (f_shape (interp n)).
Proof.
  revert k; induction n; simpl; intros ty W H.
  - (* Var *)
    split; [|split]; intros c Hc; simpl; (split; [auto|]).
    + apply read_good with (G := G); auto.
    + unfold read_spec. assert (K := read_good G c i ty Hc H); unfold read in K.
      destruct (c i); simpl in *; auto.
    + apply read_bty_good with (G := G); auto.
  - (* VarAdj *)
    destruct (G i) as [ki|] eqn:Gi; [|discriminate]; simpl in H.
    destruct (G t) as [kt|] eqn:Gt; [|discriminate]; simpl in H.
    destruct (self_concat ki); [|discriminate].
    assert (S1 : sound G (spty ty) (varadj_spec i t)).
    { intros c Hc; unfold varadj_spec; simpl; split; auto.
      destruct (c i) as [vi|] eqn:Ei; [|unfold read_bty; rewrite Ei; exact I].
      destruct (c t) as [vt|] eqn:Et; [|unfold read_bty; rewrite Ei, Et; exact I].
      destruct (Hc _ _ Ei) as [Wi Ti], (Hc _ _ Et) as [Wt Tt].
      assert (ki = sty_of (bty_of vi)) by congruence; assert (kt = sty_of (bty_of vt)) by congruence; subst.
      destruct (adj_sty_sound _ _ _ H) as (sa & Ea & Ta).
      destruct (varadj_spec_ok c i t vi vt sa Ei Et Ea) as (s & Es & Bs & Ws & _).
      unfold varadj_spec in Es; inversion Es as [Q]; rewrite Q; simpl; split; auto; congruence. }
    split; [apply sound_by_spec; auto|split; auto].
    intros c Hc; unfold varadj_shape; simpl; split; auto.
    destruct (c i) as [vi|] eqn:Ei; [|unfold read_bty; rewrite Ei; exact I].
    destruct (c t) as [vt|] eqn:Et; [|unfold read_bty; rewrite Ei, Et; exact I].
    destruct (Hc _ _ Ei) as [Wi Ti], (Hc _ _ Et) as [Wt Tt].
    assert (ki = sty_of (bty_of vi)) by congruence; assert (kt = sty_of (bty_of vt)) by congruence; subst.
    destruct (adj_sty_sound _ _ _ H) as (sa & Ea & Ta).
    unfold read_bty; rewrite Ei, Et; simpl; rewrite Ea; simpl; split; auto.
    eapply adj_bty_wf; eauto.
  - (* Const *)
    inversion H; subst.
    split; [apply sound_by_spec|split]; apply sound_const; simpl; split; simpl; auto using vwf_bty.
  - (* ConstSpec *)
    inversion H; subst.
    split; [apply sound_by_spec|split]; apply sound_const; simpl; split; simpl; auto using spec_wf_bty.
  - (* ConstAdj *)
    destruct (typeof G n) as [km|] eqn:Gm; [|discriminate]; simpl in H.
    destruct (G t) as [kt|] eqn:Gt; [|discriminate]; simpl in H.
    destruct (IHn km W eq_refl) as (_ & _ & Hsh).
    assert (S1 : sound G (bty_ty ty) (constadj_shape (interp n) t)).
    { intros c Hc; unfold constadj_shape; destruct (Hsh c Hc) as [C1 G1].
      destruct (f_shape (interp n) c) as [c1 x]; simpl in *; destruct x as [sv| | |]; simpl in *; auto.
      split; auto; unfold read; destruct (c1 t) as [vt|] eqn:Et; [|exact I]; simpl.
      destruct (C1 _ _ Et) as [Wt Tt]; destruct G1 as [Wv Tv].
      assert (kt = sty_of (bty_of vt)) by congruence; subst.
      destruct (adj_sty_sound _ _ _ H) as (sa & Ea & Ta); rewrite Ea; simpl; split; auto.
      eapply adj_bty_wf; eauto. }
    assert (S2 : sound G (spty ty) (constadj_spec (interp n) t)).
    { apply (sound_post _ _ _ _ _ _ _ S1); intros r Hr; apply (good_map _ _ _ (bty_ty ty)); auto.
    }
    split; [apply sound_by_spec; auto|split; auto].
  - (* Cached *)
    destruct (typeof G n) as [km|] eqn:Gm; [|discriminate]; simpl in H.
    destruct (G k) as [kc|] eqn:Gk; [|discriminate]; simpl in H.
    assert (km = ty /\ kc = ty) as [-> ->].
    { destruct km, kc; inversion H; subst; auto.
      destruct (dims_eqb ds ds0) eqn:E; [|discriminate]; apply dims_eqb_eq in E; inversion H; subst; auto. }
    destruct (IHn ty W eq_refl) as (He & _ & _).
    assert (S1 : sound G (vty ty) (cached_eval (interp n) k)).
    { intros c Hc; unfold cached_eval, read; destruct (c k) as [v|] eqn:Ek.
      - destruct (Hc _ _ Ek) as [Wv Tv]; simpl; split; auto; split; congruence.
      - destruct (He c Hc) as [C1 G1].
        destruct (f_eval (interp n) c) as [c1 x]; simpl in *; destruct x as [v| | |]; simpl in *; auto.
        split; auto; intros j w; unfold write; destruct (ident_eqb k j) eqn:Ej; [|apply C1].
        apply ident_eqb_eq in Ej; subst j; intro Q; inversion Q; subst.
        destruct G1 as [Wv Tv]; split; congruence. }
    split; [auto|split; [apply sound_default_spec|apply sound_default_shape]; auto].
  - (* Un *)
    destruct (IHn ty W H) as (He & Hs & Hsh).
    split; [|split; auto].
    + apply (sound_post _ _ _ _ _ _ (res_map (vmutate (un_fn u))) He).
      intros r Hr; eapply good_map; eauto; intros v [Wv Tv]; split.
      * apply vmutate_wf; auto.
      * rewrite vmutate_bty; auto.
    + apply (sound_post _ _ _ _ _ _ (res_map (un_spec_post u)) Hs).
      intros r Hr; eapply good_map; eauto; intros s; apply un_good.
  - (* Sum *)
    destruct (typeof G n) as [km|] eqn:Gm; [|discriminate]; inversion H; subst.
    destruct (IHn km W eq_refl) as (He & Hs & _).
    split; [|split].
    + apply (sound_post _ _ _ _ _ _ (res_map (fun v => VScal (vsum v))) He).
      intros r Hr; eapply good_map; eauto; intros v _; split; simpl; auto.
    + apply (sound_post _ _ _ _ _ _ (fun r => res_bind r sum_spec_post) Hs).
      intros r Hr; eapply good_bind; eauto; intros s Hs'; eapply sum_good; eauto.
    + apply sound_const; split; simpl; auto.
  - (* Power *)
    destruct W as [W1 W2].
    destruct (typeof G n1) as [k1|] eqn:G1; [|discriminate]; simpl in H.
    destruct (typeof G n2) as [k2|] eqn:G2; [|discriminate]; simpl in H.
    destruct k1, k2; inversion H; subst; clear H.
    destruct (IHn1 KS W1 eq_refl) as (_ & Hs1 & _); destruct (IHn2 KS W2 eq_refl) as (_ & Hs2 & _).
    assert (S1 : sound G (spty KS) (both (f_spec (interp n1)) (f_spec (interp n2)) power_post)).
    { eapply sound_both; eauto; intros; apply power_good; auto. }
    split; [apply sound_by_spec; auto|split; auto].
    apply sound_const; split; simpl; auto.
  - (* Add *)
    destruct W as [W1 W2].
    destruct (typeof G n1) as [k1|] eqn:G1; [|discriminate]; simpl in H.
    destruct (typeof G n2) as [k2|] eqn:G2; [|discriminate]; simpl in H.
    destruct (IHn1 k1 W1 eq_refl) as (_ & Hs1 & Hh1); destruct (IHn2 k2 W2 eq_refl) as (_ & Hs2 & Hh2).
    assert (S1 : sound G (spty ty) (both (f_spec (interp n1)) (f_spec (interp n2))
       (fun x y => res_map_err EOutput (add_match x y)))).
    { eapply sound_both; eauto; intros x y [Wx <-] [Wy <-]; apply good_map_err.
      apply zip_like_good; auto using add_like. }
    split; [apply sound_by_spec; auto|split; auto].
    eapply sound_both_shape; eauto; intros x y [Wx <-] [Wy <-]; apply good_map_err.
    apply zip_sty_sound; auto.
  - (* Sub *)
    destruct W as [W1 W2].
    destruct (typeof G n1) as [k1|] eqn:G1; [|discriminate]; simpl in H.
    destruct (typeof G n2) as [k2|] eqn:G2; [|discriminate]; simpl in H.
    destruct (IHn1 k1 W1 eq_refl) as (_ & Hs1 & Hh1); destruct (IHn2 k2 W2 eq_refl) as (_ & Hs2 & Hh2).
    assert (S1 : sound G (spty ty) (both (f_spec (interp n1)) (f_spec (interp n2))
       (fun x y => res_map_err EOutput (sub_match x y)))).
    { eapply sound_both; eauto; intros x y [Wx <-] [Wy <-]; apply good_map_err.
      apply zip_like_good; auto using sub_like. }
    split; [apply sound_by_spec; auto|split; auto].
    eapply sound_both_shape; eauto; intros x y [Wx <-] [Wy <-]; apply good_map_err.
    apply zip_sty_sound; auto.
  - (* Mul *)
    destruct W as [W1 W2].
    destruct (typeof G n1) as [k1|] eqn:G1; [|discriminate]; simpl in H.
    destruct (typeof G n2) as [k2|] eqn:G2; [|discriminate]; simpl in H.
    destruct (IHn1 k1 W1 eq_refl) as (_ & Hs1 & Hh1); destruct (IHn2 k2 W2 eq_refl) as (_ & Hs2 & Hh2).
    assert (S1 : sound G (spty ty) (both (f_spec (interp n1)) (f_spec (interp n2))
       (fun x y => res_map_err EOutput (mul_match x y)))).
    { eapply sound_both; eauto; intros x y [Wx <-] [Wy <-]; apply good_map_err.
      apply zip_like_good; auto using mul_like. }
    split; [apply sound_by_spec; auto|split; auto].
    eapply sound_both_shape; eauto; intros x y [Wx <-] [Wy <-]; apply good_map_err.
    apply zip_sty_sound; auto.
  - (* Div *)
    destruct W as [W1 W2].
    destruct (typeof G n1) as [k1|] eqn:G1; [|discriminate]; simpl in H.
    destruct (typeof G n2) as [k2|] eqn:G2; [|discriminate]; simpl in H.
    destruct (IHn1 k1 W1 eq_refl) as (He1 & _ & Hh1); destruct (IHn2 k2 W2 eq_refl) as (He2 & _ & Hh2).
    assert (S1 : sound G (vty ty) (both_eval (f_eval (interp n1)) (f_eval (interp n2))
       (fun x y => res_map_err EOutput (zip_map_id fdiv x y)))).
    { eapply sound_both_eval; eauto; intros x y [Wx <-] [Wy <-]; apply good_map_err.
      rewrite div_eq by auto.
      assert (Z := zip_sty_sound _ _ _ (vwf_bty _ Wx) (vwf_bty _ Wy) H).
      destruct (bcast_bty _ _) as [t|e| |]; simpl in *; auto.
      destruct Z; split; [apply build_wf; auto | rewrite build_bty; auto]. }
    split; [auto|split; [apply sound_default_spec; auto|]].
    eapply sound_both_shape; eauto; intros x y [Wx <-] [Wy <-]; apply good_map_err.
    apply zip_sty_sound; auto.
  - (* Contract *)
    destruct W as [W1 W2].
    destruct (typeof G n1) as [k1|] eqn:G1; [|discriminate]; simpl in H.
    destruct (typeof G n2) as [k2|] eqn:G2; [|discriminate]; simpl in H.
    destruct (IHn1 k1 W1 eq_refl) as (_ & Hs1 & Hh1); destruct (IHn2 k2 W2 eq_refl) as (_ & Hs2 & Hh2).
    assert (S1 : sound G (spty ty) (both (f_spec (interp n1)) (f_spec (interp n2))
       (fun x y => res_map_err EOutput (contract_spec axes x y)))).
    { eapply sound_both; eauto; intros x y [Wx <-] [Wy <-]; apply good_map_err.
      destruct (contract_sty_sound _ _ _ _ H) as (t & Et & Tt).
      assert (K := contract_spec_fits axes x y t Wx Wy Et).
      destruct (contract_spec axes x y); simpl in *; auto; split; [tauto|].
      destruct K as [-> _]; auto. }
    split; [apply sound_by_spec; auto|split; auto].
    eapply sound_both_shape; eauto; intros x y [Wx <-] [Wy <-].
    destruct (contract_sty_sound _ _ _ _ H) as (t & Et & Tt); rewrite Et; simpl; split; auto.
    eapply contract_bty_wf; eauto.
Qed.

End TypingFacts.
