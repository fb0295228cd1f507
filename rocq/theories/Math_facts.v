(** Evaluation computes the mathematical expression. *)
From Coq Require Import List Arith Bool Lia Ring.
Import ListNotations.
From Verif Require Import Base Shapes Scalar Buffers Spec Contraction Node Eval Types Vocab Math
  Index_facts Buffers_facts Spec_facts Contraction_facts Contraction_entries Match_facts Eval_facts
  Typing_facts Progress_facts Exact_facts.

Lemma all_ix_iproduct ds : all_ix ds = iproduct ds.
Proof. induction ds as [|d ds IH]; simpl; [reflexivity|]; rewrite IH; reflexivity. Qed.

Lemma ix_eqb_list a b : ix_eqb a b = list_nat_eqb a b.
Proof. revert b; induction a as [|x a IH]; intros [|y b]; simpl; auto; rewrite IH; auto. Qed.

Section Tri.
Context {F : Type} {SF : Scalar F}.

(** Invariant [I] of the context and postcondition [P] of a successful result. *)
Definition tri (I : ctx F -> Prop) {A} (P : A -> Prop) (f : ctx F -> ctx F * res err A) : Prop :=
  forall c, I c -> I (fst (f c)) /\ forall a, snd (f c) = Ok a -> P a.

Variable I : ctx F -> Prop.

Lemma tri_both (A B : Type) (P : A -> Prop) (Q : B -> Prop) (R : spec F -> Prop) l r k :
  tri I P l -> tri I Q r -> (forall a b s, P a -> Q b -> k a b = Ok s -> R s) ->
  tri I R (both l r k).
Proof.
  intros Hl Hr Hk c Hc; unfold both; destruct (Hl c Hc) as [C1 G1].
  destruct (l c) as [c1 [a|e| |]]; simpl in *; try (split; [auto|intros ? Q'; discriminate Q']).
  destruct (Hr c1 C1) as [C2 G2].
  destruct (r c1) as [c2 [b|e| |]]; simpl in *; try (split; [auto|intros ? Q'; discriminate Q']).
  split; auto; intros s Hs; eauto.
Qed.
Lemma tri_both_shape (P Q R : bty -> Prop) l r k :
  tri I P l -> tri I Q r -> (forall a b s, P a -> Q b -> k a b = Ok s -> R s) ->
  tri I R (@both_shape F l r k).
Proof.
  intros Hl Hr Hk c Hc; unfold both_shape; destruct (Hl c Hc) as [C1 G1].
  destruct (l c) as [c1 [a|e| |]]; simpl in *; try (split; [auto|intros ? Q'; discriminate Q']).
  destruct (Hr c1 C1) as [C2 G2].
  destruct (r c1) as [c2 [b|e| |]]; simpl in *; try (split; [auto|intros ? Q'; discriminate Q']).
  split; auto; intros s Hs; eauto.
Qed.
Lemma tri_both_eval (P Q R : value F -> Prop) l r k :
  tri I P l -> tri I Q r -> (forall a b s, P a -> Q b -> k a b = Ok s -> R s) ->
  tri I R (@both_eval F l r k).
Proof.
  intros Hl Hr Hk c Hc; unfold both_eval; destruct (Hl c Hc) as [C1 G1].
  destruct (l c) as [c1 [a|e| |]]; simpl in *; try (split; [auto|intros ? Q'; discriminate Q']).
  destruct (Hr c1 C1) as [C2 G2].
  destruct (r c1) as [c2 [b|e| |]]; simpl in *; try (split; [auto|intros ? Q'; discriminate Q']).
  split; auto; intros s Hs; eauto.
Qed.
Lemma tri_post (A B : Type) (P : A -> Prop) (Q : B -> Prop) f (g : res err A -> res err B) :
  tri I P f -> (forall r b, (forall a, r = Ok a -> P a) -> g r = Ok b -> Q b) ->
  tri I Q (fun c => let (c', r) := f c in (c', g r)).
Proof.
  intros Hf Hg c Hc; destruct (Hf c Hc) as [C1 G1]; destruct (f c) as [c1 r]; simpl in *.
  split; auto; intros b Hb; eauto.
Qed.
Lemma tri_const (A : Type) (P : A -> Prop) (r : ctx F -> res err A) :
  (forall c a, I c -> r c = Ok a -> P a) -> tri I P (fun c => (c, r c)).
Proof. intros H c Hc; simpl; split; eauto. Qed.

End Tri.

Section Den.
Context {F : Type} {SF : Scalar F} (EX : exact F).
Add Ring FRing2 : (ex_ring EX).

(** The spec [s] holds the tensor [a]. *)
Definition sholds (s : spec F) (a : tensor F) : Prop :=
  tdims_of (spec_bty s) = tdims a /\ forall ix, in_box (tdims a) ix -> sfun s ix = tat a ix.

Lemma dims_nil t : bty_wf t -> tdims_of t = [] <-> t = TS.
Proof.
  destruct t as [| | |[|? ?]]; unfold tdims_of; simpl; intro W; split; intro H; try discriminate; auto; lia.
Qed.

Lemma at_bc_sfun s a ix :
  spec_wf s -> sholds s a -> in_box (tdims_of (spec_bty s)) (pick (spec_bty s) ix) ->
  sfun s (pick (spec_bty s) ix) = at_bc a ix.
Proof.
  intros W [D E] B; unfold at_bc.
  assert (pick (spec_bty s) ix = match tdims a with [] => [] | _ => ix end) as <-.
  { rewrite <- D; assert (K := dims_nil _ (spec_wf_bty _ W)).
    destruct (spec_bty s) as [| | |[|? ?]]; auto.
    destruct K as [K _]; discriminate (K eq_refl). }
  apply E; rewrite <- D; auto.
Qed.

Lemma bcast_ok tx ty t :
  bty_wf tx -> bty_wf ty -> bcast_bty tx ty = Ok t ->
  tdims_of t = match tdims_of tx with [] => tdims_of ty | _ => tdims_of tx end /\
  forall ix, in_box (tdims_of t) ix ->
    in_box (tdims_of tx) (pick tx ix) /\ in_box (tdims_of ty) (pick ty ix).
Proof.
  intros Wx Wy; rewrite bcast_bty_table by auto.
  destruct tx as [| |n|a], ty as [| |m|b]; unfold tdims_of; simpl; intro H; try discriminate;
    try (apply Ok_inj in H; subst t; simpl; split; [auto; destruct a; auto; simpl in Wx; lia|];
         intros ix B; split; auto; constructor).
  - destruct (Nat.eqb n m) eqn:E; [|discriminate]; apply Nat.eqb_eq in E; subst m.
    apply Ok_inj in H; subst t; simpl; auto.
  - destruct (dims_eqb a b) eqn:E; [|discriminate]; apply dims_eqb_eq in E; subst b.
    apply Ok_inj in H; subst t; simpl; split; auto; destruct a; auto.
Qed.

(** A match that computes [op] pointwise. *)
Definition zips (op : F -> F -> F) (x y s : spec F) : Prop :=
  exists t, bcast_bty (spec_bty x) (spec_bty y) = Ok t /\ spec_bty s = t /\ spec_wf s /\
    forall ix, in_box (tdims_of t) ix ->
      sfun s ix = op (sfun x (pick (spec_bty x) ix)) (sfun y (pick (spec_bty y) ix)).

Lemma zips_holds op x y s a b :
  spec_wf x -> spec_wf y -> sholds x a -> sholds y b -> zips op x y s ->
  spec_wf s /\ sholds s (pointwise op a b).
Proof.
  intros Wx Wy Hx Hy (t & Bt & T & W & E); split; auto.
  destruct (bcast_ok _ _ _ (spec_wf_bty _ Wx) (spec_wf_bty _ Wy) Bt) as [D B].
  split.
  - rewrite T, D; simpl; destruct Hx as [<- _], Hy as [<- _]; auto.
  - intros ix; simpl; intro Bx.
    assert (Bt' : in_box (tdims_of t) ix).
    { rewrite D; destruct Hx as [-> _], Hy as [-> _]; auto. }
    destruct (B ix Bt') as [B1 B2]; rewrite E by auto.
    rewrite (at_bc_sfun x a), (at_bc_sfun y b); auto.
Qed.

Lemma zip_dense_zips op x y s :
  spec_wf x -> spec_wf y ->
  (swapped (spec_bty x) (spec_bty y) = true -> forall u v : F, op u v = op v u) ->
  zip_dense op x y = Ok s -> zips op x y s.
Proof.
  intros Wx Wy C; rewrite zip_dense_eq by auto.
  destruct (bcast_bty _ _) as [t|e| |] eqn:B; try discriminate.
  intro H; apply Ok_inj in H; subst s; exists t; split; auto; cbn [spec_bty spec_wf sfun].
  split; [apply build_bty|split; [apply build_wf; eapply bcast_bty_wf; eauto|]].
  intros ix Bx; rewrite vat_build by auto.
  destruct (swapped _ _); auto; rewrite C; auto.
Qed.

Lemma full_zips op x y s z t' t'' :
  spec_wf x -> spec_wf y ->
  res_map (fun t => Full t z) (bcast_bty t' t'') = Ok s -> spec_bty x = t' -> spec_bty y = t'' ->
  (forall ix, z = op (sfun x (pick (spec_bty x) ix)) (sfun y (pick (spec_bty y) ix))) ->
  zips op x y s.
Proof.
  intros Wx Wy H <- <- E; destruct (bcast_bty _ _) as [t|e| |] eqn:B; try discriminate.
  apply Ok_inj in H; subst s; exists t; split; auto; cbn [spec_bty spec_wf sfun].
  split; auto; split; [eapply bcast_bty_wf; eauto|auto].
Qed.

Lemma add_zips x y s : spec_wf x -> spec_wf y -> add_match x y = Ok s -> zips fadd x y s.
Proof.
  intros Wx Wy H.
  assert (D : zip_dense fadd x y = Ok s -> zips fadd x y s).
  { apply zip_dense_zips; auto; intros; ring. }
  destruct x as [xv|tx fx|tx fx], y as [yv|ty fy|ty fy]; try (apply D; exact H); unfold add_match in H.
  - destruct (is_zero fy) eqn:Z; [|apply D; exact H]; apply (is_zero_eq EX) in Z; subst fy.
    simpl in Wx, Wy; rewrite zip_shape_eq in H by auto.
    destruct (bcast_bty _ _) as [t|e| |] eqn:B; try discriminate.
    apply Ok_inj in H; subst s; exists t; split; auto; cbn [spec_bty spec_wf sfun].
    split; [apply build_bty|split; [apply build_wf; eapply bcast_bty_wf; eauto|]].
    intros ix Bx; rewrite vat_build by auto; ring.
  - destruct (is_zero fx) eqn:Z; [|apply D; exact H]; apply (is_zero_eq EX) in Z; subst fx.
    simpl in Wx, Wy; rewrite zip_shape_eq in H by auto.
    assert (Rv := bcast_rev tx (bty_of yv) Wx (vwf_bty _ Wy)).
    destruct (bcast_bty (bty_of yv) tx) as [t|e| |] eqn:B; try discriminate.
    apply Ok_inj in H; subst s; exists t; split; auto; cbn [spec_bty spec_wf sfun].
    split; [apply build_bty|split; [apply build_wf; eapply bcast_bty_wf; eauto|]].
    intros ix Bx; rewrite vat_build by auto; ring.
  - eapply full_zips; eauto.
Qed.

Lemma sub_zips x y s :
  spec_wf x -> spec_wf y -> swapped (spec_bty x) (spec_bty y) = false ->
  sub_match x y = Ok s -> zips fsub x y s.
Proof.
  intros Wx Wy C H.
  assert (D : zip_dense fsub x y = Ok s -> zips fsub x y s).
  { apply zip_dense_zips; auto; congruence. }
  destruct x as [xv|tx fx|tx fx], y as [yv|ty fy|ty fy]; try (apply D; exact H); unfold sub_match in H.
  - destruct (is_zero fy) eqn:Z; [|apply D; exact H]; apply (is_zero_eq EX) in Z; subst fy.
    simpl in Wx, Wy; rewrite zip_shape_eq in H by auto.
    destruct (bcast_bty _ _) as [t|e| |] eqn:B; try discriminate.
    apply Ok_inj in H; subst s; exists t; split; auto; cbn [spec_bty spec_wf sfun].
    split; [apply build_bty|split; [apply build_wf; eapply bcast_bty_wf; eauto|]].
    intros ix Bx; rewrite vat_build by auto; ring.
  - eapply full_zips; eauto.
Qed.

Lemma mul_zips x y s : spec_wf x -> spec_wf y -> mul_match x y = Ok s -> zips fmul x y s.
Proof.
  intros Wx Wy H.
  assert (D : zip_dense fmul x y = Ok s -> zips fmul x y s).
  { apply zip_dense_zips; auto; intros; ring. }
  destruct x as [xv|tx fx|tx fx], y as [yv|ty fy|ty fy]; try (apply D; exact H); unfold mul_match in H;
    try (destruct (is_zero _) eqn:Z in H; [|apply D; exact H]; apply (is_zero_eq EX) in Z; subst;
         unfold spec_zeroes in H; eapply full_zips; eauto; intro ix; cbn [sfun]; ring).
  eapply full_zips; eauto.
Qed.

Lemma zip_holds op x y v a b :
  vwf x -> vwf y -> holds x a -> holds y b -> keeps_order a b ->
  zip_map_id op x y = Ok v -> vwf v /\ holds v (pointwise op a b).
Proof.
  intros Wx Wy Hx Hy KO H; rewrite zip_id_eq in H by auto.
  assert (Sw : swapped (bty_of x) (bty_of y) = false).
  { destruct Hx as [Dx _], Hy as [Dy _]; unfold keeps_order in KO; rewrite <- Dx, <- Dy in KO.
    destruct x, y; cbn [bty_of swapped tdims_of] in *; auto; apply Nat.leb_gt; specialize (KO eq_refl); unfold vshape in KO; cbn in KO; clear - KO; lia. }
  rewrite Sw in H; destruct (bcast_bty _ _) as [t|e| |] eqn:B; try discriminate; apply Ok_inj in H.
  assert (K := zips_holds op (Raw x) (Raw y) (Raw v) a b Wx Wy).
  apply K; auto.
  exists t; split; auto; subst v; cbn [spec_bty spec_wf sfun].
  split; [apply build_bty|split; [apply build_wf; eapply bcast_bty_wf; eauto|]].
  intros ix Bx; rewrite vat_build by auto; auto.
Qed.

Lemma holds_unwrap s a : spec_wf s -> sholds s a -> holds (unwrap s) a.
Proof.
  intros W [D E]; split.
  - unfold vshape; rewrite unwrap_bty; exact D.
  - intros ix B; rewrite vat_unwrap by (auto; rewrite D; auto); auto.
Qed.

Lemma un_holds u s a (um : unop -> F -> F) :
  (forall x, un_fn u x = um u x) -> spec_wf s -> sholds s a ->
  spec_wf (un_spec_post u s) /\ sholds (un_spec_post u s) (Tensor (tdims a) (fun ix => um u (tat a ix))).
Proof.
  intros U W [D E].
  assert (G : forall v, vwf v -> (forall ix, in_box (tdims a) ix -> vat fzero v ix = tat a ix) ->
     tdims_of (bty_of v) = tdims a ->
     spec_wf (Raw (vmutate (un_fn u) v)) /\
     sholds (Raw (vmutate (un_fn u) v)) (Tensor (tdims a) (fun ix => um u (tat a ix)))).
  { intros v Wv Ev Dv; rewrite vmutate_vmap; split; [apply vmap_wf; auto|].
    split; cbn [spec_bty tdims tat sfun]; [rewrite vmap_bty; auto|].
    intros ix B; rewrite (value_eta fzero v) by auto; rewrite vmap_build, vat_build by (rewrite Dv; auto).
    rewrite Ev, U; auto. }
  destruct s as [v|t x|t x]; unfold un_spec_post.
  - apply G; auto.
  - split; auto; split; auto; cbn [sfun tdims tat] in *; intros ix B; rewrite <- (E ix B); auto.
  - destruct (holds_unwrap (Diagonal t x) a W (conj D E)) as [D' E'].
    apply G; auto using unwrap_wf.
Qed.

Lemma sum_holds s a s' :
  spec_wf s -> sholds s a -> sum_spec_post s = Ok s' ->
  spec_wf s' /\ sholds s' (Tensor [] (fun _ => sum_over (all_ix (tdims a)) (tat a))).
Proof.
  intros W [D E] H.
  assert (G : vsum (unwrap s) = sum_over (all_ix (tdims a)) (tat a)).
  { unfold vsum; rewrite unwrap_build by auto; rewrite vfold_build; rewrite D.
    change (sum_over (iproduct (tdims a)) (sfun s) = sum_over (iproduct (tdims a)) (tat a)).
    apply (sum_over_ext EX); intros ix Hi; apply in_iproduct in Hi; auto. }
  assert (Q := sum_post s (exact_sum_law EX)); rewrite H in Q; cbn in Q; apply Ok_inj in Q.
  assert (T : spec_bty s' = TS) by (rewrite <- unwrap_bty, Q; reflexivity).
  split.
  - destruct s' as [v|t x|t x]; cbn [spec_wf unwrap spec_bty] in *; subst; simpl; auto.
  - split; [rewrite T; reflexivity|]; cbn [tdims tat]; intros ix B; apply in_box_nil in B; subst ix.
    rewrite <- G.
    destruct s' as [v|t x|t x]; cbn [unwrap spec_bty sfun] in *; subst; auto; simpl in *; congruence.
Qed.

Lemma power_holds b e s a d :
  spec_wf b -> spec_wf e -> sholds b a -> sholds e d ->
  (tat a [] = fzero -> fle (tat d []) fzero = false) ->
  power_post b e = Ok s ->
  spec_wf s /\ sholds s (Tensor [] (fun _ => fpow (tat a []) (tat d []))).
Proof.
  intros Wb We [Db Eb] [De Ee] Z H.
  assert (T : spec_bty b = TS /\ spec_bty e = TS).
  { unfold power_post in H; destruct (spec_bty b), (spec_bty e); try discriminate; auto. }
  destruct T as [Tb Te]; rewrite Tb in Db; rewrite Te in De; cbn in Db, De.
  assert (Ha : sfun b [] = tat a []) by (apply Eb; rewrite <- Db; constructor).
  assert (Hd : sfun e [] = tat d []) by (apply Ee; rewrite <- De; constructor).
  destruct (power_wf b e s Wb We H) as [Ws Ts]; split; auto.
  split; [rewrite Ts; reflexivity|]; cbn [tdims tat]; intros ix B; apply in_box_nil in B; subst ix.
  rewrite <- Ha, <- Hd in *.
  unfold power_post in H; rewrite Tb, Te in H.
  assert (Gn : forall s, res_bind (unwrap_scal e) (fun x => Ok (Raw (vmutate (fun y => fpow y x) (unwrap b)))) = @Ok err _ s ->
    sfun s [] = fpow (sfun b []) (sfun e [])).
  { intros s'; destruct (unwrap_scal e) as [x| | |] eqn:U; try discriminate; cbn [res_bind].
    apply unwrap_scal_sfun in U; auto; subst x; rewrite unwrap_build, Tb by auto; simpl.
    intro Q; apply Ok_inj in Q; subst s'; reflexivity. }
  assert (Rest : forall s, match b with
        | Full sx fx =>
            if feq fx fone then Ok (Full sx fx)
            else if feq fx fzero then Ok (Full sx fx)
            else res_bind (unwrap_scal e) (fun x => Ok (Raw (vmutate (fun y => fpow y x) (unwrap b))))
        | _ => res_bind (unwrap_scal e) (fun x => Ok (Raw (vmutate (fun y => fpow y x) (unwrap b))))
        end = @Ok err _ s -> sfun s [] = fpow (sfun b []) (sfun e [])).
  { intros s' Q; destruct b as [v|t x|t x]; try (apply Gn; exact Q).
    destruct (feq x fone) eqn:E1.
    { apply (ex_eq EX) in E1; subst x; apply Ok_inj in Q; subst s'; cbn [sfun]; rewrite (ex_1pow EX); auto. }
    destruct (feq x fzero) eqn:E0; [|apply Gn; exact Q].
    apply (ex_eq EX) in E0; subst x; apply Ok_inj in Q; subst s'; cbn [sfun] in *; rewrite (ex_0pow EX); auto. }
  destruct e as [v|t x|t x]; try (apply Rest; exact H).
  destruct (feq x fzero) eqn:E0; [|apply Rest; exact H].
  apply (ex_eq EX) in E0; subst x; apply Ok_inj in H; subst s; cbn [sfun spec_ones]; rewrite (ex_pow0 EX); auto.
Qed.

Lemma contract_holds axes x y s a b :
  spec_wf x -> spec_wf y -> sholds x a -> sholds y b ->
  (axes = 0 \/ square_dims a b) ->
  contract_spec axes x y = Ok s ->
  spec_wf s /\ sholds s (match axes with 0 => outer a b | _ => inner a b end) /\
  contract_bty axes (spec_bty x) (spec_bty y) = Some (spec_bty s).
Proof.
  intros Wx Wy [Dx Ex] [Dy Ey] SQ H.
  destruct (contract_bty axes (spec_bty x) (spec_bty y)) as [t|] eqn:C;
    [|rewrite contract_spec_none in H by auto; discriminate].
  assert (Ft := contract_spec_fits axes x y t Wx Wy C); rewrite H in Ft; destruct Ft as [T W].
  split; auto; split; [|congruence].
  assert (Sq : sq axes (spec_bty x) (spec_bty y)).
  { unfold square_dims in SQ; rewrite <- Dx, <- Dy in SQ; clear - SQ.
    destruct axes as [|[|?]]; simpl; auto.
    destruct SQ as [SQ|SQ]; [discriminate|].
    destruct (spec_bty x) as [| |?|[|? [|? [|? ?]]]], (spec_bty y) as [| |?|[|? [|? [|? ?]]]]; auto. }
  assert (En := contract_spec_entries EX axes x y t s).
  rewrite <- T in *.
  assert (Dt : tdims_of (spec_bty s) = tdims (match axes with 0 => outer a b | _ => inner a b end)).
  { clear - C Dx Dy Sq; destruct axes as [|[|?]]; [| |discriminate];
      destruct (spec_bty x) as [| |?|[|? [|? [|? ?]]]], (spec_bty y) as [| |?|[|? [|? [|? ?]]]];
      try discriminate; cbn [contract_bty] in C;
      try (destruct (Nat.eqb _ _) eqn:Q in C; [|discriminate]; apply Nat.eqb_eq in Q; subst);
      inversion C as [C']; unfold outer, inner; cbn [tdims]; rewrite <- Dx, <- Dy; cbn in *; subst; auto. }
  split; auto; rewrite <- Dt; intros ix B; rewrite En by auto; clear En H.
  destruct axes as [|[|?]]; [| |discriminate];
      destruct (spec_bty x) as [| |?|[|? [|? [|? ?]]]], (spec_bty y) as [| |?|[|? [|? [|? ?]]]];
      try discriminate; cbn [contract_bty] in C;
      try (destruct (Nat.eqb _ _) eqn:Q in C; [|discriminate]; apply Nat.eqb_eq in Q; subst);
      inversion C as [C']; rewrite <- C' in B; unfold outer, inner; cbn [tat]; 
      try (rewrite <- Dx); try (rewrite <- Dy); cbn in B |- *; cbn in Sq; subst;
      try (apply in_box_nil in B; subst ix);
      try (apply box1_inv in B; destruct B as (i & -> & Hi));
      try (apply box2_inv in B; destruct B as (i & j & -> & Hi & Hj));
      cbn; rewrite ?(lsum_over);
      try (apply (sum_over_ext EX); intros k Hk; apply in_seq in Hk);
      rewrite ?Ex, ?Ey by (rewrite <- ?Dx, <- ?Dy; cbn; repeat constructor; auto; lia);
      try reflexivity; ring.
Qed.

Section Coherent.
Variable um : unop -> F -> F.
Hypothesis UM : forall u x, un_fn u x = um u x.
Variable rho : ctx F.
Hypothesis Wrho : ctx_wf rho.
Variable keys : ident -> bool.
Variable K : ident -> tensor F.

Local Notation coh := (coherent rho keys K).
Local Notation keyed := (Math.keyed um rho keys K).

Lemma coh_read c i : coh c -> keys i = false -> c i = rho i.
Proof. intros H E; specialize (H i); rewrite E in H; auto. Qed.

Definition Ps (n : node F) (s : spec F) : Prop := spec_wf s /\ sholds s (den um rho n).
Definition Pv (n : node F) (v : value F) : Prop := vwf v /\ holds v (den um rho n).
Definition Pt (n : node F) (t : bty) : Prop := bty_wf t /\ tdims_of t = tdims (den um rho n).

Lemma tri_eval n : tri coh (Ps n) (f_spec (interp n)) -> tri coh (Pv n) (f_eval (interp n)).
Proof.
  intros H c Hc; destruct (H c Hc) as [C1 G1].
  assert (A := all_agree n (exact_sum_law EX) c); unfold evaluate, evaluate_spec in A.
  destruct (f_spec (interp n) c) as [c1 r]; simpl in C1, G1, A; rewrite A; simpl; split; auto.
  intros v Hv; destruct r as [s| | |]; try discriminate; simpl in Hv; apply Ok_inj in Hv; subst v.
  destruct (G1 s eq_refl); split; auto using unwrap_wf, holds_unwrap.
Qed.

Lemma den_bcast (l r : node F) op a b t :
  Pt l a -> Pt r b -> bcast_post a b = Ok t ->
  bty_wf t /\ tdims_of t = tdims (pointwise op (den um rho l) (den um rho r)).
Proof.
  intros [Wa Da] [Wb Db]; unfold bcast_post; destruct (bcast_bty a b) as [t'| | |] eqn:B; try discriminate.
  intro H; apply Ok_inj in H; subst t'; split; [eapply bcast_bty_wf; eauto|].
  destruct (bcast_ok _ _ _ Wa Wb B) as [-> _]; rewrite Da, Db; reflexivity.
Qed.

Lemma den_all n :
  node_wf n -> keyed n -> regular um rho n ->
  tri coh (Ps n) (f_spec (interp n)) /\ tri coh (Pt n) (f_shape (interp n)).
Proof.
  induction n; intros W Ky Rg.
  - (* Var *)
    simpl in Ky; split; apply tri_const; intros c x Hc; unfold read_spec, read_bty;
      rewrite (coh_read c i Hc Ky); destruct (rho i) as [v|] eqn:E; simpl; try discriminate;
      intro Q; apply Ok_inj in Q; subst x; assert (Wv := Wrho i v E); split; auto using vwf_bty;
      unfold sholds; simpl; unfold var_tensor; rewrite E; auto; split; auto.
  - (* VarAdj *)
    destruct Ky as [Ki Kt]; split; apply tri_const; intros c x Hc.
    + intro H; unfold read_bty in H; rewrite (coh_read c i Hc Ki), (coh_read c t Hc Kt) in H.
      destruct (rho i) as [vi|] eqn:Ei; [|discriminate].
      destruct (rho t) as [vt|] eqn:Et; [|discriminate]; cbn [res_bind res_map_err ok_or_undef option_map] in H.
      destruct (adj_bty (bty_of vi) (bty_of vt)) as [sa|] eqn:Ea; [|discriminate].
      destruct (varadj_spec_ok rho i t vi vt sa Ei Et Ea) as (s' & Es & Ts & Ws & En).
      unfold varadj_spec, read_bty in Es; rewrite Ei, Et in Es; cbn [res_bind res_map_err ok_or_undef option_map] in Es.
      rewrite Ea in Es; inversion Es as [Es']; rewrite Es' in H; apply Ok_inj in H; subst x.
      assert (Da := adj_bty_dims _ _ _ Ea).
      split; auto; split; simpl; unfold var_tensor; rewrite Ei, Et; simpl tdims.
      * rewrite Ts; auto.
      * intros ix B; simpl tat; apply in_box_app in B; destruct B as [B1 B2].
        unfold vshape in *.
        rewrite <- (firstn_skipn (length (dims (bty_shape (bty_of vi)))) ix) at 1.
        rewrite En by auto; reflexivity.
    + unfold read_bty; rewrite (coh_read c i Hc Ki), (coh_read c t Hc Kt).
      destruct (rho i) as [vi|] eqn:Ei; [|discriminate].
      destruct (rho t) as [vt|] eqn:Et; [|discriminate]; simpl.
      destruct (adj_bty (bty_of vi) (bty_of vt)) as [sa|] eqn:Ea; [|discriminate].
      intro Q; apply Ok_inj in Q; subst x; split; [eapply adj_bty_wf; eauto|].
      simpl; unfold var_tensor; rewrite Ei, Et; simpl; apply adj_bty_dims; auto.
  - (* Const *)
    simpl in W; split; apply tri_const; intros c x Hc Q; apply Ok_inj in Q; subst x; split.
    + exact W.
    + split; [reflexivity|intros ix B; reflexivity].
    + cbn; auto using vwf_bty.
    + cbn; reflexivity.
  - (* ConstSpec *)
    simpl in W; split; apply tri_const; intros c x Hc Q; apply Ok_inj in Q; subst x; split.
    + exact W.
    + split; destruct s; try reflexivity; intros ix B; reflexivity.
    + auto using spec_wf_bty.
    + destruct s; reflexivity.
  - (* ConstAdj *)
    destruct Ky as [Ky Kt]; destruct (IHn W Ky Rg) as [_ Hh].
    assert (S1 : tri coh (Pt (ConstAdj n t)) (constadj_shape (interp n) t)).
    { intros c Hc; unfold constadj_shape; destruct (Hh c Hc) as [C1 G1].
      destruct (f_shape (interp n) c) as [c1 [sv|e| |]]; simpl in *; (split; [auto|]); intros a Q; try discriminate Q.
      unfold read in Q; rewrite (coh_read c1 t C1 Kt) in Q.
      destruct (rho t) as [vt|] eqn:Et; simpl in Q; try discriminate.
      destruct (adj_bty sv (bty_of vt)) as [sa|] eqn:Ea; try discriminate; apply Ok_inj in Q; subst a.
      split; [eapply adj_bty_wf; eauto|]; simpl; unfold var_tensor; rewrite Et; simpl.
      destruct (G1 sv eq_refl) as [_ <-]; apply adj_bty_dims; auto. }
    split; auto.
    apply (tri_post coh _ _ (Pt (ConstAdj n t)) (Ps (ConstAdj n t)) _ (res_map (fun sa => Full sa fzero)) S1).
    intros [sa| | |] s Hr Q; simpl in Q; try discriminate; apply Ok_inj in Q; subst s.
    destruct (Hr sa eq_refl) as [W1 D1]; split; auto; split; auto.
  - (* Cached *)
    destruct Ky as (Ky & Kk & Kd); destruct (IHn W Ky Rg) as [Hs _]; apply tri_eval in Hs.
    assert (S1 : tri coh (Pv (Cached n k)) (cached_eval (interp n) k)).
    { intros c Hc; unfold cached_eval, read; destruct (c k) as [v|] eqn:Ek.
      - simpl; split; auto; intros a Q; apply Ok_inj in Q; subst a.
        assert (X := Hc k); rewrite Kk in X; destruct (X v Ek) as [Wv [Dv Ev]]; split; auto.
        destruct Kd as [D E]; split; simpl; [congruence|].
        intros ix B; rewrite <- D in B; rewrite Ev, E; auto.
      - destruct (Hs c Hc) as [C1 G1].
        destruct (f_eval (interp n) c) as [c1 [v|e| |]]; simpl in *;
          try (split; [auto|intros a Q; discriminate Q]).
        destruct (G1 v eq_refl) as [Wv [Dv Ev]]; split.
        + intro j; unfold write; destruct (ident_eqb k j) eqn:Ej; [|apply C1].
          apply ident_eqb_eq in Ej; subst j; rewrite Kk; intros w Q; inversion Q; subst w; split; auto.
          destruct Kd as [D E]; split; [congruence|]; intros ix B; rewrite E by auto; apply Ev; rewrite <- D; auto.
        + intros a Q; apply Ok_inj in Q; subst a; split; auto; split; auto. }
    split.
    + apply (tri_post coh _ _ _ (Ps (Cached n k)) _ (res_map Raw) S1).
      intros [v| | |] s Hr Q; simpl in Q; try discriminate; apply Ok_inj in Q; subst s.
      destruct (Hr v eq_refl) as [Wv [Dv Ev]]; split; auto; split; auto.
    + apply (tri_post coh _ _ _ (Pt (Cached n k)) _ (res_map bty_of) S1).
      intros [v| | |] s Hr Q; simpl in Q; try discriminate; apply Ok_inj in Q; subst s.
      destruct (Hr v eq_refl) as [Wv [Dv Ev]]; split; auto using vwf_bty.
  - (* Un *)
    destruct (IHn W Ky Rg) as [Hs Hh]; split; [|exact Hh].
    apply (tri_post coh _ _ _ (Ps (Un u n)) _ (res_map (un_spec_post u)) Hs).
    intros [s| | |] s' Hr Q; simpl in Q; try discriminate; apply Ok_inj in Q; subst s'.
    destruct (Hr s eq_refl); apply un_holds; auto.
  - (* Sum *)
    destruct (IHn W Ky Rg) as [Hs Hh]; split.
    + apply (tri_post coh _ _ _ (Ps (Sum n)) _ (fun r => res_bind r sum_spec_post) Hs).
      intros [s| | |] s' Hr Q; simpl in Q; try discriminate.
      destruct (Hr s eq_refl); apply sum_holds with s; auto.
    + apply tri_const; intros c x Hc Q; apply Ok_inj in Q; subst x; split; simpl; auto.
  - (* Power *)
    destruct Ky as [K1 K2], W as [W1 W2], Rg as (R1 & R2 & R3).
    destruct (IHn1 W1 K1 R1) as [H1 _], (IHn2 W2 K2 R2) as [H2 _]; split.
    + eapply tri_both; [exact H1|exact H2|].
      intros a b s [Wa Ha] [Wb Hb] Q; exact (power_holds a b s _ _ Wa Wb Ha Hb R3 Q).
    + apply tri_const; intros c x Hc Q; apply Ok_inj in Q; subst x; split; simpl; auto.
  - (* Add *)
    destruct Ky as [K1 K2], W as [W1 W2], Rg as (R1 & R2).
    destruct (IHn1 W1 K1 R1) as [H1 T1], (IHn2 W2 K2 R2) as [H2 T2]; split.
    + eapply tri_both; [exact H1|exact H2|].
      intros a b s [Wa Ha] [Wb Hb] Q; apply map_err_ok in Q; apply (zips_holds fadd a b s); auto using add_zips.
    + eapply tri_both_shape; [exact T1|exact T2|]; intros; eapply den_bcast; eauto.
  - (* Sub *)
    destruct Ky as [K1 K2], W as [W1 W2], Rg as (R1 & R2 & R3).
    destruct (IHn1 W1 K1 R1) as [H1 T1], (IHn2 W2 K2 R2) as [H2 T2]; split.
    + eapply tri_both; [exact H1|exact H2|].
      intros a b s [Wa Ha] [Wb Hb] Q; apply map_err_ok in Q.
      apply (zips_holds fsub a b s); auto; apply sub_zips; auto.
      destruct Ha as [Da _], Hb as [Db _]; unfold keeps_order in R3; rewrite <- Da, <- Db in R3.
      destruct (spec_bty a), (spec_bty b); auto; cbn [swapped tdims_of] in *; apply Nat.leb_gt; specialize (R3 eq_refl); 
        unfold tdims_of in R3; simpl in R3; lia.
    + eapply tri_both_shape; [exact T1|exact T2|]; intros; eapply den_bcast; eauto.
  - (* Mul *)
    destruct Ky as [K1 K2], W as [W1 W2], Rg as (R1 & R2).
    destruct (IHn1 W1 K1 R1) as [H1 T1], (IHn2 W2 K2 R2) as [H2 T2]; split.
    + eapply tri_both; [exact H1|exact H2|].
      intros a b s [Wa Ha] [Wb Hb] Q; apply map_err_ok in Q; apply (zips_holds fmul a b s); auto using mul_zips.
    + eapply tri_both_shape; [exact T1|exact T2|]; intros; eapply den_bcast; eauto.
  - (* Div *)
    destruct Ky as [K1 K2], W as [W1 W2], Rg as (R1 & R2 & R3).
    destruct (IHn1 W1 K1 R1) as [H1 T1], (IHn2 W2 K2 R2) as [H2 T2].
    apply tri_eval in H1; apply tri_eval in H2; split.
    + apply (tri_post coh _ _ (Pv (Div n1 n2)) (Ps (Div n1 n2)) _ (res_map Raw)).
      * eapply tri_both_eval; [exact H1|exact H2|].
        intros a b s [Wa Ha] [Wb Hb] Q; apply map_err_ok in Q; apply (zip_holds fdiv a b s); auto.
      * intros [v| | |] s Hr Q; simpl in Q; try discriminate; apply Ok_inj in Q; subst s.
        destruct (Hr v eq_refl) as [Wv [Dv Ev]]; split; auto; split; auto.
    + eapply tri_both_shape; [exact T1|exact T2|]; intros; eapply den_bcast; eauto.
  - (* Contract *)
    destruct Ky as [K1 K2], W as [W1 W2].
    assert (Rg' : regular um rho n1 /\ regular um rho n2 /\ (axes = 0 \/ square_dims (den um rho n1) (den um rho n2))).
    { destruct axes; simpl in Rg; tauto. }
    destruct Rg' as (R1 & R2 & R3).
    destruct (IHn1 W1 K1 R1) as [H1 T1], (IHn2 W2 K2 R2) as [H2 T2]; split.
    + eapply tri_both; [exact H1|exact H2|].
      intros a b s [Wa Ha] [Wb Hb] Q; apply map_err_ok in Q.
      destruct (contract_holds axes a b s _ _ Wa Wb Ha Hb R3 Q) as (Ws & Hs & _); split; auto.
    + eapply tri_both_shape; [exact T1|exact T2|].
      intros a b t [Wa Da] [Wb Db] Q; destruct (contract_bty axes a b) as [t'|] eqn:C; [|discriminate].
      apply Ok_inj in Q; subst t'; split; [eapply contract_bty_wf; eauto|].
      assert (Sq : sq axes a b).
      { unfold square_dims in R3; rewrite <- Da, <- Db in R3; clear - R3.
        destruct axes as [|[|?]]; simpl; auto.
        destruct R3 as [SQ|SQ]; [discriminate|].
        destruct a as [| |?|[|? [|? [|? ?]]]], b as [| |?|[|? [|? [|? ?]]]]; auto. }
      assert (Dt : tdims_of t = tdims (match axes with 0 => outer (den um rho n1) (den um rho n2) | _ => inner (den um rho n1) (den um rho n2) end)).
      { clear - C Da Db Sq; destruct axes as [|[|?]]; [| |discriminate];
          destruct a as [| |?|[|? [|? [|? ?]]]], b as [| |?|[|? [|? [|? ?]]]];
          try discriminate; cbn [contract_bty] in C;
          try (destruct (Nat.eqb _ _) eqn:Q in C; [|discriminate]; apply Nat.eqb_eq in Q; subst);
          inversion C as [C']; unfold outer, inner; cbn [tdims]; rewrite <- Da, <- Db; cbn in *; subst; auto. }
      rewrite Dt; destruct axes; reflexivity.
Qed.

End Coherent.
End Den.
