(** Law-free evaluation of written trees, in the form used by Properties_math.v. *)
From Coq Require Import List Arith ZArith Bool Lia.
Import ListNotations.
From Verif Require Import Base Shapes Scalar Buffers Spec Contraction Node Eval Types Instances
  Vocab Math Code_math Index_facts Buffers_facts Spec_facts Contraction_facts Contraction_entries
  Match_facts Eval_facts Typing_facts Progress_facts Exact_facts Math_facts.

Section Steps.
Context {F : Type} {SF : Scalar F}.

Lemma zip_crossed op x y v (a b : tensor F) :
  vwf x -> vwf y -> holds x a -> holds y b ->
  zip_map_id op x y = Ok v -> vwf v /\ holds v (crossed op a b).
Proof.
  intros Wx Wy Hx Hy H; rewrite zip_id_eq in H by auto.
  destruct (bcast_bty _ _) as [t|e| |] eqn:B; try discriminate; apply Ok_inj in H.
  set (g := if swapped (bty_of x) (bty_of y) then fun u w => op w u else op).
  assert (Q : crossed op a b = pointwise g a b).
  { assert (Bx := vwf_bty _ Wx); assert (By := vwf_bty _ Wy).
    destruct Hx as [Dx _], Hy as [Dy _]; unfold crossed; rewrite <- Dx, <- Dy; unfold g, vshape.
    clear - Bx By; destruct (bty_of x) as [| |?|[|? ?]], (bty_of y) as [| |?|[|? [|? ?]]]; auto.
    exfalso; simpl in *; lia. }
  rewrite Q.
  assert (K := zips_holds g (Raw x) (Raw y) (Raw v) a b Wx Wy).
  apply K; auto.
  exists t; split; auto; subst v; cbn [spec_bty spec_wf sfun].
  split; [apply build_bty|split; [apply build_wf; eapply bcast_bty_wf; eauto|]].
  intros ix Bx; rewrite vat_build by auto; unfold g; destruct (swapped _ _); auto.
Qed.

Lemma contract_raw axes (x y : value F) s :
  vwf x -> vwf y -> (bty_of x <> TS \/ bty_of y <> TS) -> contract_spec axes (Raw x) (Raw y) = Ok s ->
  exists v, s = Raw v /\ contract axes x y = Ok v.
Proof.
  intros Wx Wy NS H.
  assert (D : contract_dense axes (Raw x) (Raw y) = Ok s -> exists v, s = Raw v /\ contract axes x y = Ok v).
  { unfold contract_dense; cbn [unwrap]; destruct (contract axes x y) as [v| | |]; try discriminate.
    intro Q; apply Ok_inj in Q; eauto. }
  unfold contract_spec in H; cbn [spec_bty] in H.
  destruct axes as [|[|axes]]; [| |discriminate];
    destruct x as [x0|x0 x1|x0|[|n [|m [|? ?]]] x1], y as [y0|y0 y1|y0|[|n' [|m' [|? ?]]] y1];
    cbn [bty_of] in H; try discriminate; try (apply D; exact H);
    try (exfalso; cbn in NS; destruct NS; congruence);
    destruct (Nat.eqb _ _) eqn:Q; try discriminate; try (apply D; exact H).
  unfold dot_vec_vec in H; cbn [unwrap] in H.
  unfold contract; rewrite Q.
  destruct (zip_fold _ _ _ _) as [z| | |]; try discriminate; apply Ok_inj in H; eauto.
Qed.

Lemma contract_steps axes (x y v : value F) a b :
  vwf x -> vwf y -> holds x a -> holds y b -> (tdims a <> [] \/ tdims b <> []) ->
  contract axes x y = Ok v ->
  vwf v /\ holds v (match axes with 0 => outer_steps a b | _ => inner_steps a b end).
Proof.
  intros Wx Wy [Dx Ex] [Dy Ey] NS H; rewrite (value_eta fzero x Wx), (value_eta fzero y Wy) in H.
  destruct (contract_bty axes (bty_of x) (bty_of y)) as [t|] eqn:C.
  2:{ exfalso; clear - C H; destruct axes as [|[|?]]; [| |discriminate];
        destruct (bty_of x) as [| |?|[|? [|? [|? ?]]]], (bty_of y) as [| |?|[|? [|? [|? ?]]]];
        cbn [contract_bty build contract] in *; try discriminate; destruct (Nat.eqb _ _); discriminate. }
  destruct (narrow axes (bty_of x) (bty_of y)) eqn:N.
  2:{ rewrite (contract_wide _ _ _ _ _ _ C N) in H; discriminate. }
  rewrite (contract_entries _ _ _ _ _ _ C N) in H; apply Ok_inj in H; subst v.
  assert (Wt : bty_wf t) by (eapply contract_bty_wf; exact C).
  split; [apply build_wf; auto|].
  unfold vshape in *; rewrite <- Dx, <- Dy in NS.
  assert (Dt : tdims_of t = tdims (match axes with 0 => outer_steps a b | _ => inner_steps a b end)).
  { clear - C Dx Dy NS; unfold outer_steps, inner_steps; rewrite <- Dx, <- Dy.
    destruct axes as [|[|?]]; [| |discriminate];
      destruct (bty_of x) as [| |?|[|? [|? [|? ?]]]], (bty_of y) as [| |?|[|? [|? [|? ?]]]];
      try discriminate; cbn [contract_bty] in C;
      try (destruct (Nat.eqb _ _) eqn:Q in C; [|discriminate]; apply Nat.eqb_eq in Q; subst);
      inversion C as [C']; cbn; unfold outer, inner; cbn; rewrite <- ?Dx, <- ?Dy; cbn; auto. }
  split; [unfold vshape; rewrite build_bty; exact Dt|].
  rewrite <- Dt; intros ix B; rewrite vat_build by auto.
  unfold outer_steps, inner_steps; rewrite <- Dx, <- Dy.
  destruct axes as [|[|?]]; [| |discriminate];
    destruct (bty_of x) as [| |?|[|? [|? [|? ?]]]], (bty_of y) as [| |?|[|? [|? [|? ?]]]];
    try discriminate; cbn [contract_bty] in C; try (exfalso; cbn in NS; destruct NS; congruence);
    try (destruct (Nat.eqb _ _) eqn:Q in C; [|discriminate]; apply Nat.eqb_eq in Q; subst);
    inversion C as [C']; rewrite <- C' in B; cbn in N; try apply Nat.leb_le in N;
    cbn in B, Dx, Dy |- *; unfold outer, inner; rewrite <- ?Dx, <- ?Dy; cbn [tat];
    try (apply in_box_nil in B; subst ix);
    try (apply box1_inv in B; destruct B as (i & -> & Hi));
    try (apply box2_inv in B; destruct B as (i & j & -> & Hi & Hj));
    cbn; unfold lsum, sum_over;
    try (apply fold_left_ext_in; intros acc k Hk; apply in_seq in Hk);
    rewrite ?Ex, ?Ey by (rewrite <- ?Dx, <- ?Dy; repeat constructor; auto; lia);
    try reflexivity.
Qed.

(** [f_spec] is [f_eval] with [Raw] around it, neither touches the context, and values are as given
    by [steps]. *)
Definition faithful (c : ctx F) (n : node F) : Prop :=
  exists r, f_eval (interp n) c = (c, r) /\ f_spec (interp n) c = (c, res_map Raw r) /\
    forall v, r = Ok v -> vwf v /\ holds v (steps c n).

Lemma faithful_both c l r n (m : spec F -> spec F -> res err (spec F)) :
  faithful c l -> faithful c r ->
  interp n = {| f_eval := eval_by_spec (both (f_spec (interp l)) (f_spec (interp r)) m);
                f_spec := both (f_spec (interp l)) (f_spec (interp r)) m;
                f_shape := f_shape (interp n) |} ->
  (forall x y s, vwf x -> vwf y -> holds x (steps c l) -> holds y (steps c r) ->
     m (Raw x) (Raw y) = Ok s -> exists v, s = Raw v /\ vwf v /\ holds v (steps c n)) ->
  faithful c n.
Proof.
  intros (rl & _ & Sl & Pl) (rr & _ & Sr & Pr) En Hm; unfold faithful; rewrite En; cbn [f_eval f_spec].
  unfold eval_by_spec, both; rewrite Sl.
  destruct rl as [x|e| |]; cbn [res_map res_map_err]; try (eexists; split; [reflexivity|split; [reflexivity|intros ? Q; discriminate Q]]).
  rewrite Sr; destruct rr as [y|e| |]; cbn [res_map res_map_err];
    try (eexists; split; [reflexivity|split; [reflexivity|intros ? Q; discriminate Q]]).
  destruct (Pl x eq_refl) as [Wx Hx], (Pr y eq_refl) as [Wy Hy].
  assert (K := Hm x y).
  destruct (m (Raw x) (Raw y)) as [s|e| |]; cbn [res_map];
    try (eexists; split; [reflexivity|split; [reflexivity|intros ? Q; discriminate Q]]).
  destruct (K s Wx Wy Hx Hy eq_refl) as (v & -> & Wv & Hv); exists (Ok v).
  split; [reflexivity|split; [reflexivity|]]; intros w Q; apply Ok_inj in Q; subst w; auto.
Qed.

Lemma written_faithful (c : ctx F) n : ctx_wf c -> node_wf n -> written c n -> faithful c n.
Proof.
  intro Wc.
  assert (Z : forall op (x y : value F) s a b, vwf x -> vwf y -> holds x a -> holds y b ->
    res_map_err EOutput (zip_dense op (Raw x) (Raw y)) = @Ok err _ s ->
    exists v, s = Raw v /\ vwf v /\ holds v (crossed op a b)).
  { intros op x y s a b Wx Wy Hx Hy Q; apply map_err_ok in Q; unfold zip_dense in Q; cbn [unwrap] in Q.
    destruct (zip_map_id op x y) as [z| | |] eqn:E; try discriminate Q; simpl in Q; apply Ok_inj in Q; subst s.
    destruct (zip_crossed op x y z a b Wx Wy Hx Hy E); eauto. }
  induction n; intros W Hw; try contradiction.
  - (* Var *)
    eexists; split; [reflexivity|]; split.
    + cbn [interp var_fn f_spec]; unfold read_spec, read; destruct (c i); reflexivity.
    + intros v Q; unfold read in Q; destruct (c i) as [w|] eqn:E; [|discriminate]; apply Ok_inj in Q; subst w.
      split; [apply (Wc i v E)|]; simpl; unfold var_tensor; rewrite E; split; auto.
  - (* Const *)
    exists (Ok v); split; [reflexivity|]; split; [reflexivity|].
    intros w Q; apply Ok_inj in Q; subst w; split; auto; split; auto.
  - (* Un *)
    destruct (IHn W Hw) as (r & Ev & Sp & P); exists (res_map (vmutate (un_fn u)) r).
    cbn [interp unary_fn f_eval f_spec]; rewrite Ev, Sp; split; [reflexivity|].
    split; [destruct r; reflexivity|].
    intros w Q; destruct r as [v|e| |]; try discriminate; simpl in Q; apply Ok_inj in Q; subst w.
    destruct (P v eq_refl) as [Wv [D E]].
    rewrite vmutate_vmap; split; [apply vmap_wf; auto|].
    split; [unfold vshape in *; rewrite vmap_bty; auto|].
    intros ix B; rewrite (value_eta fzero v Wv) at 1; rewrite vmap_build, vat_build; [rewrite E; auto|].
    simpl in B; rewrite <- D in B; auto.
  - (* Sum *)
    destruct (IHn W Hw) as (r & Ev & Sp & P); exists (res_map (fun v => VScal (vsum v)) r).
    cbn [interp sum_fn f_eval f_spec]; rewrite Ev, Sp; split; [reflexivity|].
    split; [destruct r; reflexivity|].
    intros w Q; destruct r as [v|e| |]; try discriminate; simpl in Q; apply Ok_inj in Q; subst w.
    destruct (P v eq_refl) as [Wv [D E]]; split; [exact I|].
    split; [reflexivity|]; intros ix B; cbn [steps tat vat].
    unfold vsum; rewrite (value_eta fzero v Wv), vfold_build; unfold sum_over.
    rewrite (all_ix_iproduct (tdims (steps c n))).
    transitivity (fold_left (fun a jx => fadd a (vat fzero v jx)) (iproduct (tdims (steps c n))) fzero);
      [rewrite <- D; reflexivity|].
    apply fold_left_ext_in; intros acc jx Hj; apply in_iproduct in Hj; rewrite E; auto.
  - (* Power *)
    destruct W as [W1 W2], Hw as [E1 E2].
    eapply faithful_both; [apply IHn1; auto|apply IHn2; auto|reflexivity|].
    intros v w s Wv Ww [Dv Hv] [Dw Hw] Q.
    destruct v as [x0|x0 x1|x0|x0 x1], w as [y0|y0 y1|y0|y0 y1]; try discriminate Q.
    apply Ok_inj in Q; subst s; eexists; split; [reflexivity|]; split; [exact I|].
    split; auto; intros ix B; simpl; unfold vshape in Dv, Dw; simpl in Dv, Dw.
    rewrite <- Dv in Hv; rewrite <- Dw in Hw.
    rewrite <- (Hv []), <- (Hw []) by constructor; reflexivity.
  - destruct W, Hw; eapply faithful_both; [apply IHn1; auto|apply IHn2; auto|reflexivity|].
    intros x y s Wx Wy Hx Hy Q; exact (Z fadd x y s _ _ Wx Wy Hx Hy Q).
  - destruct W, Hw; eapply faithful_both; [apply IHn1; auto|apply IHn2; auto|reflexivity|].
    intros x y s Wx Wy Hx Hy Q; exact (Z fsub x y s _ _ Wx Wy Hx Hy Q).
  - destruct W, Hw; eapply faithful_both; [apply IHn1; auto|apply IHn2; auto|reflexivity|].
    intros x y s Wx Wy Hx Hy Q; exact (Z fmul x y s _ _ Wx Wy Hx Hy Q).
  - (* Div *)
    destruct W as [W1 W2], Hw as [E1 E2].
    destruct (IHn1 W1 E1) as (rl & Ev1 & _ & P1), (IHn2 W2 E2) as (rr & Ev2 & _ & P2).
    unfold faithful; cbn [interp div_fn f_eval f_spec]; unfold default_spec, both_eval; rewrite Ev1.
    destruct rl as [x|e| |]; cbn [res_map res_map_err]; try (eexists; split; [reflexivity|split; [reflexivity|intros ? Q; discriminate Q]]).
    rewrite Ev2; destruct rr as [y|e| |]; cbn [res_map res_map_err];
      try (eexists; split; [reflexivity|split; [reflexivity|intros ? Q; discriminate Q]]).
    destruct (P1 x eq_refl) as [Wx Hx], (P2 y eq_refl) as [Wy Hy].
    eexists; split; [reflexivity|]; split; [reflexivity|].
    intros v Q; apply map_err_ok in Q; apply (zip_crossed fdiv x y v); auto.
  - (* Contract *)
    destruct W as [W1 W2], Hw as (E1 & E2 & NS).
    eapply faithful_both; [apply IHn1; auto|apply IHn2; auto|reflexivity|].
    intros x y s Wx Wy Hx Hy Q; apply map_err_ok in Q.
    assert (NS' : bty_of x <> TS \/ bty_of y <> TS).
    { destruct Hx as [Dx _], Hy as [Dy _]; rewrite <- Dx, <- Dy in NS; unfold vshape in NS.
      destruct NS as [NS|NS]; [left|right]; intro T; apply NS; rewrite T; reflexivity. }
    destruct (contract_raw axes x y s Wx Wy NS' Q) as (v & -> & Cv); exists v; split; auto.
    destruct (contract_steps axes x y v _ _ Wx Wy Hx Hy NS Cv) as [Wv Hv]; split; auto.
Qed.

Lemma steps_claim (c c' : ctx F) n v :
  ctx_wf c -> node_wf n -> written c n -> evaluate n c = (c', Ok v) ->
  c' = c /\ vwf v /\ holds v (steps c n).
Proof.
  intros Wc W Hw H; destruct (written_faithful c n Wc W Hw) as (r & Ev & _ & P).
  unfold evaluate in H; rewrite H in Ev; inversion Ev; subst; split; auto.
Qed.

Lemma steps_lifted (c : ctx F) n :
  ctx_wf c -> node_wf n -> written c n ->
  evaluate_spec n c = (c, res_map Raw (snd (evaluate n c))).
Proof.
  intros Wc W Hw; destruct (written_faithful c n Wc W Hw) as (r & Ev & Sp & _).
  unfold evaluate, evaluate_spec; rewrite Ev, Sp; reflexivity.
Qed.

(** Outcomes, including failures. *)
Definition outcome_of (c : ctx F) (n : node F) (r : res err (value F)) : Prop :=
  match fault_of c n with
  | None => exists v, r = Ok v /\ vwf v /\ holds v (steps c n)
  | Some (Returns e) => r = Err e
  | Some Panics => r = Panic
  end.

Definition decided (c : ctx F) (n : node F) (k : sty) : Prop :=
  exists r, f_eval (interp n) c = (c, r) /\ f_spec (interp n) c = (c, res_map Raw r) /\
    outcome_of c n r /\ forall v, r = Ok v -> sty_of (bty_of v) = k.

Lemma decided_both c l r n kl kr k out (m : spec F -> spec F -> res err (spec F)) :
  decided c l kl -> decided c r kr ->
  interp n = {| f_eval := eval_by_spec (both (f_spec (interp l)) (f_spec (interp r)) m);
                f_spec := both (f_spec (interp l)) (f_spec (interp r)) m;
                f_shape := f_shape (interp n) |} ->
  fault_of c n = in_order (fault_of c l) (fault_of c r) out ->
  (forall x y, vwf x -> vwf y -> holds x (steps c l) -> holds y (steps c r) ->
     sty_of (bty_of x) = kl -> sty_of (bty_of y) = kr ->
     match out with
     | None => exists v, m (Raw x) (Raw y) = Ok (Raw v) /\ vwf v /\ holds v (steps c n) /\
                         sty_of (bty_of v) = k
     | Some (Returns e) => m (Raw x) (Raw y) = Err e
     | Some Panics => m (Raw x) (Raw y) = Panic
     end) ->
  decided c n k.
Proof.
  intros (rl & _ & Sl & Ol & Tl) (rr & _ & Sr & Or & Tr) En Fn Hm.
  unfold decided, outcome_of in *; rewrite En, Fn; cbn [f_eval f_spec].
  unfold eval_by_spec, both; rewrite Sl; unfold in_order.
  destruct (fault_of c l) as [[e|]|].
  1,2: subst rl; cbn [res_map res_map_err through]; eexists; split; [reflexivity|];
       split; [reflexivity|]; split; [reflexivity|intros ? Q; discriminate Q].
  destruct Ol as (x & -> & Wx & Hx); cbn [res_map res_map_err]; rewrite Sr.
  destruct (fault_of c r) as [[e|]|].
  1,2: subst rr; cbn [res_map res_map_err through]; eexists; split; [reflexivity|];
       split; [reflexivity|]; split; [reflexivity|intros ? Q; discriminate Q].
  destruct Or as (y & -> & Wy & Hy); cbn [res_map res_map_err].
  assert (K := Hm x y Wx Wy Hx Hy (Tl x eq_refl) (Tr y eq_refl)).
  destruct out as [[e|]|].
  1,2: rewrite K; cbn [res_map]; eexists; split; [reflexivity|];
       split; [reflexivity|]; split; [reflexivity|intros ? Q; discriminate Q].
  destruct K as (v & -> & Wv & Hv & Tv); cbn [res_map unwrap]; exists (Ok v).
  split; [reflexivity|split; [reflexivity|split; [eauto|]]].
  intros w Q; apply Ok_inj in Q; subst w; auto.
Qed.

Lemma zip_decided op (x y : value F) a b k :
  vwf x -> vwf y -> holds x a -> holds y b -> zip_sty (sty_of (bty_of x)) (sty_of (bty_of y)) = Some k ->
  if same_dims a b
  then exists v, zip_map_id op x y = Ok v /\ vwf v /\ holds v (crossed op a b) /\ sty_of (bty_of v) = k
  else zip_map_id op x y = Err (Incompat (Dy (tdims a)) (Dy (tdims b))).
Proof.
  intros Wx Wy Hx Hy T.
  assert (E := zip_id_eq op x y Wx Wy).
  assert (Z := fun v => zip_crossed op x y v a b Wx Wy Hx Hy).
  assert (Bx := vwf_bty _ Wx); assert (By := vwf_bty _ Wy).
  rewrite bcast_bty_table in E by auto.
  destruct Hx as [Dx _], Hy as [Dy _]; unfold same_dims; rewrite <- Dx, <- Dy; unfold vshape.
  assert (G : forall t g, zip_map_id op x y = Ok (build t g) -> sty_of t = k ->
    exists v, zip_map_id op x y = Ok v /\ vwf v /\ holds v (crossed op a b) /\ sty_of (bty_of v) = k).
  { intros t g Eq Tt; exists (build t g); split; auto; destruct (Z _ Eq) as [Wv Hv]; rewrite build_bty; auto. }
  clear Z; destruct (bty_of x) as [| |n|[|d ds]], (bty_of y) as [| |m|[|d' ds']]; cbn in T, Bx, By; try lia;
    try discriminate; try (inversion T; subst k; cbn; eapply G; [exact E|reflexivity]).
  - cbn; rewrite andb_true_r; destruct (Nat.eqb n m); [|exact E].
    inversion T; subst k; eapply G; [exact E|reflexivity].
  - assert (D : dims_eqb (d :: ds) (d' :: ds') = (d =? d') && dims_eqb ds ds') by reflexivity.
    rewrite D in E; cbn; fold dims_eqb; destruct ((d =? d') && dims_eqb ds ds'); [|discriminate].
    inversion T; subst k; eapply G; [exact E|reflexivity].
Qed.

Lemma contract_decided axes (x y : value F) a b k :
  vwf x -> vwf y -> holds x a -> holds y b ->
  contract_sty axes (sty_of (bty_of x)) (sty_of (bty_of y)) = Some k ->
  ~ (sty_of (bty_of x) = KS /\ sty_of (bty_of y) = KS) ->
  if Nat.eqb axes 1 && too_wide a b
  then contract_spec axes (Raw x) (Raw y) = Panic
  else exists v, contract_spec axes (Raw x) (Raw y) = Ok (Raw v) /\ vwf v /\
         holds v (match axes with 0 => outer_steps a b | _ => inner_steps a b end) /\
         sty_of (bty_of v) = k.
Proof.
  intros Wx Wy Hx Hy T NS.
  assert (R : contract_spec axes (Raw x) (Raw y) = contract_dense axes (Raw x) (Raw y)).
  { unfold contract_spec; cbn [spec_bty]; clear - T NS.
    destruct axes as [|[|axes]]; [| |discriminate];
      destruct x as [x0|x0 x1|x0|[|n [|m [|? ?]]] x1], y as [y0|y0 y1|y0|[|n' [|m' [|? ?]]] y1];
      cbn [bty_of] in *; try discriminate; try reflexivity; try (exfalso; apply NS; auto; fail);
      cbn in T; destruct (Nat.eqb _ _) eqn:Q; try discriminate; try reflexivity.
    unfold dot_vec_vec, contract_dense, contract; cbn [unwrap]; rewrite Q.
    destruct (zip_fold _ _ _ _); reflexivity. }
  rewrite R; destruct (contract_sty_sound _ _ _ _ T) as (t & C & Tt).
  assert (NS' : tdims a <> [] \/ tdims b <> []).
  { destruct Hx as [Dx _], Hy as [Dy _]; rewrite <- Dx, <- Dy; unfold vshape.
    assert (Bx := vwf_bty _ Wx); assert (By := vwf_bty _ Wy); clear - NS Bx By.
    destruct (bty_of x) as [| |?|[|? ?]], (bty_of y) as [| |?|[|? ?]]; cbn in *;
      try lia; try (left; discriminate); try (right; discriminate); exfalso; apply NS; auto. }
  assert (N : Nat.eqb axes 1 && too_wide a b = negb (narrow axes (bty_of x) (bty_of y))).
  { destruct Hx as [Dx _], Hy as [Dy _]; unfold too_wide; rewrite <- Dx, <- Dy; unfold vshape; clear - C.
    destruct axes as [|[|axes]]; [| |discriminate];
      destruct (bty_of x) as [| |?|[|? [|? [|? ?]]]], (bty_of y) as [| |?|[|? [|? [|? ?]]]];
      try discriminate; try reflexivity; cbn in C |- *;
      destruct (Nat.eqb _ _) eqn:Q; try discriminate; apply Nat.eqb_eq in Q; subst; apply Nat.ltb_antisym. }
  rewrite N; destruct (narrow axes (bty_of x) (bty_of y)) eqn:Nw; cbn [negb].
  - rewrite (contract_dense_ok axes (Raw x) (Raw y) t Wx Wy C Nw).
    eexists; split; [reflexivity|].
    assert (Q := contract_entries axes _ _ t (vat fzero x) (vat fzero y) C Nw).
    rewrite <- (value_eta fzero x Wx), <- (value_eta fzero y Wy) in Q.
    destruct (contract_steps axes x y _ a b Wx Wy Hx Hy NS' Q) as [Wv Hv].
    split; [exact Wv|split; [exact Hv|]]; rewrite build_bty; auto.
  - unfold contract_dense; cbn [unwrap].
    assert (Q := contract_wide axes _ _ t (vat fzero x) (vat fzero y) C Nw).
    rewrite <- (value_eta fzero x Wx), <- (value_eta fzero y Wy) in Q; rewrite Q; reflexivity.
Qed.

Lemma typed_decided (G : tenv) (c : ctx F) n k :
  ctx_ok G c -> node_wf n -> written_typed G n -> typeof G n = Some k -> decided c n k.
Proof.
  intro Ok_c; revert k.
  assert (Z : forall op (x y : value F) a b k, vwf x -> vwf y -> holds x a -> holds y b ->
    zip_sty (sty_of (bty_of x)) (sty_of (bty_of y)) = Some k ->
    match (if same_dims a b then None else Some Panics) with
    | None => exists v, res_map_err EOutput (zip_dense op (Raw x) (Raw y)) = Ok (Raw v) /\ vwf v /\
                        holds v (crossed op a b) /\ sty_of (bty_of v) = k
    | Some (Returns e) => res_map_err EOutput (zip_dense op (Raw x) (Raw y)) = @Err err _ e
    | Some Panics => res_map_err EOutput (zip_dense op (Raw x) (Raw y)) = @Panic err _
    end).
  { intros op x y a b k Wx Wy Hx Hy T; assert (K := zip_decided op x y a b k Wx Wy Hx Hy T).
    unfold zip_dense; cbn [unwrap]; destruct (same_dims a b).
    - destruct K as (v & -> & Wv & Hv & Tv); exists v; auto.
    - rewrite K; reflexivity. }
  induction n; intros k' W Hw T; try contradiction.
  - (* Var *)
    unfold decided, outcome_of; cbn [interp var_fn f_eval f_spec fault_of typeof] in *; unfold read, read_spec.
    destruct (c i) as [v|] eqn:E; cbn [ok_or_undef option_map].
    + exists (Ok v); split; [reflexivity|split; [reflexivity|]]; destruct (Ok_c i v E) as [Wv Gv]; split.
      * exists v; split; auto; split; auto; simpl; unfold var_tensor; rewrite E; split; auto.
      * intros w Q; apply Ok_inj in Q; subst w; congruence.
    + eexists; split; [reflexivity|split; [reflexivity|split; [reflexivity|intros ? Q; discriminate Q]]].
  - (* Const *)
    exists (Ok v); split; [reflexivity|split; [reflexivity|split]].
    + exists v; split; auto; split; auto; split; auto.
    + intros w Q; apply Ok_inj in Q; subst w; simpl in T; congruence.
  - (* Un *)
    destruct (IHn k' W Hw T) as (r & Ev & Sp & O & Ty); exists (res_map (vmutate (un_fn u)) r).
    cbn [interp unary_fn f_eval f_spec]; rewrite Ev, Sp; split; [reflexivity|].
    split; [destruct r; reflexivity|].
    unfold outcome_of in *; cbn [fault_of]; destruct (fault_of c n) as [[e|]|];
      try (subst r; split; [reflexivity|intros ? Q; discriminate Q]).
    destruct O as (v & -> & Wv & [D E]); assert (Tv := Ty v eq_refl); cbn [res_map]; split.
    + eexists; split; [reflexivity|]; rewrite vmutate_vmap; split; [apply vmap_wf; auto|].
      split; [unfold vshape in *; rewrite vmap_bty; auto|].
      intros ix B; rewrite (value_eta fzero v Wv) at 1; rewrite vmap_build, vat_build; [rewrite E; auto|].
      simpl in B; rewrite <- D in B; auto.
    + intros w Q; apply Ok_inj in Q; subst w; rewrite vmutate_vmap, vmap_bty; auto.
  - (* Sum *)
    cbn [typeof] in T; destruct (typeof G n) as [km|] eqn:Tm; [|discriminate]; inversion T; subst k'; clear T.
    destruct (IHn km W Hw eq_refl) as (r & Ev & Sp & O & Ty); exists (res_map (fun v => VScal (vsum v)) r).
    cbn [interp sum_fn f_eval f_spec]; rewrite Ev, Sp; split; [reflexivity|].
    split; [destruct r; reflexivity|].
    unfold outcome_of in *; cbn [fault_of]; destruct (fault_of c n) as [[e|]|];
      try (subst r; split; [reflexivity|intros ? Q; discriminate Q]).
    destruct O as (v & -> & Wv & [D E]); cbn [res_map]; split.
    + eexists; split; [reflexivity|]; split; [exact I|].
      split; [reflexivity|]; intros ix B; cbn [steps tat vat].
      unfold vsum; rewrite (value_eta fzero v Wv), vfold_build; unfold sum_over.
      rewrite (all_ix_iproduct (tdims (steps c n))).
      transitivity (fold_left (fun a jx => fadd a (vat fzero v jx)) (iproduct (tdims (steps c n))) fzero);
        [rewrite <- D; reflexivity|].
      apply fold_left_ext_in; intros acc jx Hj; apply in_iproduct in Hj; rewrite E; auto.
    + intros w Q; apply Ok_inj in Q; subst w; reflexivity.
  - (* Power *)
    destruct W as [W1 W2], Hw as [E1 E2]; cbn [typeof] in T.
    destruct (typeof G n1) as [kl|] eqn:T1; [|discriminate].
    destruct (typeof G n2) as [kr|] eqn:T2; [|discriminate]; cbn [obind] in T.
    destruct kl; try discriminate; destruct kr; try discriminate; inversion T; subst k'.
    eapply decided_both; [apply IHn1; auto|apply IHn2; auto|reflexivity|reflexivity|].
    intros v w Wv Ww [Dv Hv] [Dw Hw] Tv Tw.
    destruct v as [x0|x0 x1|x0|x0 x1]; try discriminate Tv; destruct w as [y0|y0 y1|y0|y0 y1]; try discriminate Tw.
    eexists; split; [reflexivity|]; split; [exact I|]; split; [|reflexivity].
    split; auto; intros ix B; simpl; unfold vshape in Dv, Dw; simpl in Dv, Dw.
    rewrite <- Dv in Hv; rewrite <- Dw in Hw.
    rewrite <- (Hv []), <- (Hw []) by constructor; reflexivity.
  - destruct W as [W1 W2], Hw as [E1 E2]; cbn [typeof] in T.
    destruct (typeof G n1) as [kl|] eqn:T1; [|discriminate].
    destruct (typeof G n2) as [kr|] eqn:T2; [|discriminate]; cbn [obind] in T.
    eapply decided_both; [apply (IHn1 kl); auto|apply (IHn2 kr); auto|reflexivity|reflexivity|].
    intros x y Wx Wy Hx Hy <- <-; exact (Z fadd x y _ _ _ Wx Wy Hx Hy T).
  - destruct W as [W1 W2], Hw as [E1 E2]; cbn [typeof] in T.
    destruct (typeof G n1) as [kl|] eqn:T1; [|discriminate].
    destruct (typeof G n2) as [kr|] eqn:T2; [|discriminate]; cbn [obind] in T.
    eapply decided_both; [apply (IHn1 kl); auto|apply (IHn2 kr); auto|reflexivity|reflexivity|].
    intros x y Wx Wy Hx Hy <- <-; exact (Z fsub x y _ _ _ Wx Wy Hx Hy T).
  - destruct W as [W1 W2], Hw as [E1 E2]; cbn [typeof] in T.
    destruct (typeof G n1) as [kl|] eqn:T1; [|discriminate].
    destruct (typeof G n2) as [kr|] eqn:T2; [|discriminate]; cbn [obind] in T.
    eapply decided_both; [apply (IHn1 kl); auto|apply (IHn2 kr); auto|reflexivity|reflexivity|].
    intros x y Wx Wy Hx Hy <- <-; exact (Z fmul x y _ _ _ Wx Wy Hx Hy T).
  - (* Div *)
    destruct W as [W1 W2], Hw as [E1 E2]; cbn [typeof] in T.
    destruct (typeof G n1) as [kl|] eqn:T1; [|discriminate].
    destruct (typeof G n2) as [kr|] eqn:T2; [|discriminate]; cbn [obind] in T.
    destruct (IHn1 kl W1 E1 eq_refl) as (rl & Ev1 & _ & O1 & Y1), (IHn2 kr W2 E2 eq_refl) as (rr & Ev2 & _ & O2 & Y2).
    unfold decided, outcome_of in *; cbn [interp div_fn f_eval f_spec fault_of].
    unfold default_spec, both_eval, in_order; rewrite Ev1.
    destruct (fault_of c n1) as [[e|]|].
    1,2: subst rl; cbn [res_map res_map_err through]; eexists; split; [reflexivity|];
         split; [reflexivity|]; split; [reflexivity|intros ? Q; discriminate Q].
    destruct O1 as (x & -> & Wx & Hx); cbn [res_map res_map_err]; rewrite Ev2.
    destruct (fault_of c n2) as [[e|]|].
    1,2: subst rr; cbn [res_map res_map_err through]; eexists; split; [reflexivity|];
         split; [reflexivity|]; split; [reflexivity|intros ? Q; discriminate Q].
    destruct O2 as (y & -> & Wy & Hy); cbn [res_map res_map_err].
    rewrite <- (Y1 x eq_refl), <- (Y2 y eq_refl) in T.
    assert (K := zip_decided fdiv x y _ _ k' Wx Wy Hx Hy T).
    destruct (same_dims (steps c n1) (steps c n2)).
    + destruct K as (v & -> & Wv & Hv & Tv); cbn [res_map res_map_err]; exists (Ok v).
      split; [reflexivity|split; [reflexivity|split; [eauto|]]].
      intros w Q; apply Ok_inj in Q; subst w; auto.
    + rewrite K; cbn [res_map res_map_err]; eexists; split; [reflexivity|];
        split; [reflexivity|]; split; [reflexivity|intros ? Q; discriminate Q].
  - (* Contract *)
    destruct W as [W1 W2], Hw as (E1 & E2 & NS); cbn [typeof] in T.
    destruct (typeof G n1) as [kl|] eqn:T1; [|discriminate].
    destruct (typeof G n2) as [kr|] eqn:T2; [|discriminate]; cbn [obind] in T.
    eapply decided_both; [apply (IHn1 kl); auto|apply (IHn2 kr); auto|reflexivity|reflexivity|].
    intros x y Wx Wy Hx Hy <- <-.
    assert (NS' : ~ (sty_of (bty_of x) = KS /\ sty_of (bty_of y) = KS)) by (intros [Q1 Q2]; apply NS; rewrite Q1, Q2; auto).
    assert (K := contract_decided axes x y _ _ k' Wx Wy Hx Hy T NS').
    destruct (Nat.eqb axes 1 && too_wide _ _).
    + rewrite K; reflexivity.
    + destruct K as (v & -> & Wv & Hv & Tv); exists v; split; [reflexivity|split; [auto|split; auto]].
Qed.

Lemma outcome_claim (G : tenv) (c : ctx F) n k :
  ctx_ok G c -> node_wf n -> written_typed G n -> typeof G n = Some k ->
  match fault_of c n with
  | None => exists v, evaluate n c = (c, Ok v) /\ sty_of (bty_of v) = k /\ holds v (steps c n)
  | Some (Returns e) => evaluate n c = (c, Err e)
  | Some Panics => evaluate n c = (c, Panic)
  end.
Proof.
  intros Oc W Hw T; destruct (typed_decided G c n k Oc W Hw T) as (r & Ev & _ & O & Ty).
  unfold evaluate; rewrite Ev; unfold outcome_of in O.
  destruct (fault_of c n) as [[e|]|]; try congruence.
  destruct O as (v & -> & Wv & Hv); exists v; auto.
Qed.

End Steps.
