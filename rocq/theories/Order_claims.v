(** Reordered inputs give reordered results; in the form used by Properties_order.v. *)
From Coq Require Import List Arith Bool Lia Permutation.
Import ListNotations.
From Verif Require Import Base Shapes Scalar Buffers Spec Contraction Node Eval Types Vocab Math Code_math
  Index_facts Buffers_facts Spec_facts Contraction_facts Contraction_entries Match_facts Eval_facts
  Progress_facts Math_facts Code_claims Float_claims Relate_facts Order_math.

Section Moves.
Variables (n : nat) (s : nat -> nat).
Hypothesis Ps : permutes n s.
Notation mv := (moved n s).

Lemma box_length ds ix : in_box ds ix -> length ix = length ds.
Proof. induction 1; cbn; auto. Qed.

Lemma moved_box ds ix : in_box ds ix -> in_box ds (mv ds ix).
Proof.
  intro B; induction B as [|i d ix ds Hi B IH]; cbn [moved]; constructor; [|exact IH].
  destruct (Nat.eqb_spec d n) as [->|_]; [apply Ps|]; exact Hi.
Qed.

Lemma moved_inj ds ix jx : in_box ds ix -> in_box ds jx -> mv ds ix = mv ds jx -> ix = jx.
Proof.
  intro B; revert jx; induction B as [|i d ix ds Hi B IH]; intros jx B'; inversion B' as [|j ? jx' ? Hj B2]; subst; [reflexivity|].
  cbn [moved]; intro E; injection E as E1 E2; f_equal; [|apply IH; assumption].
  destruct (Nat.eqb_spec d n) as [->|_]; [apply Ps|]; assumption.
Qed.

Lemma moved_app ds es ix jx : length ix = length ds -> mv (ds ++ es) (ix ++ jx) = mv ds ix ++ mv es jx.
Proof.
  revert ix; induction ds as [|d ds IH]; intros [|i ix] L; try discriminate; [reflexivity|].
  cbn [app moved]; f_equal; apply IH; injection L; auto.
Qed.

Lemma moved_all ds : Permutation (map (mv ds) (all_ix ds)) (all_ix ds).
Proof.
  rewrite all_ix_iproduct; apply NoDup_Permutation_bis.
  - assert (K : forall l, NoDup l -> (forall x, In x l -> in_box ds x) -> NoDup (map (mv ds) l)).
    { induction 1 as [|x l Nx Nl IH]; intro H; constructor.
      - intro I; apply in_map_iff in I; destruct I as (y & E & Hy); apply Nx.
        rewrite <- (moved_inj ds y x); auto using in_eq, in_cons.
      - apply IH; intros; apply H; right; assumption. }
    apply K; [apply iproduct_NoDup|]; intros x Hx; apply in_iproduct; exact Hx.
  - rewrite map_length; apply le_n.
  - intros x Hx; apply in_map_iff in Hx; destruct Hx as (y & <- & Hy).
    apply in_iproduct, moved_box, in_iproduct; exact Hy.
Qed.

Lemma all_ix1 d : all_ix [d] = map (fun i => [i]) (seq 0 d).
Proof. cbn [all_ix map]; induction (seq 0 d) as [|x l IH]; cbn; [reflexivity|f_equal; exact IH]. Qed.
End Moves.

Section Runs.
Context {F : Type} {S : Scalar F}.
Variables (n : nat) (s : nat -> nat).
Hypothesis Ps : permutes n s.
Notation mv := (moved n s).

(** As [reordered], for tensors. *)
Definition mov (a b : tensor F) : Prop :=
  tdims a = tdims b /\ forall ix, in_box (tdims a) ix -> tat b (mv (tdims a) ix) = tat a ix.

Lemma mov_at a b ix : mov a b -> in_box (tdims a) (match tdims a with [] => [] | _ => ix end) ->
  at_bc b (mv (tdims a) ix) = at_bc a ix.
Proof.
  intros [D E] B; unfold at_bc; rewrite <- D.
  destruct (tdims a) as [|d ds] eqn:Da; [exact (E [] (Forall2_nil _))|apply E; exact B].
Qed.

Lemma mov_pointwise op a a' b b' : mov a a' -> mov b b' -> (tdims a = [] \/ tdims b = [] \/ tdims a = tdims b) ->
  mov (pointwise op a b) (pointwise op a' b').
Proof.
  intros H1 H2 D; unfold pointwise; split; cbn [tdims tat]; [rewrite <- (proj1 H1), <- (proj1 H2); reflexivity|].
  intros ix B; f_equal.
  - destruct (tdims a) as [|d ds] eqn:Da.
    + unfold at_bc; rewrite <- (proj1 H1), Da; destruct H1 as [_ E]; rewrite Da in E; exact (E [] (Forall2_nil _)).
    + rewrite <- Da; apply mov_at; [exact H1|rewrite Da; exact B].
  - destruct (tdims b) as [|e es] eqn:Db.
    + unfold at_bc; rewrite <- (proj1 H2), Db; destruct H2 as [_ E]; rewrite Db in E; exact (E [] (Forall2_nil _)).
    + replace (match tdims a with [] => e :: es | _ => tdims a end) with (tdims b) in *.
      * apply mov_at; [exact H2|rewrite Db in *; exact B].
      * destruct (tdims a); [exact Db|]. destruct D as [D|[D|D]]; try discriminate; congruence.
Qed.

Lemma mov_crossed op a a' b b' : mov a a' -> mov b b' -> (tdims a = [] \/ tdims b = [] \/ tdims a = tdims b) ->
  mov (crossed op a b) (crossed op a' b').
Proof.
  intros H1 H2 D; unfold crossed; rewrite <- (proj1 H1), <- (proj1 H2).
  destruct (tdims a) eqn:Da, (tdims b) as [|? [|? ?]] eqn:Db; apply mov_pointwise; auto; rewrite Da, Db; auto.
Qed.

Lemma mov_outer a a' b b' : mov a a' -> mov b b' -> mov (outer_steps a b) (outer_steps a' b').
Proof.
  intros [D E] [D' E']; unfold outer_steps, outer; rewrite <- D; destruct (tdims a) as [|d ds] eqn:Da.
  - split; [exact D'|]; cbn [tdims tat]; intros ix B; rewrite E' by exact B; rewrite <- (E [] (Forall2_nil _)); reflexivity.
  - unfold mov; cbn [tdims tat]; rewrite <- D'; split; [reflexivity|]; intros ix B.
    change (d :: ds ++ tdims b) with ((d :: ds) ++ tdims b) in *.
    apply Forall2_app_inv_r in B; destruct B as (i1 & i2 & B1 & B2 & ->).
    assert (L : length i1 = length (d :: ds)) by (apply box_length; exact B1).
    assert (L' : length (mv (d :: ds) i1) = length (d :: ds)).
    { apply box_length, moved_box; assumption. }
    rewrite moved_app by exact L.
    rewrite <- L' at 1 2; rewrite firstn_app, skipn_app, firstn_all, skipn_all, Nat.sub_diag, firstn_O, skipn_O, app_nil_r.
    rewrite <- L; rewrite firstn_app, skipn_app, firstn_all, skipn_all, Nat.sub_diag, firstn_O, skipn_O, app_nil_r.
    cbn [app]; rewrite (E i1 B1), (E' i2 B2); reflexivity.
Qed.

Section Sums.
Hypothesis Ex : @exact_sums F S.

Lemma sum_perm {A} (l l' : list A) f : Permutation l l' -> sum_over l f = sum_over l' f.
Proof.
  unfold sum_over; generalize (fzero : F); intros z P; revert z.
  induction P as [|x l l' P IH|x y l|l1 l2 l3 P1 IH1 P2 IH2]; intro z; cbn [fold_left]; auto.
  - f_equal; destruct Ex as [C A0]; rewrite <- !A0; f_equal; apply C.
  - rewrite IH1; apply IH2.
Qed.

Lemma sum_ext {A} (l : list A) f g : (forall x, In x l -> f x = g x) -> sum_over l f = sum_over l g.
Proof.
  unfold sum_over; generalize (fzero : F); intros z H; revert z H.
  induction l as [|x l IH]; intros z H; cbn [fold_left]; auto.
  rewrite (H x (in_eq _ _)); apply IH; intros; apply H; right; assumption.
Qed.

Lemma sum_map {A B} (g : A -> B) l f : sum_over (map g l) f = sum_over l (fun x => f (g x)).
Proof.
  unfold sum_over; generalize (fzero : F); induction l as [|x l IH]; intro z; cbn [map fold_left]; auto.
Qed.

Lemma sum_moved a b : mov a b -> sum_over (all_ix (tdims a)) (tat b) = sum_over (all_ix (tdims a)) (tat a).
Proof.
  intros [D E]; rewrite <- (sum_perm _ _ (tat b) (moved_all n s Ps (tdims a))), sum_map.
  apply sum_ext; intros x Hx; apply E; rewrite all_ix_iproduct in Hx; apply in_iproduct; exact Hx.
Qed.

(** On an axis of length [d]. *)
Lemma sum_axis d f g : (forall k, k < d -> g (if Nat.eqb d n then s k else k) = f k) ->
  sum_over (seq 0 d) g = sum_over (seq 0 d) f.
Proof.
  intro H.
  assert (M : mov (Tensor [d] (fun ix => f (nth 0 ix 0))) (Tensor [d] (fun ix => g (nth 0 ix 0)))).
  { split; [reflexivity|]; cbn [tdims tat]; intros ix B; apply box1_inv in B; destruct B as (i & -> & Hi); cbn [moved nth].
    apply H; exact Hi. }
  apply sum_moved in M; cbn [tdims tat] in M; rewrite all_ix1, !sum_map in M; exact M.
Qed.

Lemma mov_inner a a' b b' : inner_fits (tdims a) (tdims b) ->
  match tdims a, tdims b with [x; y], [_] | [_], [x; y] => x = y | _, _ => True end ->
  mov a a' -> mov b b' -> mov (inner_steps a b) (inner_steps a' b').
Proof.
  intros Fi Sq [D E] [D' E']; unfold inner_steps, inner; rewrite <- D, <- D'.
  destruct (tdims a) as [|x [|y [|? ?]]] eqn:Dx, (tdims b) as [|x' [|y' [|? ?]]] eqn:Dy; try contradiction;
    cbn [inner_fits last removelast tl length] in *; unfold mov; cbn [tdims tat app] in *;
    (split; [reflexivity|]); intros ix Bx.
  - subst x'; apply in_box_nil in Bx; subst ix; cbn [moved length Nat.sub firstn skipn app].
    apply sum_axis; intros k Hk; f_equal; [apply (E [k])|apply (E' [k])]; repeat constructor; exact Hk.
  - destruct Fi as [-> _]; subst y'; apply box1_inv in Bx; destruct Bx as (i & -> & Hi); cbn [moved nth].
    apply sum_axis; intros k Hk; f_equal; [apply (E [k])|apply (E' [k; i])]; repeat constructor; assumption.
  - destruct Fi as [-> _]; subst y; apply box1_inv in Bx; destruct Bx as (i & -> & Hi); cbn [moved nth].
    apply sum_axis; intros k Hk; f_equal; [apply (E [i; k])|apply (E' [k])]; repeat constructor; assumption.
  - subst x'; apply box2_inv in Bx; destruct Bx as (i & j & -> & Hi & Hj); cbn [moved length Nat.sub firstn skipn app].
    apply sum_axis; intros k Hk; f_equal; [apply (E [i; k])|apply (E' [k; j])]; repeat constructor; assumption.
Qed.
End Sums.

Lemma tree_moves c d m : @exact_sums F S \/ no_sums m -> ctx_wf c -> ctx_wf d -> written c m -> agrees c m -> agrees d m ->
  reordered_inputs n s c d -> unordered n s c m -> mov (steps c m) (steps d m).
Proof.
  induction m; intros Ex Wc Wd Hw Ag Ag' Sc Hm; try contradiction.
  - (* Var *)
    cbn [steps]; unfold var_tensor; specialize (Sc i).
    destruct (c i) as [v|] eqn:E, (d i) as [u|] eqn:E'; try contradiction; [exact Sc|].
    split; [reflexivity|]; intros; reflexivity.
  - (* Const *) exact Hm.
  - (* Un *)
    destruct (IHm Ex Wc Wd Hw Ag Ag' Sc Hm) as [D E]; split; cbn [steps tdims tat]; [exact D|].
    intros ix B; rewrite E by exact B; reflexivity.
  - (* Sum *)
    destruct Ex as [Ex|[]].
    assert (M := IHm (or_introl Ex) Wc Wd Hw Ag Ag' Sc Hm).
    split; [reflexivity|]; cbn [steps tat]; intros ix _; rewrite <- (proj1 M); apply sum_moved; assumption.
  - (* Power *)
    destruct Hw as [W1 W2], Ag as (A1 & A2 & D1 & D2), Ag' as (A1' & A2' & D1' & D2'), Hm as [H1 H2].
    assert (M1 := IHm1 ltac:(destruct Ex as [X|[X _]]; auto) Wc Wd W1 A1 A1' Sc H1).
    assert (M2 := IHm2 ltac:(destruct Ex as [X|[_ X]]; auto) Wc Wd W2 A2 A2' Sc H2).
    split; [reflexivity|]; cbn [steps tat]; intros ix _.
    destruct M1 as [_ M1], M2 as [_ M2]; rewrite D1 in M1; rewrite D2 in M2.
    f_equal; [exact (M1 [] (Forall2_nil _))|exact (M2 [] (Forall2_nil _))].
  - (* Add *)
    destruct Hw as [W1 W2], Ag as (A1 & A2 & D), Ag' as (A1' & A2' & _), Hm as [H1 H2]; cbn [steps].
    apply mov_crossed; [apply IHm1|apply IHm2|exact D]; auto; destruct Ex as [X|[X Y]]; auto.
  - (* Sub *)
    destruct Hw as [W1 W2], Ag as (A1 & A2 & D), Ag' as (A1' & A2' & _), Hm as [H1 H2]; cbn [steps].
    apply mov_crossed; [apply IHm1|apply IHm2|exact D]; auto; destruct Ex as [X|[X Y]]; auto.
  - (* Mul *)
    destruct Hw as [W1 W2], Ag as (A1 & A2 & D), Ag' as (A1' & A2' & _), Hm as [H1 H2]; cbn [steps].
    apply mov_crossed; [apply IHm1|apply IHm2|exact D]; auto; destruct Ex as [X|[X Y]]; auto.
  - (* Div *)
    destruct Hw as [W1 W2], Ag as (A1 & A2 & D), Ag' as (A1' & A2' & _), Hm as [H1 H2]; cbn [steps].
    apply mov_crossed; [apply IHm1|apply IHm2|exact D]; auto; destruct Ex as [X|[X Y]]; auto.
  - (* Contract *)
    destruct Hw as (W1 & W2 & _), Hm as (H1 & H2 & Sq).
    assert (A1 : agrees c m1) by (destruct axes; apply Ag).
    assert (A2 : agrees c m2) by (destruct axes; apply Ag).
    assert (A1' : agrees d m1) by (destruct axes; apply Ag').
    assert (A2' : agrees d m2) by (destruct axes; apply Ag').
    destruct axes as [|axes]; cbn [steps].
    + apply mov_outer; [apply IHm1|apply IHm2]; auto; destruct Ex as [X|[X Y]]; auto.
    + destruct Ex as [Ex|[]], Ag as (_ & _ & D); apply mov_inner; auto.
Qed.

Lemma reorders c d c' d' m v u : @exact_sums F S \/ no_sums m ->
  ctx_wf c -> ctx_wf d -> node_wf m -> written c m -> written d m ->
  reordered_inputs n s c d -> unordered n s c m ->
  evaluate m c = (c', Ok v) -> evaluate m d = (d', Ok u) -> reordered n s v u.
Proof.
  intros Ex Wc Wd W Hw Hw' Sc Hm H H'.
  destruct (steps_claim c c' m v Wc W Hw H) as (-> & Wv & D & E).
  destruct (steps_claim d d' m u Wd W Hw' H') as (-> & Ww & D' & E').
  assert (Ag := evaluate_agrees c m Wc c v W Hw H); assert (Ag' := evaluate_agrees d m Wd d u W Hw' H').
  destruct (tree_moves c d m Ex Wc Wd Hw Ag Ag' Sc Hm) as [Q K].
  split; [congruence|]; intros ix Bx; rewrite D in *.
  rewrite E', E by (try exact Bx; rewrite <- Q; apply moved_box; assumption).
  apply K; exact Bx.
Qed.
End Runs.
