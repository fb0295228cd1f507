(** Evaluation against its mathematical meaning, in the form used by Properties_math.v. *)
From Coq Require Import List Arith ZArith Reals Bool Lia Ring.
Import ListNotations.
From Verif Require Import Base Shapes Scalar Buffers Spec Contraction Node Eval Types Instances
  Vocab Math Real_math Index_facts Buffers_facts Spec_facts Contraction_facts Contraction_entries
  Match_facts Eval_facts Typing_facts Progress_facts Exact_facts Math_facts Instance_facts Eval_claims.

Section Claims.
Context {F : Type} {SF : Scalar F}.

Definition no_keys (i : ident) : bool := false.
Definition no_tensor (i : ident) : tensor F := Tensor [] (fun _ => fzero).

Lemma cache_free_keyed um rho (n : node F) : cache_free n = true -> keyed um rho no_keys no_tensor n.
Proof.
  induction n; simpl; auto; try discriminate;
    intro H; try (apply andb_true_iff in H; destruct H); auto.
Qed.

Lemma coherent_self rho : coherent rho no_keys no_tensor rho.
Proof. intro i; reflexivity. Qed.

Lemma value_um um n (c c' : ctx F) v :
  exact F -> (forall u x, un_fn u x = um u x) ->
  node_wf n -> ctx_wf c -> cache_free n = true -> regular um c n ->
  evaluate n c = (c', Ok v) -> vwf v /\ holds v (den um c n).
Proof.
  intros EX UM W Wc Cf Rg H.
  destruct (den_all EX um UM c Wc no_keys no_tensor n W (cache_free_keyed um c n Cf) Rg) as [Hs _].
  apply (tri_eval EX) in Hs; destruct (Hs c (coherent_self c)) as [_ G].
  unfold evaluate in H; rewrite H in G; apply G; reflexivity.
Qed.

Lemma value_claim n (c c' : ctx F) v :
  exact F -> node_wf n -> ctx_wf c -> cache_free n = true -> regular un_fn c n ->
  evaluate n c = (c', Ok v) -> vwf v /\ holds v (den un_fn c n).
Proof. intros EX; apply value_um; auto. Qed.

Lemma exact_total : exact F -> fof_total.
Proof. intros EX k; rewrite (ex_of EX); discriminate. Qed.

Lemma ctx_ok_wf G (c : ctx F) : ctx_ok G c -> ctx_wf c.
Proof. intros O i v E; apply (O i v E). Qed.

Lemma evaluates_typed (G : tenv) n k (c : ctx F) :
  exact F -> node_wf n -> novec G n -> square G n -> typeof G n = Some k ->
  ctx_ok G c -> (forall i, uses n i -> c i <> None) ->
  exists v, snd (evaluate n c) = Ok v /\ vwf v /\ sty_of (bty_of v) = k.
Proof.
  intros EX W NN SQ T O D.
  destruct (typed_progress G n k c (exact_total EX) W NN SQ T O) as [_ P].
  destruct (snd (evaluate n c)) as [v|e| |]; try contradiction.
  - exists v; tauto.
  - destruct P as (i & _ & U & E); exfalso; apply (D i U E).
Qed.

Lemma value_total um (G : tenv) n k (c : ctx F) :
  exact F -> (forall u x, un_fn u x = um u x) ->
  node_wf n -> novec G n -> square G n -> typeof G n = Some k ->
  cache_free n = true -> ctx_ok G c -> (forall i, uses n i -> c i <> None) -> regular um c n ->
  exists v, evaluate n c = (c, Ok v) /\ sty_of (bty_of v) = k /\ holds v (den um c n).
Proof.
  intros EX UM W NN SQ T Cf O D Rg.
  destruct (evaluates_typed G n k c EX W NN SQ T O D) as (v & E & Wv & Kv).
  destruct (cache_free_ctx n Cf) as (C & _ & _); specialize (C c).
  unfold evaluate in *; destruct (f_eval (interp n) c) as [c' r] eqn:Q; simpl in E, C; subst r c'.
  exists v; split; auto; split; auto.
  apply (value_um um n c c v EX UM W (ctx_ok_wf G c O) Cf Rg Q).
Qed.

(** Caching. *)
Lemma den_strip um rho (n : node F) : den um rho (strip n) = den um rho n.
Proof. induction n as [| | | | | | | | | | | | |k l IHl r IHr]; simpl; auto; try congruence;
  try (rewrite IHn; reflexivity); try (rewrite IHn1, IHn2; reflexivity); destruct k; simpl; congruence. Qed.

Lemma regular_strip um rho (n : node F) : regular um rho n -> regular um rho (strip n).
Proof. induction n as [| | | | | | | | | | | | |k l IHl r IHr]; simpl; auto; rewrite ?den_strip; try tauto; destruct k; simpl; rewrite ?den_strip; tauto. Qed.

Lemma wf_strip (n : node F) : node_wf n -> node_wf (strip n).
Proof. induction n; simpl; tauto. Qed.

Lemma keyed_strip um rho keys K (n : node F) :
  keyed um rho keys K n -> keyed um rho keys K (strip n).
Proof. induction n; simpl; tauto. Qed.

Lemma novec_strip G (n : node F) : novec G n -> novec G (strip n).
Proof. induction n; simpl; tauto. Qed.

Lemma uses_strip (n : node F) i : uses (strip n) i <-> uses n i.
Proof. induction n; simpl; tauto. Qed.

Lemma cached_type (km kc k : sty) :
  match km, kc with
  | KS, KS => Some KS
  | KT, KT => Some KT
  | KV, KV => Some KV
  | KA a, KA b => if dims_eqb a b then Some (KA a) else None
  | _, _ => None
  end = Some k -> km = k.
Proof.
  destruct km, kc; try discriminate; try (intro H; inversion H; auto; fail).
  destruct (dims_eqb ds ds0); intro H; inversion H; auto.
Qed.

Lemma obind_some (A B : Type) (o : option A) (f : A -> option B) b :
  obind o f = Some b -> exists a, o = Some a /\ f a = Some b.
Proof. destruct o as [a|]; simpl; [eauto|discriminate]. Qed.

Lemma type_strip G (n : node F) k : typeof G n = Some k -> typeof G (strip n) = Some k.
Proof.
  revert k; induction n; intros ty H; simpl in *; auto;
    try (apply obind_some in H; destruct H as (k1 & H1 & H));
    try (apply obind_some in H; destruct H as (k2 & H2 & H)); auto;
    try (rewrite (IHn _ H1); simpl; rewrite ?H2; simpl; auto; fail);
    try (rewrite (IHn1 _ H1); simpl; rewrite (IHn2 _ H2); simpl; auto; fail).
  apply cached_type in H; subst; auto.
Qed.

Lemma square_strip G (n : node F) k : typeof G n = Some k -> square G n -> square G (strip n).
Proof.
  revert k; induction n; intros ty H Sq; simpl in *; auto;
    try (apply obind_some in H; destruct H as (k1 & H1 & H));
    try (apply obind_some in H; destruct H as (k2 & H2 & H)); eauto;
    try (destruct Sq; split; eauto; fail).
  destruct Sq as (S1 & S2 & S3); split; [eauto|split; [eauto|]].
  intros kl kr Tl Tr; rewrite (type_strip _ _ _ H1) in Tl; rewrite (type_strip _ _ _ H2) in Tr.
  inversion Tl; inversion Tr; subst; auto.
Qed.

Section Cached.
Variables (rho : ctx F) (keys : ident -> bool) (K : ident -> tensor F).
Hypothesis EX : exact F.
Hypothesis Wrho : ctx_wf rho.

Lemma coherent_kept (n : node F) m (c : ctx F) :
  node_wf n -> keyed un_fn rho keys K n -> regular un_fn rho n -> coherent rho keys K c ->
  coherent rho keys K (run1 c (m, n)).
Proof.
  intros W Ky Rg Hc.
  destruct (den_all EX un_fn (fun _ _ => eq_refl) rho Wrho keys K n W Ky Rg) as [Hs Ht].
  assert (Hv := tri_eval EX un_fn rho keys K n Hs).
  destruct m; unfold run1; simpl; [apply Hv|apply Hs|]; auto.
  unfold evaluate_shape; destruct (Ht c Hc) as [C _]; destruct (f_shape (interp n) c); auto.
Qed.

Lemma coherent_run (l : list (mode * node F)) (c : ctx F) :
  (forall p, In p l -> node_wf (snd p) /\ keyed un_fn rho keys K (snd p) /\ regular un_fn rho (snd p)) ->
  coherent rho keys K c -> coherent rho keys K (fold_left run1 l c).
Proof.
  revert c; induction l as [|[m n] l IH]; intros c H Hc; simpl; auto.
  apply IH; [intros p Hp; apply H; simpl; auto|].
  destruct (H (m, n)) as (W & Ky & Rg); simpl; auto; apply coherent_kept; auto.
Qed.

Lemma cached_value (n : node F) (c c' : ctx F) v :
  node_wf n -> keyed un_fn rho keys K n -> regular un_fn rho n -> coherent rho keys K c ->
  evaluate n c = (c', Ok v) -> vwf v /\ holds v (den un_fn rho (strip n)).
Proof.
  intros W Ky Rg Hc H; rewrite den_strip.
  destruct (den_all EX un_fn (fun _ _ => eq_refl) rho Wrho keys K n W Ky Rg) as [Hs _].
  apply (tri_eval EX) in Hs; destruct (Hs c Hc) as [_ G]; unfold evaluate in H; rewrite H in G.
  apply G; auto.
Qed.

Lemma sty_bty t t' : sty_of t = sty_of t' -> tdims_of t = tdims_of t' -> t = t'.
Proof. destruct t, t'; simpl; intros A B; try discriminate; auto; try congruence. inversion B; auto. Qed.

Lemma transparent (G : tenv) (n : node F) k (c : ctx F) :
  node_wf n -> novec G n -> square G n -> typeof G n = Some k -> ctx_ok G c ->
  (forall i, uses n i -> c i <> None) ->
  keyed un_fn rho keys K n -> regular un_fn rho n -> coherent rho keys K c ->
  exists v, snd (evaluate n c) = Ok v /\ snd (evaluate (strip n) c) = Ok v /\
            coherent rho keys K (fst (evaluate n c)).
Proof.
  intros W NN SQ T O D Ky Rg Hc.
  destruct (evaluates_typed G n k c EX W NN SQ T O D) as (v & Ev & Wv & Kv).
  destruct (evaluates_typed G (strip n) k c EX (wf_strip n W) (novec_strip G n NN)
             (square_strip G n k T SQ) (type_strip G n k T) O) as (w & Ew & Ww & Kw).
  { intros i U; apply D; apply uses_strip; auto. }
  destruct (evaluate n c) as [c1 r1] eqn:Q1; simpl in Ev; subst r1.
  destruct (evaluate (strip n) c) as [c2 r2] eqn:Q2; simpl in Ew; subst r2.
  destruct (cached_value n c c1 v W Ky Rg Hc Q1) as [_ [D1 E1]].
  assert (E2 := cached_value (strip n) c c2 w (wf_strip n W) (keyed_strip _ _ _ _ n Ky)
             (regular_strip _ _ n Rg) Hc Q2).
  rewrite den_strip in E2; destruct E2 as [_ [D2 E2]].
  exists v; split; auto; split.
  - simpl; f_equal; apply (value_ext fzero); auto.
    + apply sty_bty; [congruence|]; unfold vshape in *; unfold tdims_of; congruence.
    + intros ix B; change (tdims_of (bty_of w)) with (dims (vshape w)) in B; rewrite D2 in B.
      rewrite E1, E2; auto.
  - assert (X := coherent_kept n MEval c W Ky Rg Hc); unfold run1 in X; simpl in X; rewrite Q1 in X; auto.
Qed.

End Cached.

(** Elementwise trees, without any law. *)
Definition raw_holds (a : tensor F) (s : spec F) : Prop := exists v, s = Raw v /\ vwf v /\ holds v a.

Lemma elementwise_spine c (n : node F) : elementwise c n -> sum_spine n = false.
Proof. induction n; simpl; auto; tauto. Qed.

Lemma elementwise_spec (c : ctx F) n :
  ctx_wf c -> node_wf n -> elementwise c n ->
  tri (eq c) (raw_holds (den un_fn c n)) (f_spec (interp n)).
Proof.
  intro Wc.
  assert (Z : forall op l r (m : spec F -> spec F -> res incompat (spec F)),
    (forall v w, m (Raw v) (Raw w) = zip_dense op (Raw v) (Raw w)) ->
    keeps_order (den un_fn c l) (den un_fn c r) ->
    tri (eq c) (raw_holds (den un_fn c l)) (f_spec (interp l)) ->
    tri (eq c) (raw_holds (den un_fn c r)) (f_spec (interp r)) ->
    tri (eq c) (raw_holds (pointwise op (den un_fn c l) (den un_fn c r)))
        (both (f_spec (interp l)) (f_spec (interp r)) (fun x y => res_map_err EOutput (m x y)))).
  { intros op l r m Hm KO H1 H2; eapply tri_both; [exact H1|exact H2|].
    intros a b s (v & -> & Wv & Hv) (w & -> & Ww & Hw) Q; apply map_err_ok in Q.
    rewrite Hm in Q; unfold zip_dense in Q; cbn [unwrap] in Q.
    destruct (zip_map_id op v w) as [z| | |] eqn:E; try discriminate Q; simpl in Q; apply Ok_inj in Q; subst s.
    destruct (zip_holds op v w z _ _ Wv Ww Hv Hw KO E); exists z; auto. }
  induction n; intros W El; try contradiction.
  - apply tri_const; intros c0 s <- Q; unfold read_spec in Q; simpl in Q.
    destruct (c i) as [v|] eqn:E; [|discriminate]; apply Ok_inj in Q; subst s.
    exists v; split; auto; split; [apply (Wc i v E)|].
    simpl; unfold var_tensor; rewrite E; split; auto.
  - apply tri_const; intros c0 s <- Q; apply Ok_inj in Q; subst s; exists v; split; auto; split; auto.
    split; auto.
  - apply (tri_post (eq c) _ _ _ _ _ (res_map (un_spec_post u)) (IHn W El)).
    intros [s| | |] s' Hr Q; simpl in Q; try discriminate; apply Ok_inj in Q; subst s'.
    destruct (Hr s eq_refl) as (v & -> & Wv & Hv); simpl; eexists; split; [reflexivity|].
    rewrite vmutate_vmap; split; [apply vmap_wf; auto|].
    destruct Hv as [D E]; split; [unfold vshape in *; rewrite vmap_bty; auto|].
    intros ix B; rewrite (value_eta fzero v Wv) at 1; rewrite vmap_build, vat_build; [rewrite E; auto|].
    simpl in B; rewrite <- D in B; auto.
  - destruct W as [W1 W2], El as [E1 E2].
    eapply tri_both; [exact (IHn1 W1 E1)|exact (IHn2 W2 E2)|].
    intros a b s (v & -> & Wv & [Dv Hv]) (w & -> & Ww & [Dw Hw]) Q.
    destruct v as [x0|x0 x1|x0|x0 x1], w as [y0|y0 y1|y0|y0 y1]; try discriminate Q.
    apply Ok_inj in Q; subst s; eexists; split; [reflexivity|]; split; [exact I|].
    split; auto; intros ix B; simpl; unfold vshape in Dv, Dw; simpl in Dv, Dw.
    rewrite <- Dv in Hv; rewrite <- Dw in Hw.
    rewrite <- (Hv []), <- (Hw []) by constructor; reflexivity.
  - destruct W as [W1 W2], El as (E1 & E2 & KO); apply (Z fadd); auto.
  - destruct W as [W1 W2], El as (E1 & E2 & KO); apply (Z fsub); auto.
  - destruct W as [W1 W2], El as (E1 & E2 & KO); apply (Z fmul); auto.
  - destruct W as [W1 W2], El as (E1 & E2 & KO).
    assert (V : forall m : node F, elementwise c m ->
      tri (eq c) (raw_holds (den un_fn c m)) (f_spec (interp m)) ->
      tri (eq c) (fun v => vwf v /\ holds v (den un_fn c m)) (f_eval (interp m))).
    { intros m Em H c0 <-; assert (A := lifted_agrees m c (elementwise_spine c m Em)).
      unfold evaluate, evaluate_spec in A; rewrite A; destruct (H c eq_refl) as [C1 G]; split; auto.
      simpl; intros v Q; destruct (snd (f_spec (interp m) c)) as [s| | |]; try discriminate.
      apply Ok_inj in Q; subst v; destruct (G s eq_refl) as (v & -> & Wv & Hv); auto. }
    apply (tri_post (eq c) _ _ (fun v => vwf v /\ holds v (den un_fn c (Div n1 n2))) _ _ (res_map Raw)).
    + eapply tri_both_eval; [apply (V n1); auto|apply (V n2); auto|].
      intros a b s [Wa Ha] [Wb Hb] Q; apply map_err_ok in Q; apply (zip_holds fdiv a b s); auto.
    + intros [v| | |] s Hr Q; simpl in Q; try discriminate; apply Ok_inj in Q; subst s.
      destruct (Hr v eq_refl); exists v; auto.
Qed.

Lemma elementwise_claim (c c' : ctx F) n v :
  ctx_wf c -> node_wf n -> elementwise c n -> evaluate n c = (c', Ok v) ->
  c' = c /\ holds v (den un_fn c n).
Proof.
  intros Wc W El H; assert (A := lifted_agrees n c (elementwise_spine c n El)).
  rewrite H in A; destruct (elementwise_spec c n Wc W El c eq_refl) as [C1 G].
  unfold evaluate_spec in A; injection A as A1 A2; split; [congruence|].
  destruct (snd (f_spec (interp n) c)) as [s| | |]; try discriminate A2.
  destruct (G s eq_refl) as (w & -> & Ww & Hw); simpl in A2; apply Ok_inj in A2; subst w; auto.
Qed.

End Claims.

(** Evaluation only looks at the identifiers in the tree. *)
Lemma restrict {F} {SF : Scalar F} (n : node F) (c c' : ctx F) :
  (forall i, contains n i = true -> c i = c' i) -> snd (evaluate n c) = snd (evaluate n c').
Proof.
  intro A; destruct (ni_all (fun j => contains n j = true) n) as (N1 & _ & _); [auto|].
  apply (N1 c c' A).
Qed.

(** Over the reals. *)
Lemma value_real inf sp n (c c' : ctx R) v :
  let S := R_scalar inf sp in
  node_wf n -> ctx_wf c -> cache_free n = true -> regular (real_un inf sp) c n ->
  evaluate n c = (c', Ok v) -> vwf v /\ holds v (den (real_un inf sp) c n).
Proof. intro S; apply value_um; [apply R_exact|apply real_un_fn]. Qed.

Lemma value_real_total inf sp G n k (c : ctx R) :
  let S := R_scalar inf sp in
  node_wf n -> novec G n -> square G n -> typeof G n = Some k ->
  cache_free n = true -> ctx_ok G c -> (forall i, uses n i -> c i <> None) ->
  regular (real_un inf sp) c n ->
  exists v, evaluate n c = (c, Ok v) /\ sty_of (bty_of v) = k /\ holds v (den (real_un inf sp) c n).
Proof. intro S; apply value_total; [apply R_exact|apply real_un_fn]. Qed.

(** Where evaluation is not the mathematical value, over the integers. *)
Definition mat22 (a b c d : Z) : value Z := VArr [2; 2] (AN [AN [AF a; AF b]; AN [AF c; AF d]]).
Definition vec2 (a b : Z) : value Z := VArr [2] (AN [AF a; AF b]).
Definition ctx2 {F} (x y : value F) : ctx F :=
  fun i => match i with 0 => Some x | 1 => Some y | _ => None end.

Lemma ctx2_wf {F} (x y : value F) : vwf x -> vwf y -> ctx_wf (ctx2 x y).
Proof. intros Wx Wy [|[|i]] v E; inversion E; subst; auto. Qed.

Lemma value_differs :
  let S := Z_scalar in
  (* scalar - matrix *)
  (exists c v, ctx_wf c /\ snd (evaluate (Sub (Var 0) (Var 1)) c) = Ok v /\
               ~ holds v (den un_fn c (Sub (Var 0) (Var 1)))) /\
  (* zero to the power zero with a constant base *)
  (exists c v, let n := Power (ConstSpec (Full TS 0%Z)) (Var 0) in
               ctx_wf c /\ snd (evaluate n c) = Ok v /\ ~ holds v (den un_fn c n)) /\
  (* non-square matrix times vector *)
  (exists c v, let n := Contract 1 (Var 0) (Var 1) in
               ctx_wf c /\ snd (evaluate n c) = Ok v /\ ~ holds v (den un_fn c n)).
Proof.
  intro S; split; [|split].
  - exists (ctx2 (VScal 5%Z) (mat22 1 2 3 4)), (mat22 (-4) (-3) (-2) (-1)).
    split; [apply ctx2_wf; simpl; repeat constructor|split; [reflexivity|]].
    intros [_ H]; specialize (H [0; 0]); discriminate H; repeat constructor.
  - exists (ctx2 (VScal 0%Z) (VScal 0%Z)), (VScal 0%Z); split; [apply ctx2_wf; exact I|split; [reflexivity|]].
    intros [_ H]; specialize (H []); discriminate H; constructor.
  - exists (ctx2 (VArr [2; 1] (AN [AN [AF 1%Z]; AN [AF 2%Z]])) (vec2 3 4)), (VArr [1] (AN [AF 3%Z])).
    split; [apply ctx2_wf; simpl; repeat constructor|split; [reflexivity|]].
    intros [D _]; discriminate D.
Qed.

(** A cache changes the value of zero to the power zero. *)
Lemma caching_differs :
  let S := Z_scalar in
  exists (n : node Z) rho keys K v w,
    node_wf n /\ ctx_wf rho /\ keyed un_fn rho keys K n /\ coherent rho keys K rho /\
    snd (evaluate n rho) = Ok v /\ snd (evaluate (strip n) rho) = Ok w /\ v <> w.
Proof.
  intro S; exists (Power (Cached (ConstSpec (Full TS 0%Z)) 1) (Var 0)).
  exists (fun i => match i with 0 => Some (VScal 0%Z) | _ => None end).
  exists (fun i => Nat.eqb i 1), (fun _ => Tensor [] (fun _ => 0%Z)), (VScal 1%Z), (VScal 0%Z).
  split; [simpl; auto|split; [intros [|i] v E; inversion E; exact I|split]].
  { simpl; repeat split; auto. }
  split; [intros [|[|i]]; simpl; auto; intros v E; discriminate E|].
  split; [reflexivity|split; [reflexivity|discriminate]].
Qed.

(** Scalar to the left of a matrix: the written argument order is not kept. *)
Lemma order_differs :
  let S := Z_scalar in
  exists (l r : node Z) c v,
    node_wf l /\ node_wf r /\ elementwise c l /\ elementwise c r /\ ctx_wf c /\
    snd (evaluate (Sub l r) c) = Ok v /\ ~ holds v (den un_fn c (Sub l r)).
Proof.
  intro S; destruct value_differs as [(c & v & W & E & H) _].
  exists (Var 0), (Var 1), c, v; simpl; auto 9.
Qed.

(** Linear regression, README.md:51-56. *)
Section Regression.
Context {F : Type} {SF : Scalar F}.
Hypothesis EX : exact F.
Add Ring Fr : (ex_ring EX).

Lemma sum_const_zero {A} (l : list A) (f : A -> F) :
  (forall a, In a l -> f a = fzero) -> sum_over l f = fzero.
Proof.
  unfold sum_over; intro H; induction l as [|a l IH] using rev_ind; auto.
  rewrite fold_left_app; simpl; rewrite IH, H; [ring|apply in_or_app; simpl; auto|].
  intros b Hb; apply H, in_or_app; auto.
Qed.

Lemma sum_pick n j (f : nat -> F) :
  j < n -> sum_over (seq 0 n) (fun k => fmul (f k) (if Nat.eqb k j then fone else fzero)) = f j.
Proof.
  unfold sum_over; intro H; induction n; [lia|].
  rewrite seq_S, fold_left_app; simpl.
  destruct (Nat.eq_dec n j) as [->|N].
  - rewrite Nat.eqb_refl; change (fadd (sum_over (seq 0 j) (fun k => fmul (f k) (if Nat.eqb k j then fone else fzero))) (fmul (f j) fone) = f j).
    rewrite sum_const_zero; [ring|]; intros a Ha; apply in_seq in Ha.
    destruct (Nat.eqb_spec a j); [lia|ring].
  - rewrite IHn by lia; destruct (Nat.eqb_spec n j); [lia|ring].
Qed.

Lemma regression n (x w y : ident) vx vw (b : F) (c : ctx F) :
  x <> w -> x <> y -> w <> y ->
  c x = Some vx -> vwf vx -> bty_of vx = TA [n] ->
  c w = Some vw -> vwf vw -> bty_of vw = TA [n] ->
  c y = Some (VScal b) ->
  exists v, evaluate_adjoint (sse x w y) w c = Some (c, Ok v) /\ bty_of v = TA [n] /\
    forall i, i < n ->
      vat fzero v [i] =
      fmul (fmul (fadd fone fone)
              (fsub (sum_over (seq 0 n) (fun k => fmul (vat fzero vx [k]) (vat fzero vw [k]))) b))
           (vat fzero vx [i]).
Proof.
  intros Nxw Nxy Nwy Cx Wx Tx Cw Ww Tw Cy; unfold evaluate_adjoint, sse.
  cbn [adjoint obind un_adjoint option_map].
  set (m := Sub (Contract 1 (Var x) (Var w)) (Var y)).
  set (a := Mul _ _).
  set (c0 := fun i => if Nat.eqb i x then Some vx else if Nat.eqb i w then Some vw else
                      if Nat.eqb i y then Some (VScal b) else None).
  set (G := fun i => if Nat.eqb i x then Some (KA [n]) else if Nat.eqb i w then Some (KA [n]) else
                     if Nat.eqb i y then Some KS else None).
  assert (X0 : c0 x = Some vx) by (unfold c0; rewrite Nat.eqb_refl; auto).
  assert (W0 : c0 w = Some vw) by (unfold c0; rewrite Nat.eqb_refl; destruct (Nat.eqb_spec w x); congruence).
  assert (Y0 : c0 y = Some (VScal b)).
  { unfold c0; rewrite Nat.eqb_refl; destruct (Nat.eqb_spec y x), (Nat.eqb_spec y w); congruence. }
  assert (GX : G x = Some (KA [n])) by (unfold G; rewrite Nat.eqb_refl; auto).
  assert (GW : G w = Some (KA [n])) by (unfold G; rewrite Nat.eqb_refl; destruct (Nat.eqb_spec w x); congruence).
  assert (GY : G y = Some KS).
  { unfold G; rewrite Nat.eqb_refl; destruct (Nat.eqb_spec y x), (Nat.eqb_spec y w); congruence. }
  assert (Tm : typeof G m = Some KS).
  { unfold m; simpl; rewrite GX, GW, GY; simpl; rewrite ?Nat.eqb_refl; reflexivity. }
  assert (Ta : typeof G a = Some (KA [n])).
  { unfold a; cbn [typeof]; rewrite Tm; cbn [obind]; rewrite GX, GW, GY; simpl;
      repeat (rewrite ?Nat.eqb_refl; simpl); reflexivity. }
  assert (O : ctx_ok G c0).
  { intros i v; unfold c0, G; destruct (Nat.eqb i x); [intro E; inversion E; subst; rewrite Tx; auto|].
    destruct (Nat.eqb i w); [intro E; inversion E; subst; rewrite Tw; auto|].
    destruct (Nat.eqb i y); intro E; inversion E; subst; simpl; auto. }
  assert (K : forall i, contains a i = true -> c0 i = c i).
  { intros i H; unfold c0; destruct (Nat.eqb_spec i x) as [->|N1]; auto.
    destruct (Nat.eqb_spec i w) as [->|N2]; auto; destruct (Nat.eqb_spec i y) as [->|N3]; auto.
    unfold a, m in H; cbn [contains] in H; unfold ident_eqb in H.
    rewrite !(proj2 (Nat.eqb_neq _ i)) in H by auto; discriminate H. }
  assert (Vx : var_tensor c0 x = tensor_of vx) by (unfold var_tensor; rewrite X0; auto).
  assert (Vw : var_tensor c0 w = tensor_of vw) by (unfold var_tensor; rewrite W0; auto).
  assert (Vy : var_tensor c0 y = tensor_of (VScal b)) by (unfold var_tensor; rewrite Y0; auto).
  assert (Dx : dims (vshape vx) = [n]) by (unfold vshape; rewrite Tx; auto).
  assert (Dw : dims (vshape vw) = [n]) by (unfold vshape; rewrite Tw; auto).
  destruct (value_total un_fn G a (KA [n]) c0 EX (fun _ _ => eq_refl)) as (v & E & Kv & [D H]); auto.
  - simpl; auto 9.
  - unfold a, m; cbn [novec]; rewrite GX, GW, GY; cbn; repeat split; discriminate.
  - unfold a, m; cbn [square]; repeat split; intros kl kr; simpl; rewrite ?GX, ?GW; simpl; rewrite ?Nat.eqb_refl;
      intros Q1 Q2; inversion Q1; inversion Q2; subst; simpl; auto.
  - intros i U; assert (i = x \/ i = w \/ i = y) as [->|[->| ->]] by (unfold a, m in U; simpl in U; tauto);
      congruence.
  - unfold a, m; simpl; unfold keeps_order, square_dims, inner; simpl; rewrite Vx, Vw, Vy; simpl.
    rewrite Dx, Dw; simpl; rewrite ?Dx, ?Dw; simpl; repeat split; auto; discriminate.
  - assert (R := restrict a c0 c K); rewrite E in R; simpl in R.
    destruct (cache_free_ctx a eq_refl) as (C & _ & _); specialize (C c).
    unfold evaluate in *; destruct (f_eval (interp a) c) as [c' r] eqn:Q; simpl in R, C; subst c' r.
    assert (Dv : tdims (den un_fn c0 a) = [n]).
    { unfold a, m; simpl; unfold inner; simpl; rewrite Vx, Vw, Vy; simpl; rewrite Dx, Dw; simpl; auto. }
    exists v; split; auto; split.
    + destruct v; simpl in Kv; try discriminate; inversion Kv; subst; auto.
    + intros i Hi; rewrite H; [|rewrite Dv; repeat constructor; auto].
      unfold a, m; simpl; unfold inner; simpl; rewrite Vx, Vw, Vy; simpl; rewrite Dx, Dw; simpl.
      unfold at_bc; simpl; rewrite ?Dx, ?Dw; simpl.
      rewrite Nat.eqb_refl, andb_false_r; simpl.
      match goal with |- context [fadd (sum_over _ ?f) (sum_over _ ?g)] =>
        assert (S1 : sum_over (seq 0 n) f = vat fzero vx [i]);
        [|assert (S2 : sum_over (seq 0 n) g = fzero)] end.
      * rewrite <- (sum_pick n i (fun k => vat fzero vx [k]) Hi).
        unfold sum_over; apply fold_left_ext_in; intros; rewrite andb_true_r; auto.
      * apply sum_const_zero; intros k _; rewrite (proj2 (Nat.eqb_neq x w)) by auto; simpl; ring.
      * rewrite S1, S2; unfold ftwo; ring.
Qed.
End Regression.
