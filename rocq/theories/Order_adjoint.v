(** Reordered inputs give reordered gradients; in the form used by Properties_order.v. *)
From Coq Require Import List Arith Bool Lia Permutation Ring.
Import ListNotations.
From Verif Require Import Base Shapes Scalar Buffers Spec Contraction Node Eval Types Instances Vocab Math Code_math
  Index_facts Buffers_facts Spec_facts Contraction_facts Contraction_entries Match_facts Eval_facts
  Typing_facts Progress_facts Exact_facts Math_facts Math_claims Eval_claims Adjoint_facts Adjoint_claims
  Float_claims Order_math Order_claims.

Section Gradients.
Context {F : Type} {S : Scalar F}.
Variables (n : nat) (s : nat -> nat).
Hypothesis Ps : permutes n s.
Hypothesis EX : exact F.
Variables (G : tenv) (c d : ctx F).
Hypothesis Oc : ctx_ok G c.
Hypothesis Od : ctx_ok G d.
Hypothesis Re : reordered_inputs n s c d.
Notation mv := (moved n s).
Notation mov := (mov n s).

Lemma ring_sums : @exact_sums F S.
Proof.
  destruct (ex_ring EX); split; [exact Radd_comm|exact Radd_assoc].
Qed.

Lemma ix_eqb_iff a b : ix_eqb a b = true <-> a = b.
Proof. rewrite ix_eqb_list; apply list_nat_eqb_eq. Qed.

Lemma var_moves i : mov (var_tensor c i) (var_tensor d i).
Proof.
  unfold var_tensor; specialize (Re i).
  destruct (c i) as [v|] eqn:E, (d i) as [u|] eqn:E'; try contradiction; [exact Re|].
  split; [reflexivity|]; intros; reflexivity.
Qed.

(** Types of the operands give their dimensions. *)
Lemma typed_dims m k : node_wf m -> novec G m -> square G m -> typeof G m = Some k -> cache_free m = true ->
  (forall i, uses m i -> c i <> None) -> regular un_fn c m -> sty_dims k = Some (tdims (den un_fn c m)).
Proof.
  intros W NV SQ T Cf D Rg.
  destruct (value_total un_fn G m k c EX (fun _ _ => eq_refl) W NV SQ T Cf Oc D Rg) as (v & _ & K & [H _]).
  assert (N := novec_ty G m k NV T); rewrite <- H; subst k.
  unfold vshape; destruct (bty_of v); cbn in *; try reflexivity; contradiction.
Qed.

Lemma outer_moves a a' b b' : mov a a' -> mov b b' -> mov (outer a b) (outer a' b').
Proof.
  intros [D E] [D' E']; unfold outer; split; cbn [tdims tat]; [congruence|]; intros ix B.
  apply Forall2_app_inv_r in B; destruct B as (i1 & i2 & B1 & B2 & ->).
  assert (L : length i1 = length (tdims a)) by (apply box_length; exact B1).
  assert (L' : length (mv (tdims a) i1) = length (tdims a)).
  { apply box_length, moved_box; assumption. }
  rewrite moved_app, <- D by exact L.
  rewrite <- L' at 1 2; rewrite firstn_app, skipn_app, firstn_all, skipn_all, Nat.sub_diag, firstn_O, skipn_O, app_nil_r.
  rewrite <- L; rewrite firstn_app, skipn_app, firstn_all, skipn_all, Nat.sub_diag, firstn_O, skipn_O, app_nil_r.
  cbn [app]; rewrite (E i1 B1), (E' i2 B2); reflexivity.
Qed.

Lemma inner_moves a a' b b' :
  match tdims a, tdims b with
  | [], [] => True | [x], [y] => x = y | [x; y], [z] => x = z /\ x = y | [z], [x; y] => z = x /\ x = y
  | [_; x], [y; _] => x = y | _, _ => False end ->
  mov a a' -> mov b b' -> mov (inner a b) (inner a' b').
Proof.
  intros Fi [D E] [D' E']; unfold inner; rewrite <- D, <- D'.
  destruct (tdims a) as [|x [|y [|? ?]]] eqn:Dx, (tdims b) as [|x' [|y' [|? ?]]] eqn:Dy; try contradiction;
    cbn [last removelast tl length] in *; unfold Order_claims.mov; cbn [tdims tat app] in *;
    (split; [reflexivity|]); intros ix Bx.
  - f_equal; [apply (E []); constructor|apply (E' []); constructor].
  - subst x'; apply in_box_nil in Bx; subst ix; cbn [moved length Nat.sub firstn skipn app].
    apply (sum_axis n s Ps ring_sums); intros k Hk; f_equal; [apply (E [k])|apply (E' [k])]; repeat constructor; exact Hk.
  - destruct Fi as [-> ->]; apply box1_inv in Bx; destruct Bx as (i & -> & Hi); cbn [moved length Nat.sub firstn skipn app].
    apply (sum_axis n s Ps ring_sums); intros k Hk; f_equal; [apply (E [k])|apply (E' [k; i])]; repeat constructor; assumption.
  - destruct Fi as [<- <-]; apply box1_inv in Bx; destruct Bx as (i & -> & Hi); cbn [moved length Nat.sub firstn skipn app].
    apply (sum_axis n s Ps ring_sums); intros k Hk; f_equal; [apply (E [i; k])|apply (E' [k])]; repeat constructor; assumption.
  - subst x'; apply box2_inv in Bx; destruct Bx as (i & j & -> & Hi & Hj); cbn [moved length Nat.sub firstn skipn app].
    apply (sum_axis n s Ps ring_sums); intros k Hk; f_equal; [apply (E [i; k])|apply (E' [k; j])]; repeat constructor; assumption.
Qed.

Lemma zip_fits kl kr k a b : zip_sty kl kr = Some k -> sty_dims kl = Some a -> sty_dims kr = Some b ->
  a = [] \/ b = [] \/ a = b.
Proof.
  destruct kl as [| | |a'], kr as [| | |b']; cbn; intros H A B; try discriminate; injection A as <-; injection B as <-; auto.
  destruct (dims_eqb a' b') eqn:E; [|discriminate]; apply dims_eqb_eq in E; auto.
Qed.

Lemma den_moves m : forall k, node_wf m -> novec G m -> square G m -> typeof G m = Some k -> cache_free m = true ->
  (forall i, uses m i -> c i <> None) -> regular un_fn c m -> steady n s m ->
  mov (den un_fn c m) (den un_fn d m) /\ regular un_fn d m.
Proof.
  induction m; intros kn W NV SQ T Cf D Rg St; try discriminate Cf.
  - (* Var *) split; [apply var_moves|exact Logic.I].
  - (* VarAdj *)
    split; [|exact Logic.I]; cbn [den].
    destruct (var_moves i) as [Di Ei], (var_moves t) as [Dt Et].
    split; cbn [tdims tat]; rewrite <- Di; [rewrite <- Dt; reflexivity|]; intros ix B.
    apply Forall2_app_inv_r in B; destruct B as (i1 & i2 & B1 & B2 & ->).
    assert (L : length i1 = length (tdims (var_tensor c i))) by (apply box_length; exact B1).
    assert (L' : length (mv (tdims (var_tensor c i)) i1) = length (tdims (var_tensor c i))).
    { apply box_length, moved_box; assumption. }
    rewrite moved_app by exact L.
    rewrite <- L' at 1 2; rewrite firstn_app, skipn_app, firstn_all, skipn_all, Nat.sub_diag, firstn_O, skipn_O, app_nil_r.
    rewrite <- L; rewrite firstn_app, skipn_app, firstn_all, skipn_all, Nat.sub_diag, firstn_O, skipn_O, app_nil_r.
    cbn [app]; destruct (Nat.eqb_spec i t) as [->|_]; [|reflexivity]; cbn [andb].
    replace (ix_eqb (mv (tdims (var_tensor c t)) i1) (mv (tdims (var_tensor c t)) i2)) with (ix_eqb i1 i2); [reflexivity|].
    apply eq_true_iff_eq; rewrite !ix_eqb_iff; split; [intros ->; reflexivity|].
    apply (moved_inj n s Ps); assumption.
  - (* Const *) split; [exact St|exact Logic.I].
  - (* ConstSpec *) split; [split; [reflexivity|exact St]|exact Logic.I].
  - (* ConstAdj *)
    cbn [typeof] in T; destruct (typeof G m) as [km|] eqn:Tm; [|discriminate].
    destruct (IHm km W NV SQ eq_refl Cf ltac:(intros; apply D; left; assumption) Rg St) as [[Dm _] R].
    split; [|exact R]; destruct (var_moves t) as [Dt _].
    split; cbn [den tdims tat]; [congruence|reflexivity].
  - (* Un *)
    destruct (IHm kn W NV SQ T Cf D Rg St) as [[Dm E] R]; split; [|exact R].
    split; cbn [den tdims tat]; [exact Dm|]; intros ix B; rewrite E by exact B; reflexivity.
  - (* Sum *)
    cbn [typeof] in T; destruct (typeof G m) as [km|] eqn:Tm; [|discriminate].
    destruct (IHm km W NV SQ eq_refl Cf D Rg St) as [M R]; split; [|exact R].
    split; [reflexivity|]; cbn [den tat]; intros ix _; rewrite <- (proj1 M); apply (sum_moved n s Ps ring_sums); exact M.
  - (* Power *)
    cbn [typeof] in T; destruct (typeof G m1) as [k1|] eqn:T1; [|discriminate]; destruct (typeof G m2) as [k2|] eqn:T2; [|discriminate].
    cbn [obind cache_free] in T, Cf; apply andb_true_iff in Cf; destruct Cf as [C1 C2], W as [W1 W2], NV as [N1 N2], SQ as [Q1 Q2], St as [S1 S2], Rg as (R1 & R2 & Z).
    assert (U1 : forall i, uses m1 i -> c i <> None) by (intros; apply D; left; assumption).
    assert (U2 : forall i, uses m2 i -> c i <> None) by (intros; apply D; right; assumption).
    destruct (IHm1 k1 W1 N1 Q1 eq_refl C1 U1 R1 S1) as [[M1 E1] P1], (IHm2 k2 W2 N2 Q2 eq_refl C2 U2 R2 S2) as [[M2 E2] P2].
    assert (D1 := typed_dims m1 k1 W1 N1 Q1 T1 C1 U1 R1); assert (D2 := typed_dims m2 k2 W2 N2 Q2 T2 C2 U2 R2).
    destruct k1, k2; try discriminate; injection D1 as D1; injection D2 as D2.
    rewrite <- D1 in E1; rewrite <- D2 in E2.
    specialize (E1 [] (Forall2_nil _)); specialize (E2 [] (Forall2_nil _)); cbn [moved] in E1, E2.
    split; [split; [reflexivity|]; cbn [den tat]; intros; congruence|].
    cbn [regular]; rewrite E1, E2; auto.
  - (* Add *)
    cbn [typeof] in T; destruct (typeof G m1) as [k1|] eqn:T1; [|discriminate]; destruct (typeof G m2) as [k2|] eqn:T2; [|discriminate].
    cbn [obind cache_free] in T, Cf; apply andb_true_iff in Cf; destruct Cf as [C1 C2], W as [W1 W2], NV as [N1 N2], SQ as [Q1 Q2], St as [S1 S2], Rg as (R1 & R2).
    assert (U1 : forall i, uses m1 i -> c i <> None) by (intros; apply D; left; assumption).
    assert (U2 : forall i, uses m2 i -> c i <> None) by (intros; apply D; right; assumption).
    destruct (IHm1 k1 W1 N1 Q1 eq_refl C1 U1 R1 S1) as [M1 P1], (IHm2 k2 W2 N2 Q2 eq_refl C2 U2 R2 S2) as [M2 P2].
    assert (D1 := typed_dims m1 k1 W1 N1 Q1 T1 C1 U1 R1); assert (D2 := typed_dims m2 k2 W2 N2 Q2 T2 C2 U2 R2).
    split; [|split; assumption]; apply mov_pointwise; [exact M1|exact M2|exact (zip_fits _ _ _ _ _ T D1 D2)].
  - (* Sub *)
    cbn [typeof] in T; destruct (typeof G m1) as [k1|] eqn:T1; [|discriminate]; destruct (typeof G m2) as [k2|] eqn:T2; [|discriminate].
    cbn [obind cache_free] in T, Cf; apply andb_true_iff in Cf; destruct Cf as [C1 C2], W as [W1 W2], NV as [N1 N2], SQ as [Q1 Q2], St as [S1 S2], Rg as (R1 & R2 & K).
    assert (U1 : forall i, uses m1 i -> c i <> None) by (intros; apply D; left; assumption).
    assert (U2 : forall i, uses m2 i -> c i <> None) by (intros; apply D; right; assumption).
    destruct (IHm1 k1 W1 N1 Q1 eq_refl C1 U1 R1 S1) as [M1 P1], (IHm2 k2 W2 N2 Q2 eq_refl C2 U2 R2 S2) as [M2 P2].
    assert (D1 := typed_dims m1 k1 W1 N1 Q1 T1 C1 U1 R1); assert (D2 := typed_dims m2 k2 W2 N2 Q2 T2 C2 U2 R2).
    split; [apply mov_pointwise; [exact M1|exact M2|exact (zip_fits _ _ _ _ _ T D1 D2)]|].
    split; [exact P1|split; [exact P2|]]; unfold keeps_order in *; rewrite <- (proj1 M1), <- (proj1 M2); exact K.
  - (* Mul *)
    cbn [typeof] in T; destruct (typeof G m1) as [k1|] eqn:T1; [|discriminate]; destruct (typeof G m2) as [k2|] eqn:T2; [|discriminate].
    cbn [obind cache_free] in T, Cf; apply andb_true_iff in Cf; destruct Cf as [C1 C2], W as [W1 W2], NV as [N1 N2], SQ as [Q1 Q2], St as [S1 S2], Rg as (R1 & R2).
    assert (U1 : forall i, uses m1 i -> c i <> None) by (intros; apply D; left; assumption).
    assert (U2 : forall i, uses m2 i -> c i <> None) by (intros; apply D; right; assumption).
    destruct (IHm1 k1 W1 N1 Q1 eq_refl C1 U1 R1 S1) as [M1 P1], (IHm2 k2 W2 N2 Q2 eq_refl C2 U2 R2 S2) as [M2 P2].
    assert (D1 := typed_dims m1 k1 W1 N1 Q1 T1 C1 U1 R1); assert (D2 := typed_dims m2 k2 W2 N2 Q2 T2 C2 U2 R2).
    split; [|split; assumption]; apply mov_pointwise; [exact M1|exact M2|exact (zip_fits _ _ _ _ _ T D1 D2)].
  - (* Div *)
    cbn [typeof] in T; destruct (typeof G m1) as [k1|] eqn:T1; [|discriminate]; destruct (typeof G m2) as [k2|] eqn:T2; [|discriminate].
    cbn [obind cache_free] in T, Cf; apply andb_true_iff in Cf; destruct Cf as [C1 C2], W as [W1 W2], NV as [N1 N2], SQ as [Q1 Q2], St as [S1 S2], Rg as (R1 & R2 & K).
    assert (U1 : forall i, uses m1 i -> c i <> None) by (intros; apply D; left; assumption).
    assert (U2 : forall i, uses m2 i -> c i <> None) by (intros; apply D; right; assumption).
    destruct (IHm1 k1 W1 N1 Q1 eq_refl C1 U1 R1 S1) as [M1 P1], (IHm2 k2 W2 N2 Q2 eq_refl C2 U2 R2 S2) as [M2 P2].
    assert (D1 := typed_dims m1 k1 W1 N1 Q1 T1 C1 U1 R1); assert (D2 := typed_dims m2 k2 W2 N2 Q2 T2 C2 U2 R2).
    split; [apply mov_pointwise; [exact M1|exact M2|exact (zip_fits _ _ _ _ _ T D1 D2)]|].
    split; [exact P1|split; [exact P2|]]; unfold keeps_order in *; rewrite <- (proj1 M1), <- (proj1 M2); exact K.
  - (* Contract *)
    cbn [typeof] in T; destruct (typeof G m1) as [k1|] eqn:T1; [|discriminate]; destruct (typeof G m2) as [k2|] eqn:T2; [|discriminate].
    cbn [obind cache_free] in T, Cf; apply andb_true_iff in Cf; destruct Cf as [C1 C2], W as [W1 W2], NV as [N1 N2], SQ as (Q1 & Q2 & Q), St as [S1 S2].
    specialize (Q k1 k2 T1 T2).
    assert (R1 : regular un_fn c m1) by (destruct axes; apply Rg).
    assert (R2 : regular un_fn c m2) by (destruct axes; apply Rg).
    assert (U1 : forall i, uses m1 i -> c i <> None) by (intros; apply D; left; assumption).
    assert (U2 : forall i, uses m2 i -> c i <> None) by (intros; apply D; right; assumption).
    destruct (IHm1 k1 W1 N1 Q1 eq_refl C1 U1 R1 S1) as [M1 P1], (IHm2 k2 W2 N2 Q2 eq_refl C2 U2 R2 S2) as [M2 P2].
    assert (D1 := typed_dims m1 k1 W1 N1 Q1 T1 C1 U1 R1); assert (D2 := typed_dims m2 k2 W2 N2 Q2 T2 C2 U2 R2).
    destruct axes as [|axes]; cbn [den regular].
    + split; [apply outer_moves; assumption|auto].
    + split.
      * apply inner_moves; [|exact M1|exact M2].
        destruct axes; [|destruct k1 as [| | |[|? [|? [|? ?]]]], k2 as [| | |[|? [|? [|? ?]]]]; discriminate].
        clear - T Q D1 D2; revert T Q D1 D2; generalize (tdims (den un_fn c m1)), (tdims (den un_fn c m2)).
        intros a b T Q A B.
        destruct k1 as [| | |[|x [|y [|? ?]]]], k2 as [| | |[|z [|t [|? ?]]]]; cbn [contract_sty sty_dims square_sty] in *;
          try discriminate; injection A as <-; injection B as <-; auto;
          match type of T with (if ?e then _ else _) = _ => destruct e eqn:E; [apply Nat.eqb_eq in E|discriminate] end; auto.
      * split; [exact P1|split; [exact P2|]]; unfold square_dims; rewrite <- (proj1 M1), <- (proj1 M2); apply Rg.
Qed.

Lemma typed_reorders m k : node_wf m -> novec G m -> square G m -> typeof G m = Some k -> cache_free m = true ->
  (forall i, uses m i -> c i <> None) -> regular un_fn c m -> steady n s m ->
  exists v u, evaluate m c = (c, Ok v) /\ evaluate m d = (d, Ok u) /\ reordered n s v u.
Proof.
  intros W NV SQ T Cf D Rg St.
  destruct (den_moves m k W NV SQ T Cf D Rg St) as [[Dm E] Rd].
  assert (D' : forall i, uses m i -> d i <> None).
  { intros i U; specialize (D i U); specialize (Re i); destruct (c i), (d i); try contradiction; discriminate. }
  destruct (value_total un_fn G m k c EX (fun _ _ => eq_refl) W NV SQ T Cf Oc D Rg) as (v & Ev & _ & Hd & H).
  destruct (value_total un_fn G m k d EX (fun _ _ => eq_refl) W NV SQ T Cf Od D' Rd) as (u & Eu & _ & Hd' & H').
  exists v, u; split; [exact Ev|split; [exact Eu|]]; split; [congruence|].
  intros ix B; rewrite Hd in *; rewrite H, H' by (try exact B; rewrite <- Dm; apply moved_box; assumption).
  apply E; exact B.
Qed.
End Gradients.

Lemma gradient_reorders (F : Type) (S : Scalar F) (n : nat) (s : nat -> nat) : permutes n s -> exact F ->
  forall (G : tenv) (c d : ctx F) (e m : node F) (t : ident) (k : sty),
  ctx_ok G c -> ctx_ok G d -> reordered_inputs n s c d -> adjoint e t = Some m ->
  node_wf m -> novec G m -> square G m -> typeof G m = Some k -> cache_free m = true ->
  (forall i, uses m i -> c i <> None) -> regular un_fn c m -> steady n s m ->
  exists v u, evaluate_adjoint e t c = Some (c, Ok v) /\ evaluate_adjoint e t d = Some (d, Ok u) /\ reordered n s v u.
Proof.
  intros Ps EX G c d e m t k Oc Od Re A W NV SQ T Cf D Rg St.
  destruct (typed_reorders n s Ps EX G c d Oc Od Re m k W NV SQ T Cf D Rg St) as (v & u & E & E' & R).
  exists v, u; unfold evaluate_adjoint; rewrite A; cbn [option_map]; rewrite E, E'; auto.
Qed.
