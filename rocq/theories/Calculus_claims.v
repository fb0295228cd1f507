(** Claims about derivatives, in the form used by Properties_calculus.v. *)
From Coq Require Import List Arith ZArith Reals Bool Lia Lra FunctionalExtensionality.
Import ListNotations.
From Verif Require Import Base Shapes Scalar Buffers Spec Contraction Node Eval Types Instances
  Vocab Math Real_math Calculus Index_facts Shapes_facts Buffers_facts Typing_facts Eval_facts
  Exact_facts Math_facts Instance_facts Eval_claims Math_claims Adjoint_facts Zero_facts Calculus_facts Jacobian_facts
  Adjoint_claims.
Local Open Scope R_scope.

Section Claims.
Variables (inf : R) (sp : libfn -> R -> R).
Notation S0 := (R_scalar inf sp).
Notation um := (real_un inf sp).

(** Entries of the value are entries of the meaning. *)
Lemma entry_den G n (c : ctx R) k :
  node_wf n -> novec G n -> square G n -> typeof G n = Some k ->
  cache_free n = true -> ctx_ok G c -> (forall i, uses n i -> c i <> None) ->
  @regular R S0 um c n ->
  forall i, in_box (tdims (rden inf sp c n)) i -> entry inf sp n c i = tat (rden inf sp c n) i.
Proof.
  intros W N Q T F O U Rg i B.
  destruct (value_real_total inf sp G n k c W N Q T F O U Rg) as (v & Ev & _ & H1 & H2).
  unfold entry; rewrite Ev; cbn [snd]; apply H2; auto.
Qed.

Lemma jacobian_real G (c : ctx R) t n n' :
  posed G c t n n' -> @regular R S0 um c n -> smooth inf sp c t n ->
  exists v w x,
    @evaluate R S0 n c = (c, Ok v) /\ @evaluate_adjoint R S0 n t c = Some (c, Ok w) /\ c t = Some x /\
    dims (vshape w) = (dims (vshape v) ++ dims (vshape x))%list /\
    forall i j, in_box (dims (vshape v)) i -> in_box (dims (vshape x)) j ->
      derivable_pt_lim (fun h => entry inf sp n (bump c t j h) i) 0 (vat 0 w (i ++ j)).
Proof.
  intros [O U W F Sc A Ty Ty' Q Q'] Rg Sm; assert (N := gradient_novec _ _ _ _ A Ty').
  destruct (typeof G n) as [k|] eqn:T; [|congruence]; destruct (typeof G n') as [k'|] eqn:T'; [|congruence].
  assert (Un : forall i, uses n i -> c i <> None) by auto.
  assert (Un' : forall i, uses n' i -> c i <> None).
  { intros i Ui; destruct (adjoint_uses _ _ _ _ A Ui); auto. }
  assert (Ct : c t <> None) by auto.
  destruct (adjoint_dims G t n n' k k' Sc A T T') as (d & TT & kt & D & Gt & DT & D').
  assert (Rg' : @regular R S0 um c n').
  { exact (regular_adj inf sp G c t TT kt O Ct Gt DT n n' k k' Sc A T T' Q Q' Un Sm Rg). }
  destruct (value_real_total inf sp G n k c W N Q T F O Un Rg) as (v & Ev & _ & H1 & H2).
  destruct (value_real_total inf sp G n' k' c (adjoint_wf _ _ _ W A) (adjoint_novec _ _ _ _ A N) Q' T'
     (adjoint_cache_free _ _ _ F A) O Un' Rg') as (w & Ew & _ & H3 & H4).
  destruct (c t) as [x|] eqn:Cx; [|congruence].
  assert (Dn : tdims (rden inf sp c n) = d) by (unfold rden; eapply typed_dims; eauto).
  assert (Dn' : tdims (rden inf sp c n') = (d ++ TT)%list) by (unfold rden; eapply typed_dims; eauto).
  assert (Dx : dims (vshape x) = TT).
  { destruct (O t x Cx) as [_ Kx]; assert (kt = sty_of (bty_of x)) by congruence; subst kt.
    apply sty_dims_v; auto. }
  unfold rden in Dn, Dn'; rewrite Dn in *; rewrite Dn' in *.
  exists v, w, x; split; auto; split; [unfold evaluate_adjoint; rewrite A; cbn [option_map]; rewrite Ew; auto|].
  split; auto; split; [rewrite H3, H1, Dx; auto|].
  intros i j Bi Bj; rewrite H1 in Bi; rewrite Dx in Bj.
  rewrite H4 by (apply in_box_both; auto).
  assert (Ct' : c t <> None) by congruence.
  destruct (near_regular inf sp G c t TT kt O Ct' Gt DT n n' k k' j Sc A T T' Q Q' Un Sm Rg Bj) as (e & Pe & Ne).
  apply near_eq with (f := fun h => tat (rden inf sp (bump c t j h) n) i) (d := e); auto.
  - intros h Hh; rewrite Rminus_0_r in Hh; symmetry; apply (entry_den G n _ k); auto.
    + apply bump_ok; auto.
    + intros; apply bump_some; auto.
    + rewrite bump_dims; unfold rden; rewrite Dn; auto.
  - exact (adjoint_jac inf sp G c t TT kt O Ct' Gt DT n n' k k' d Sc A T T' D Q Q' Un Sm i j Bi Bj).
Qed.

Lemma in_all_ix d i : In i (all_ix d) -> in_box d i.
Proof. rewrite all_ix_iproduct; apply in_iproduct. Qed.

(** The gradient of a sum is the sum of what the code returns for it. *)
Lemma sum_gradient G (c : ctx R) t m m' :
  posed G c t m m' -> @regular R S0 um c m -> smooth inf sp c t m ->
  exists v w x,
    @evaluate R S0 m c = (c, Ok v) /\ @evaluate_adjoint R S0 (Sum m) t c = Some (c, Ok w) /\ c t = Some x /\
    dims (vshape w) = (dims (vshape v) ++ dims (vshape x))%list /\
    forall j, in_box (dims (vshape x)) j ->
      derivable_pt_lim (fun h => entry inf sp (Sum m) (bump c t j h) []) 0
        (@sum_over R S0 (list nat) (all_ix (dims (vshape v))) (fun i => vat 0 w (i ++ j))).
Proof.
  intros P Rg Sm.
  destruct (jacobian_real G c t m m' P Rg Sm) as (v & w & x & Ev & Ew & Cx & D & H).
  exists v, w, x; split; [auto|split; [exact Ew|split; [auto|split; [auto|]]]].
  intros j Bj.
  destruct P as [O U W F Sc A Ty Ty' Q Q']; assert (N := gradient_novec _ _ _ _ A Ty').
  destruct (typeof G m) as [k|] eqn:T; [|congruence]; destruct (typeof G m') as [k'|] eqn:T'; [|congruence].
  assert (Un : forall i, uses m i -> c i <> None) by auto.
  destruct (adjoint_dims G t m m' k k' Sc A T T') as (d & TT & kt & Dk & Gt & DT & D').
  assert (Ct : c t <> None) by congruence.
  assert (Dx : dims (vshape x) = TT).
  { destruct (O t x Cx) as [_ Kx]; assert (kt = sty_of (bty_of x)) by congruence; subst kt.
    apply sty_dims_v; auto. }
  rewrite Dx in Bj.
  assert (Dn : tdims (rden inf sp c m) = dims (vshape v)).
  { destruct (value_real_total inf sp G m k c W N Q T F O Un Rg) as (v1 & Ev1 & _ & H1 & _).
    rewrite Ev in Ev1; assert (v1 = v) by congruence; subst v1; auto. }
  destruct (near_regular inf sp G c t TT kt O Ct Gt DT m m' k k' j Sc A T T' Q Q' Un Sm Rg Bj) as (e & Pe & Ne).
  apply near_eq with (d := e)
    (f := fun h => @sum_over R S0 (list nat) (all_ix (dims (vshape v))) (fun i => entry inf sp m (bump c t j h) i)); auto.
  - intros h Hh; rewrite Rminus_0_r in Hh; symmetry.
    assert (Ts : typeof G (Sum m) = Some KS) by (cbn [typeof]; rewrite T; auto).
    rewrite (entry_den G (Sum m) _ KS); auto.
    + unfold rden; cbn [den tat].
      assert (Db : tdims (rden inf sp (bump c t j h) m) = dims (vshape v)) by (rewrite bump_dims; auto).
      unfold rden in Db; rewrite Db; apply (sum_over_ext (R_exact inf sp)).
      intros i Hi; change (@den R S0 um (bump c t j h) m) with (rden inf sp (bump c t j h) m) in *.
      rewrite (entry_den G m _ k); auto.
      * apply bump_ok; auto.
      * intros; apply bump_some; auto.
      * rewrite Db; apply in_all_ix; auto.
    + apply bump_ok; auto.
    + intros; apply bump_some; auto.
    + cbn [regular]; auto.
    + constructor.
  - apply sum_lim; intros i Hi; apply H; [|rewrite Dx; auto].
    apply in_all_ix; auto.
Qed.

(** Bumping by zero. *)
Lemma bump_zero c t j : ctx_wf c -> bump c t j 0 = c.
Proof.
  intro W; extensionality i; unfold bump; destruct (Nat.eqb_spec i t); [subst|auto].
  destruct (c t) as [v|] eqn:E; auto; cbn [option_map]; f_equal.
  apply (value_ext 0); auto.
  - apply bump_wf; eauto.
  - eauto.
  - apply bump_bty.
  - intros; apply vat_bump0; eauto.
Qed.

Lemma adjoint_scalar_sums G (n n' : node R) t : adjoint n t = Some n' -> scalar_sums G n -> scalar_sums G n'.
Proof.
  revert n'; induction n; intros n' A N; cbn [adjoint] in A; cbn [scalar_sums] in N.
  7:{ apply obind_some in A; destruct A as (m' & A & B); specialize (IHn _ A N).
      destruct u; cbn [un_adjoint] in B; try discriminate; injection B as B; subst n'; cbn [scalar_sums]; tauto. }
  6:{ destruct (ident_eqb k t); [eauto|discriminate]. }
  6:{ destruct N; eauto. }
  all: try discriminate A; adj_inv A; cbn [scalar_sums]; auto; destruct N; auto 9.
Qed.

(** Second derivatives. *)
Lemma hessian_real G (c : ctx R) t u n n' n'' e :
  posed G c t n n' -> adjoint n' u = Some n'' -> typeof G n'' <> None -> square G n'' -> c u <> None ->
  0 < e ->
  (forall k h, Rabs h < e -> @regular R S0 um (bump c u k h) n /\ smooth inf sp (bump c u k h) t n) ->
  smooth inf sp c u n' ->
  exists v w x y,
    @evaluate R S0 n c = (c, Ok v) /\ @evaluate_adjoint R S0 n' u c = Some (c, Ok w) /\
    c t = Some x /\ c u = Some y /\
    dims (vshape w) = (dims (vshape v) ++ dims (vshape x) ++ dims (vshape y))%list /\
    forall i j k g, in_box (dims (vshape v)) i -> in_box (dims (vshape x)) j -> in_box (dims (vshape y)) k ->
      (forall h, Rabs h < e ->
         derivable_pt_lim (fun s => entry inf sp n (bump (bump c u k h) t j s) i) 0 (g h)) ->
      derivable_pt_lim g 0 (vat 0 w (i ++ j ++ k)).
Proof.
  intros P A2 Ty2 Q2 Cu Pe Near Sm2.
  assert (O := p_ctx _ _ _ _ _ P).
  assert (W : ctx_wf c) by (intros i v E; destruct (O i v E); auto).
  assert (Z : @regular R S0 um c n /\ smooth inf sp c t n).
  { destruct (Near [] 0) as [X Y]; [rewrite Rabs_R0; auto|]; rewrite bump_zero in X, Y; auto. }
  destruct Z as [Rg Sm].
  destruct (jacobian_real G c t n n' P Rg Sm) as (v & w1 & x & Ev & Ew1 & Cx & D1 & J1).
  destruct P as [_ U Wn F Sc A Ty Ty' Q Q']; assert (N := gradient_novec _ _ _ _ A Ty').
  assert (Un' : forall i, uses n' i -> c i <> None).
  { intros i Ui; destruct (adjoint_uses _ _ _ _ A Ui); auto. }
  assert (P2 : posed G c u n' n'').
  { constructor; auto.
    - intros i [Ui| ->]; auto.
    - apply (adjoint_wf _ _ _ Wn A).
    - apply (adjoint_cache_free _ _ _ F A).
    - apply (adjoint_scalar_sums _ _ _ _ A Sc). }
  destruct (typeof G n) as [k|] eqn:T; [|congruence]; destruct (typeof G n') as [k'|] eqn:T'; [|congruence].
  assert (Un : forall i, uses n i -> c i <> None) by auto.
  assert (Ct : c t <> None) by auto.
  destruct (adjoint_dims G t n n' k k' Sc A T T') as (d & TT & kt & D & Gt & DT & D').
  assert (Rg' : @regular R S0 um c n').
  { exact (regular_adj inf sp G c t TT kt O Ct Gt DT n n' k k' Sc A T T' Q Q' Un Sm Rg). }
  destruct (jacobian_real G c u n' n'' P2 Rg' Sm2) as (v2 & w & y & Ev2 & Ew & Cy & D2 & J2).
  unfold evaluate_adjoint in Ew1; rewrite A in Ew1; cbn [option_map] in Ew1; rewrite Ev2 in Ew1.
  injection Ew1 as ->.
  exists v, w, x, y; split; auto; split; auto; split; auto; split; auto.
  split; [rewrite D2, D1, app_assoc; auto|].
  intros i j l g Bi Bj Bl Hg; rewrite app_assoc.
  assert (Bij : in_box (dims (vshape w1)) (i ++ j)) by (rewrite D1; apply in_box_both; auto).
  assert (J := J2 (i ++ j)%list l Bij Bl).
  apply near_eq with (f := fun h => entry inf sp n' (bump c u l h) (i ++ j)) (d := e); auto.
  intros h Hh; rewrite Rminus_0_r in Hh.
  destruct (Near l h Hh) as [Rh Sh].
  assert (Ph : posed G (bump c u l h) t n n').
  { constructor; auto.
    - apply bump_ok; auto.
    - intros a Ha; apply bump_some; auto.
    - congruence.
    - congruence. }
  destruct (jacobian_real G (bump c u l h) t n n' Ph Rh Sh) as (vh & wh & xh & Evh & Ewh & Cxh & Dh & Jh).
  assert (Dv : dims (vshape vh) = dims (vshape v)).
  { destruct (@typed_eval R S0 G n k c Wn T O) as [_ K]; rewrite Ev in K; destruct K as [_ K].
    destruct (@typed_eval R S0 G n k (bump c u l h) Wn T (bump_ok _ _ _ _ _ O)) as [_ K']; rewrite Evh in K'; destruct K' as [_ K'].
    transitivity d; [|symmetry]; apply sty_dims_v; congruence. }
  assert (Dx : dims (vshape xh) = dims (vshape x)).
  { assert (Gx := proj2 (O t x Cx)); assert (Gx' := proj2 (bump_ok G c u l h O t xh Cxh)).
    transitivity TT; [|symmetry]; apply sty_dims_v; congruence. }
  eapply uniqueness_limite; [|apply Hg; auto].
  unfold evaluate_adjoint in Ewh; rewrite A in Ewh; cbn [option_map] in Ewh; injection Ewh as Ewh.
  unfold entry at 2; rewrite Ewh; cbn [snd].
  apply Jh; [rewrite Dv|rewrite Dx]; auto.
Qed.

(** When Jacobians are symmetric. *)
Lemma symmetric_absent c t n : contains n t = false -> symmetric inf sp c t n.
Proof.
  intros C p q d _ H; unfold partial in *.
  assert (d = 0).
  { eapply uniqueness_limite; [exact H|]; apply lim_const with (a := tat (rden inf sp c n) [p]).
    intro h; rewrite bump_absent; auto. }
  subst d; apply lim_const with (a := tat (rden inf sp c n) [q]); intro h; rewrite bump_absent; auto.
Qed.

Lemma symmetric_var c t : ctx_wf c -> symmetric inf sp c t (Var t).
Proof.
  intros W p q d B H; unfold partial, dims_at, target_dims in *.
  assert (V : forall j h i, in_box (tdims (rden inf sp c (Var t))) i -> c t <> None ->
     tat (rden inf sp (bump c t j h) (Var t)) i = tat (rden inf sp c (Var t)) i + (if ix_eqb i j then h else 0)).
  { intros j h i; unfold rden; cbn [den]; unfold var_tensor, bump; rewrite Nat.eqb_refl.
    destruct (c t) as [v|] eqn:E; [|congruence]; cbn [option_map tensor_of tdims tat]; intros Bi _.
    change (@fzero R S0) with 0; apply vat_bump; eauto. }
  assert (D : exists n, tdims (rden inf sp c (Var t)) = [n]).
  { destruct (tdims (rden inf sp c (Var t))) as [|n [|m l]] eqn:D; [inversion B|eauto|].
    apply in_box_length in B; cbn [app length] in B; rewrite app_length in B; cbn in B; lia. }
  destruct D as (n & D); rewrite D in *; cbn [app] in B.
  assert (N : c t <> None).
  { intro N; revert D; unfold rden; cbn [den]; unfold var_tensor; rewrite N; discriminate. }
  inversion B as [|? ? ? ? Hp B']; subst; inversion B' as [|? ? ? ? Hq _]; subst.
  apply lim_eq with (f := ((fun h => tat (rden inf sp (bump c t [q] h) (Var t)) [p])
      + fct_cte (tat (rden inf sp c (Var t)) [q] - tat (rden inf sp c (Var t)) [p]))%F) (l := d + 0).
  - intro h; unfold plus_fct, fct_cte; rewrite !V; auto; [|repeat constructor; auto..].
    cbn [ix_eqb]; rewrite (Nat.eqb_sym q p); destruct (Nat.eqb p q && true); ring.
  - ring.
  - apply derivable_pt_lim_plus; [exact H|apply derivable_pt_lim_const].
Qed.

End Claims.

(** Where the adjoint is not the Jacobian. *)
Local Open Scope nat_scope.
Definition rvec2 (a b : R) : value R := VArr [2] (AN [AF a; AF b]).
Definition G2 (k0 k1 : sty) : tenv := fun i => match i with 0 => Some k0 | 1 => Some k1 | _ => None end.

Lemma ctx2_ok (x y : value R) : vwf x -> vwf y ->
  ctx_ok (G2 (sty_of (bty_of x)) (sty_of (bty_of y))) (ctx2 x y).
Proof. intros Wx Wy [|[|i]] v E; inversion E; subst; auto. Qed.

Lemma rvec2_wf a b : vwf (rvec2 a b).
Proof. split; [repeat constructor|simpl; lia]. Qed.

Lemma sum_not_summed inf sp :
  let S := R_scalar inf sp in
  let c := ctx2 (rvec2 1%R 2%R) (rvec2 3%R 4%R) in
  exists v w x : value R,
    evaluate (Sum (Var 0)) c = (c, Ok v) /\ evaluate_adjoint (Sum (Var 0)) 0 c = Some (c, Ok w) /\
    c 0 = Some x /\ dims (vshape w) <> (dims (vshape v) ++ dims (vshape x))%list.
Proof.
  intros S c; do 3 eexists; split; [reflexivity|split; [reflexivity|split; [reflexivity|]]].
  cbn; discriminate.
Qed.

Definition transposed_node : node R := Contract 0 (Contract 1 (Var 0) (Var 0)) (Var 1).

Lemma transposed inf sp :
  let S := R_scalar inf sp in
  let c := ctx2 (rvec2 1%R 0%R) (rvec2 1%R 2%R) in
  exists n', posed (G2 (KA [2]) (KA [2])) c 0 transposed_node n' /\
    regular (real_un inf sp) c transposed_node /\
  exists v w x : value R,
    evaluate transposed_node c = (c, Ok v) /\ evaluate_adjoint transposed_node 0 c = Some (c, Ok w) /\
    c 0 = Some x /\ dims (vshape w) = (dims (vshape v) ++ dims (vshape x))%list /\
    derivable_pt_lim (fun h => entry inf sp transposed_node (bump c 0 [0] h) [1]) 0%R 4%R /\
    vat 0%R w [1; 0] = 0%R.
Proof.
  intros S c; subst S.
  assert (O : ctx_ok (G2 (KA [2]) (KA [2])) c).
  { apply (ctx2_ok (rvec2 1%R 0%R) (rvec2 1%R 2%R)); apply rvec2_wf. }
  assert (A : exists n', adjoint transposed_node 0 = Some n') by (eexists; reflexivity).
  destruct A as (n' & A); exists n'.
  assert (P : posed (G2 (KA [2]) (KA [2])) c 0 transposed_node n').
  { injection A as <-; constructor; try reflexivity; auto.
    - intros i; cbn [uses transposed_node]; intros [[[-> | ->] | ->] | ->]; discriminate.
    - cbn; auto.
    - cbn; auto.
    - discriminate.
    - discriminate.
    - cbn; repeat split; auto; intros kl kr E1 E2; injection E1 as <-; injection E2 as <-; auto.
    - cbn; repeat split; auto; intros kl kr E1 E2; try (injection E1 as <-); try (injection E2 as <-); auto. }
  split; auto; split; [cbn; auto|].
  assert (N : novec (G2 (KA [2]) (KA [2])) transposed_node) by exact (gradient_novec _ _ _ _ A (p_ty' _ _ _ _ _ P)).
  assert (U : forall i, uses transposed_node i -> c i <> None) by (intros; apply (p_def _ _ _ _ _ P); auto).
  assert (U' : forall i, uses n' i -> c i <> None).
  { intros i Ui; apply (p_def _ _ _ _ _ P); eapply adjoint_uses; eauto. }
  assert (EV : forall h, exists v, @evaluate R (R_scalar inf sp) transposed_node (bump c 0 [0] h) = (bump c 0 [0] h, Ok v) /\
     @holds R (R_scalar inf sp) v (@den R (R_scalar inf sp) (real_un inf sp) (bump c 0 [0] h) transposed_node)).
  { intro h; destruct (value_real_total inf sp (G2 (KA [2]) (KA [2])) transposed_node (KA [2]) (bump c 0 [0] h))
      as (v & Ev & _ & H); try apply P; auto; eauto.
    - apply bump_ok; auto.
    - intros; apply bump_some; auto.
    - cbn; auto. }
  destruct (value_real_total inf sp (G2 (KA [2]) (KA [2])) transposed_node (KA [2]) c)
      as (v & Ev & _ & H); try apply P; auto; [cbn; auto|].
  destruct (value_real_total inf sp (G2 (KA [2]) (KA [2])) n' (KA [2; 2]) c)
      as (w & Ew & _ & H'); try apply P; auto.
  { eapply adjoint_wf; eauto; apply P. }
  { eapply adjoint_novec; eauto. }
  { injection A as <-; reflexivity. }
  { injection A as <-; reflexivity. }
  { injection A as <-; cbn; auto 9. }
  exists v, w, (rvec2 1%R 0%R); split; auto; split; [|split; [reflexivity|]].
  { unfold evaluate_adjoint; rewrite A; cbn [option_map]; rewrite Ew; auto. }
  destruct H as [H1 H2], H' as [H3 H4].
  split; [|split].
  - rewrite H1, H3; injection A as <-; reflexivity.
  - apply lim_eq with (f := fun h => ((1 + h) * (1 + h) * 2)%R) (l := (((0 + 1) * (1 + 0) + (1 + 0) * (0 + 1)) * 2 + ((1 + 0) * (1 + 0)) * 0)%R).
    + intro h; unfold entry; destruct (EV h) as (vh & Eh & _ & Hh); rewrite Eh; cbn [snd].
      rewrite Hh; [|repeat constructor]; cbn; ring.
    + ring.
    + apply (derivable_pt_lim_mult (fun h => (1 + h) * (1 + h))%R (fun _ => 2%R)); [|apply derivable_pt_lim_const].
      apply (derivable_pt_lim_mult (fun h => 1 + h)%R (fun h => 1 + h)%R);
        apply (derivable_pt_lim_plus (fun _ => 1%R) (fun h => h)); (apply derivable_pt_lim_const || apply derivable_pt_lim_id).
  - rewrite H4; [|injection A as <-; repeat constructor].
    injection A as <-; cbn; ring.
Qed.

Lemma order_refuted : exists G (c : ctx R) (n n' : node R) t, posed G c t n n' /\
  forall inf sp, let S := R_scalar inf sp in regular (real_un inf sp) c n /\
  exists (v w x : value R) i j d,
    evaluate n c = (c, Ok v) /\ evaluate_adjoint n t c = Some (c, Ok w) /\ c t = Some x /\
    dims (vshape w) = dims (vshape v) ++ dims (vshape x) /\
    in_box (dims (vshape v)) i /\ in_box (dims (vshape x)) j /\
    derivable_pt_lim (fun h => entry inf sp n (bump c t j h) i) 0%R d /\ vat 0%R w (i ++ j) <> d.
Proof.
  destruct (transposed 0%R (fun _ _ => 0%R)) as (n' & P & _).
  exists (G2 (KA [2]) (KA [2])), (ctx2 (rvec2 1%R 0%R) (rvec2 1%R 2%R)), transposed_node, n', 0; split; auto.
  intros inf sp S; destruct (transposed inf sp) as (n0 & _ & Rg & v & w & x & Ev & Ew & Ex & D & L & V); split; auto.
  exists v, w, x, [1], [0], 4%R; split; auto; split; auto; split; auto; split; auto.
  destruct (value_real inf sp transposed_node _ _ _ (p_wf _ _ _ _ _ P)
     (fun i v E => proj1 (p_ctx _ _ _ _ _ P i v E)) (p_free _ _ _ _ _ P) Rg Ev) as [_ [Dv _]].
  injection Ex as <-; rewrite Dv; split; [cbn; repeat constructor|split; [cbn; repeat constructor|]].
  split; auto; cbn [app]; rewrite V; lra.
Qed.

Lemma cached_not_derivative : exists G (c : ctx R) (n n' : node R) t,
  ctx_ok G c /\ (forall i, uses n i \/ i = t -> c i <> None) /\ adjoint n t = Some n' /\
  typeof G n <> None /\ typeof G n' <> None /\
  forall inf sp, let S := R_scalar inf sp in
    (exists w, evaluate_adjoint n t c = Some (c, Ok (VScal w)) /\ w = 0%R) /\
    derivable_pt_lim (fun h => entry inf sp n (bump c t [] h) []) 0%R 1%R.
Proof.
  exists (G2 KS KS), (ctx2 (VScal 3%R) (VScal 9%R)), (Cached (Mul (Var 0) (Var 0)) 1).
  eexists; exists 1; split; [|split; [|split; [reflexivity|split; [discriminate|split; [discriminate|]]]]].
  - intros [|[|i]] v E; inversion E; subst; split; reflexivity || exact Logic.I.
  - intros i; cbn [uses]; intros [[->| ->] | ->]; discriminate.
  - intros inf sp S; split.
    + unfold evaluate_adjoint; cbn; unfold eval_by_spec, both, varadj_spec, ok_or_undef; cbn.
      destruct (R_eqb 0 0); cbn; unfold add_match; cbn; destruct (R_eqb 0 0); cbn;
        eexists; (split; [reflexivity|try ring; try reflexivity]).
    + apply near_eq with (f := fun h => (9 + h)%R) (d := 1%R); [lra|intros; reflexivity|].
      replace 1%R with (0 + 1)%R by ring; apply derivable_pt_lim_plus; [apply derivable_pt_lim_const|apply derivable_pt_lim_id].
Qed.
