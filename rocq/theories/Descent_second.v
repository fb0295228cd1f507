(** Claims about second derivatives at stationary points, in the form used by
    Properties_descent.v. *)
From Coq Require Import List Arith ZArith Reals Bool Lia Lra FunctionalExtensionality.
Import ListNotations.
From Verif Require Import Base Shapes Scalar Buffers Spec Contraction Node Eval Types Instances
  Vocab Math Real_math Calculus Index_facts Shapes_facts Buffers_facts Typing_facts Eval_facts
  Exact_facts Math_facts Instance_facts Eval_claims Math_claims Adjoint_facts Zero_facts Calculus_facts
  Jacobian_facts Adjoint_claims Calculus_claims Descent_claims.
Local Open Scope R_scope.

(** Steps along the same entry add up. *)
Lemma bump_bump (c : ctx R) t j h s : ctx_wf c -> bump (bump c t j h) t j s = bump c t j (h + s).
Proof.
  intro W; extensionality i; unfold bump; rewrite Nat.eqb_refl; destruct (Nat.eqb_spec i t); [|auto].
  destruct (c t) as [v|] eqn:E; auto; cbn [option_map]; f_equal.
  assert (V : vwf v) by eauto.
  apply (value_ext 0).
  - apply bump_wf, bump_wf; auto.
  - apply bump_wf; auto.
  - rewrite !bump_bty; auto.
  - intros ix B; unfold tdims_of in B; rewrite !bump_bty, bty_shape_v in B.
    rewrite !vat_bump; auto; [destruct (ix_eqb ix j); ring|apply bump_wf; auto|rewrite bump_shape; auto].
Qed.

(** Derivatives of a shifted function. *)
Lemma lim_shift (f : R -> R) h g : derivable_pt_lim (fun s => f (h + s)) 0 g -> derivable_pt_lim f h g.
Proof.
  intros D e Pe; destruct (D e Pe) as [d L]; exists d; intros s Ns Bs.
  specialize (L s Ns Bs); rewrite Rplus_0_r, Rplus_0_l in L; exact L.
Qed.

(** A function whose derivative vanishes at 0 and increases there has a strict minimum at 0. *)
Lemma second_min (f f' : R -> R) e q : 0 < e ->
  (forall h, Rabs h < e -> derivable_pt_lim f h (f' h)) ->
  f' 0 = 0 -> derivable_pt_lim f' 0 q -> 0 < q ->
  exists d, 0 < d /\ d <= e /\ forall h, h <> 0 -> Rabs h < d -> f 0 < f h.
Proof.
  intros Pe D Z D2 Pq.
  destruct (slope_steps f' q D2 ltac:(lra)) as (e' & Pe' & S).
  set (d := Rmin e (e' * q)).
  assert (Pe'' : 0 < e' * q) by (apply Rmult_lt_0_compat; auto).
  assert (Pd : 0 < d) by (apply Rmin_glb_lt; auto).
  assert (D1 : d <= e) by apply Rmin_l; assert (D3 : d <= e' * q) by apply Rmin_r.
  exists d; split; [auto|split; [auto|]]; intros h Nh Bh.
  assert (K : forall s, 0 < s < d -> f' (- s) < 0 < f' s).
  { intros s Bs; rewrite <- Z at 1 2.
    assert (I : s / q * q = s) by (field; lra).
    destruct (S (s / q)) as [L1 L2].
    - split; [apply Rdiv_lt_0_compat; lra|].
      apply (Rmult_lt_reg_r q); auto; rewrite I; lra.
    - rewrite I in L1, L2; auto. }
  apply Rabs_def2 in Bh.
  destruct (Rdichotomy h 0 Nh) as [N|N].
  - destruct (MVT_cor2 f f' h 0 N) as (x & E & Bx).
    { intros x Bx; apply D; apply Rabs_def1; lra. }
    assert (Q := K (- x) ltac:(lra)); rewrite Ropp_involutive in Q; nra.
  - destruct (MVT_cor2 f f' 0 h N) as (x & E & Bx).
    { intros x Bx; apply D; apply Rabs_def1; lra. }
    assert (Q := K x ltac:(lra)); nra.
Qed.

Lemma second_max (f f' : R -> R) e q : 0 < e ->
  (forall h, Rabs h < e -> derivable_pt_lim f h (f' h)) ->
  f' 0 = 0 -> derivable_pt_lim f' 0 q -> q < 0 ->
  exists d, 0 < d /\ d <= e /\ forall h, h <> 0 -> Rabs h < d -> f h < f 0.
Proof.
  intros Pe D Z D2 Nq.
  destruct (second_min (fun h => - f h) (fun h => - f' h) e (- q) Pe) as (d & Pd & De & M).
  - intros h Bh; apply derivable_pt_lim_opp with (f := f); auto.
  - rewrite Z; ring.
  - apply derivable_pt_lim_opp with (f := f'); auto.
  - lra.
  - exists d; split; [auto|split; [auto|]]; intros h Nh Bh; specialize (M h Nh Bh); cbn beta in M; lra.
Qed.

(** A function whose derivative does not decrease lies above its tangent at 0. *)
Lemma above_tangent (f f' f'' : R -> R) b :
  (forall h, Rabs h <= b -> derivable_pt_lim f h (f' h)) ->
  (forall h, Rabs h <= b -> derivable_pt_lim f' h (f'' h)) ->
  (forall h, Rabs h <= b -> 0 <= f'' h) ->
  forall s, Rabs s <= b -> f 0 + f' 0 * s <= f s.
Proof.
  intros D D2 N s Bs.
  assert (Z : - b <= s <= b) by (assert (X := Rle_abs s); assert (Y := Rle_abs (- s)); rewrite Rabs_Ropp in Y; lra).
  assert (In : forall h, - b <= h <= b -> Rabs h <= b) by (intros; apply Rabs_le; auto).
  destruct (Rtotal_order s 0) as [L|[->|L]]; [|lra|].
  - destruct (MVT_cor2 f f' s 0 L) as (r & E & Br); [intros; apply D, In; lra|].
    destruct (MVT_cor2 f' f'' r 0 ltac:(lra)) as (q & E' & Bq); [intros; apply D2, In; lra|].
    assert (Q := N q (In q ltac:(lra))); assert (f' r <= f' 0) by nra; nra.
  - destruct (MVT_cor2 f f' 0 s L) as (r & E & Br); [intros; apply D, In; lra|].
    destruct (MVT_cor2 f' f'' 0 r ltac:(lra)) as (q & E' & Bq); [intros; apply D2, In; lra|].
    assert (Q := N q (In q ltac:(lra))); assert (f' 0 <= f' r) by nra; nra.
Qed.

Section Claims.
Variables (inf : R) (sp : libfn -> R -> R).
Notation S0 := (R_scalar inf sp).
Notation um := (real_un inf sp).

(** The Jacobian at a neighbouring point. *)
Lemma jacobian_near G (c : ctx R) t n n' v x j h :
  posed G c t n n' -> @regular R S0 um (bump c t j h) n -> smooth inf sp (bump c t j h) t n ->
  @evaluate R S0 n c = (c, Ok v) -> c t = Some x ->
  forall i, in_box (dims (vshape v)) i -> in_box (dims (vshape x)) j ->
  derivable_pt_lim (fun s => entry inf sp n (bump (bump c t j h) t j s) i) 0
                   (entry inf sp n' (bump c t j h) (i ++ j)).
Proof.
  intros P Rh Sh Ev Cx i Bi Bj; assert (P0 := P).
  destruct P as [O U Wn F Sc A Ty Ty' Q Q'].
  assert (Ph : posed G (bump c t j h) t n n').
  { constructor; auto.
    - apply bump_ok; auto.
    - intros a Ha; apply bump_some; auto. }
  destruct (jacobian_real inf sp G (bump c t j h) t n n' Ph Rh Sh) as (vh & wh & xh & Evh & Ewh & Cxh & Dh & Jh).
  destruct (typeof G n) as [k|] eqn:T; [|congruence]; destruct (typeof G n') as [k'|] eqn:T'; [|congruence].
  destruct (adjoint_dims G t n n' k k' Sc A T T') as (d & TT & kt & D & Gt & DT & D').
  assert (Dv : dims (vshape vh) = dims (vshape v)).
  { destruct (@typed_eval R S0 G n k c Wn T O) as [_ K]; rewrite Ev in K; destruct K as [_ K].
    destruct (@typed_eval R S0 G n k (bump c t j h) Wn T (bump_ok _ _ _ _ _ O)) as [_ K']; rewrite Evh in K'; destruct K' as [_ K'].
    transitivity d; [|symmetry]; apply sty_dims_v; congruence. }
  assert (Dx : vshape xh = vshape x).
  { unfold bump in Cxh; rewrite Nat.eqb_refl, Cx in Cxh; cbn [option_map] in Cxh; injection Cxh as <-.
    apply bump_shape. }
  unfold evaluate_adjoint in Ewh; rewrite A in Ewh; cbn [option_map] in Ewh; injection Ewh as Ewh.
  unfold entry at 2; rewrite Ewh; cbn [snd].
  apply Jh; [rewrite Dv|rewrite Dx]; auto.
Qed.

Lemma posed_bump G (c : ctx R) t n n' u j h : posed G c t n n' -> posed G (bump c u j h) t n n'.
Proof.
  intros [O U Wn F Sc A Ty Ty' Q Q']; constructor; auto.
  - apply bump_ok; auto.
  - intros a Ha; apply bump_some; auto.
Qed.

(** The mean value theorem along one entry. *)
Lemma mean_value G (c : ctx R) t n n' j s x :
  posed G c t n n' -> 0 < s ->
  (forall h, 0 <= h <= s ->
     @regular R S0 um (bump c t j h) n /\ smooth inf sp (bump c t j h) t n) ->
  c t = Some x -> in_box (dims (vshape x)) j ->
  exists v u,
    @evaluate R S0 n c = (c, Ok v) /\ snd (@evaluate R S0 n (bump c t j s)) = Ok u /\
    forall i, in_box (dims (vshape v)) i ->
      exists r w, 0 < r < s /\
        @evaluate_adjoint R S0 n t (bump c t j r) = Some (bump c t j r, Ok w) /\
        vat 0 u i - vat 0 v i = vat 0 w (i ++ j) * s.
Proof.
  intros P Ps Near Cx Bj.
  assert (W : ctx_wf c) by (intros i y E; destruct (p_ctx _ _ _ _ _ P i y E); auto).
  assert (A := p_adj _ _ _ _ _ P).
  destruct (Near 0 ltac:(lra)) as [Rg Sm]; rewrite bump_zero in Rg, Sm by auto.
  destruct (jacobian_real inf sp G c t n n' P Rg Sm) as (v & w0 & x0 & Ev & _).
  destruct (bump_evaluates inf sp G c t n n' j s P) as (u & Eu).
  exists v, u; split; [exact Ev|split; [exact Eu|]]; intros i Bi.
  set (f := fun h => entry inf sp n (bump c t j h) i).
  set (f' := fun h => entry inf sp n' (bump c t j h) (i ++ j)).
  destruct (MVT_cor2 f f' 0 s Ps) as (r & E & Br).
  { intros h Bh; destruct (Near h Bh) as [Rh Sh]; apply lim_shift.
    assert (N := jacobian_near G c t n n' v x j h P Rh Sh Ev Cx i Bi Bj); unfold f.
    replace (fun s => entry inf sp n (bump c t j (h + s)) i)
      with (fun s => entry inf sp n (bump (bump c t j h) t j s) i); auto.
    extensionality a; rewrite bump_bump; auto. }
  destruct (Near r ltac:(lra)) as [Rr Sr].
  destruct (jacobian_real inf sp G (bump c t j r) t n n' (posed_bump _ _ _ _ _ _ _ _ P) Rr Sr)
    as (vr & w & xr & _ & Ew & _).
  exists r, w; split; [exact Br|split; [exact Ew|]].
  unfold evaluate_adjoint in Ew; rewrite A in Ew; cbn [option_map] in Ew; injection Ew as Ew.
  unfold f, f', entry in E; rewrite (bump_zero c t j W), Ev, Eu, Ew in E; cbn [snd] in E; lra.
Qed.

(** Monotonicity along one entry. *)
Lemma monotone G (c : ctx R) t n n' j s x :
  posed G c t n n' -> 0 < s ->
  (forall h, 0 <= h <= s ->
     @regular R S0 um (bump c t j h) n /\ smooth inf sp (bump c t j h) t n) ->
  c t = Some x -> in_box (dims (vshape x)) j ->
  exists v u,
    @evaluate R S0 n c = (c, Ok v) /\ snd (@evaluate R S0 n (bump c t j s)) = Ok u /\
    forall i, in_box (dims (vshape v)) i ->
      let along (Q : R -> Prop) := forall r w, 0 < r < s ->
        @evaluate_adjoint R S0 n t (bump c t j r) = Some (bump c t j r, Ok w) -> Q (vat 0 w (i ++ j)) in
      (along (fun g => 0 < g) -> vat 0 v i < vat 0 u i) /\
      (along (fun g => 0 <= g) -> vat 0 v i <= vat 0 u i) /\
      (along (fun g => g = 0) -> vat 0 u i = vat 0 v i) /\
      (forall b, along (fun g => Rabs g <= b) -> Rabs (vat 0 u i - vat 0 v i) <= b * s).
Proof.
  intros P Ps Near Cx Bj.
  destruct (mean_value G c t n n' j s x P Ps Near Cx Bj) as (v & u & Ev & Eu & M).
  exists v, u; split; [exact Ev|split; [exact Eu|]]; intros i Bi along.
  destruct (M i Bi) as (r & w & Br & Ew & E).
  split; [|split; [|split]].
  - intro H; specialize (H r w Br Ew); cbn beta in H; nra.
  - intro H; specialize (H r w Br Ew); cbn beta in H; nra.
  - intro H; specialize (H r w Br Ew); cbn beta in H; rewrite H in E; lra.
  - intros b H; specialize (H r w Br Ew); cbn beta in H; rewrite E, Rabs_mult, (Rabs_right s) by lra; nra.
Qed.

(** The value lies above its tangent where the second derivative is not negative. *)
Lemma tangent G (c : ctx R) t n n' n'' j b x :
  posed G c t n n' -> adjoint n' t = Some n'' -> typeof G n'' <> None -> square G n'' -> 0 <= b ->
  (forall h, Rabs h <= b ->
     @regular R S0 um (bump c t j h) n /\ smooth inf sp (bump c t j h) t n /\
     smooth inf sp (bump c t j h) t n') ->
  c t = Some x -> in_box (dims (vshape x)) j ->
  exists v w,
    @evaluate R S0 n c = (c, Ok v) /\ @evaluate_adjoint R S0 n t c = Some (c, Ok w) /\
    forall i, in_box (dims (vshape v)) i ->
      (forall h w2, Rabs h <= b ->
         @evaluate_adjoint R S0 n' t (bump c t j h) = Some (bump c t j h, Ok w2) ->
         0 <= vat 0 w2 (i ++ j ++ j)) ->
      forall s, Rabs s <= b ->
        exists u, snd (@evaluate R S0 n (bump c t j s)) = Ok u /\
                  vat 0 v i + vat 0 w (i ++ j) * s <= vat 0 u i.
Proof.
  intros P A2 Ty2 Q2 Pb Near Cx Bj.
  assert (W : ctx_wf c) by (intros i y E; destruct (p_ctx _ _ _ _ _ P i y E); auto).
  assert (A := p_adj _ _ _ _ _ P).
  destruct (Near 0 ltac:(rewrite Rabs_R0; auto)) as (Rg & Sm & Sm'); rewrite bump_zero in Rg, Sm, Sm' by auto.
  destruct (jacobian_real inf sp G c t n n' P Rg Sm) as (v & w & x0 & Ev & Ew & Cx0 & Dw & _).
  rewrite Cx in Cx0; injection Cx0 as <-.
  exists v, w; split; [exact Ev|split; [exact Ew|]]; intros i Bi Pos s Bs.
  assert (Ew' : @evaluate R S0 n' c = (c, Ok w)).
  { unfold evaluate_adjoint in Ew; rewrite A in Ew; cbn [option_map] in Ew; injection Ew as Ew; exact Ew. }
  assert (P2 : posed G c t n' n'').
  { destruct P as [O U Wn F Sc _ Ty Ty' Q Q']; constructor; auto.
    - intros a [Ua| ->]; auto; destruct (adjoint_uses _ _ _ _ A Ua); auto.
    - apply (adjoint_wf _ _ _ Wn A).
    - apply (adjoint_cache_free _ _ _ F A).
    - apply (adjoint_scalar_sums _ _ _ _ A Sc). }
  assert (Reg' : forall h, Rabs h <= b -> @regular R S0 um (bump c t j h) n').
  { intros h Bh; destruct (Near h Bh) as (Rh & Sh & _).
    destruct (posed_bump _ _ _ _ _ t j h P) as [O U Wn F Sc _ Ty Ty' Q Q'].
    destruct (typeof G n) as [k|] eqn:T; [|congruence]; destruct (typeof G n') as [k'|] eqn:T'; [|congruence].
    destruct (adjoint_dims G t n n' k k' Sc A T T') as (d & TT & kt & D & Gt & DT & D').
    exact (regular_adj inf sp G _ t TT kt O (U t (or_intror eq_refl)) Gt DT n n' k k' Sc A T T' Q Q'
             (fun a Ha => U a (or_introl Ha)) Sh Rh). }
  set (f := fun h => entry inf sp n (bump c t j h) i).
  set (f' := fun h => entry inf sp n' (bump c t j h) (i ++ j)).
  set (f'' := fun h => entry inf sp n'' (bump c t j h) ((i ++ j) ++ j)).
  assert (T : f 0 + f' 0 * s <= f s).
  { apply (above_tangent f f' f'' b); auto.
    - intros h Bh; destruct (Near h Bh) as (Rh & Sh & _); apply lim_shift.
      assert (N := jacobian_near G c t n n' v x j h P Rh Sh Ev Cx i Bi Bj); unfold f.
      replace (fun s => entry inf sp n (bump c t j (h + s)) i)
        with (fun s => entry inf sp n (bump (bump c t j h) t j s) i); auto.
      extensionality a; rewrite bump_bump; auto.
    - intros h Bh; destruct (Near h Bh) as (_ & _ & Sh); apply lim_shift.
      assert (Bij : in_box (dims (vshape w)) (i ++ j)) by (rewrite Dw; apply in_box_both; auto).
      assert (N := jacobian_near G c t n' n'' w x j h P2 (Reg' h Bh) Sh Ew' Cx (i ++ j)%list Bij Bj); unfold f'.
      replace (fun s => entry inf sp n' (bump c t j (h + s)) (i ++ j))
        with (fun s => entry inf sp n' (bump (bump c t j h) t j s) (i ++ j)); auto.
      extensionality a; rewrite bump_bump; auto.
    - intros h Bh; destruct (Near h Bh) as (_ & _ & Sh).
      destruct (jacobian_real inf sp G (bump c t j h) t n' n'' (posed_bump _ _ _ _ _ _ _ _ P2) (Reg' h Bh) Sh)
        as (vh & wh & xh & _ & Ewh & _).
      assert (Q := Pos h wh Bh Ewh).
      unfold evaluate_adjoint in Ewh; rewrite A2 in Ewh; cbn [option_map] in Ewh; injection Ewh as Ewh.
      unfold f'', entry; rewrite Ewh; cbn [snd]; rewrite <- app_assoc; exact Q. }
  destruct (bump_evaluates inf sp G c t n n' j s P) as (u & Eu).
  exists u; split; [exact Eu|].
  unfold f, f', entry in T; rewrite (bump_zero c t j W), Ev, Ew', Eu in T; exact T.
Qed.

Lemma second_test G (c : ctx R) t n n' n'' e :
  posed G c t n n' -> adjoint n' t = Some n'' -> typeof G n'' <> None -> square G n'' -> 0 < e ->
  (forall k h, Rabs h < e -> @regular R S0 um (bump c t k h) n /\ smooth inf sp (bump c t k h) t n) ->
  smooth inf sp c t n' ->
  exists v w w2 x,
    @evaluate R S0 n c = (c, Ok v) /\ @evaluate_adjoint R S0 n t c = Some (c, Ok w) /\
    @evaluate_adjoint R S0 n' t c = Some (c, Ok w2) /\ c t = Some x /\
    forall i j, in_box (dims (vshape v)) i -> in_box (dims (vshape x)) j ->
      vat 0 w (i ++ j) = 0 -> vat 0 w2 (i ++ j ++ j) <> 0 ->
      exists d, 0 < d /\ forall h, h <> 0 -> Rabs h < d ->
        exists u, snd (@evaluate R S0 n (bump c t j h)) = Ok u /\
          (0 < vat 0 w2 (i ++ j ++ j) -> vat 0 v i < vat 0 u i) /\
          (vat 0 w2 (i ++ j ++ j) < 0 -> vat 0 u i < vat 0 v i).
Proof.
  intros P A2 Ty2 Q2 Pe Near Sm2.
  assert (O := p_ctx _ _ _ _ _ P).
  assert (W : ctx_wf c) by (intros i y E; destruct (O i y E); auto).
  assert (Ct : c t <> None) by (apply (p_def _ _ _ _ _ P); auto).
  assert (A := p_adj _ _ _ _ _ P).
  assert (Z : @regular R S0 um c n /\ smooth inf sp c t n).
  { destruct (Near [] 0) as [X Y]; [rewrite Rabs_R0; auto|]; rewrite bump_zero in X, Y; auto. }
  destruct Z as [Rg Sm].
  destruct (jacobian_real inf sp G c t n n' P Rg Sm) as (v & w & x & Ev & Ew & Cx & D & J).
  destruct (hessian_real inf sp G c t t n n' n'' e P A2 Ty2 Q2 Ct Pe Near Sm2)
    as (v0 & w2 & x0 & y0 & Ev0 & Ew2 & Cx0 & Cy0 & D2 & H).
  rewrite Ev in Ev0; injection Ev0 as <-; rewrite Cx in Cx0, Cy0; injection Cx0 as <-; injection Cy0 as <-.
  exists v, w, w2, x; do 4 (split; [assumption|]); intros i j Bi Bj Zw Pw.
  set (f := fun h => entry inf sp n (bump c t j h) i).
  set (f' := fun h => entry inf sp n' (bump c t j h) (i ++ j)).
  assert (N1 : forall h, Rabs h < e ->
            derivable_pt_lim (fun s => entry inf sp n (bump (bump c t j h) t j s) i) 0 (f' h)).
  { intros h Bh; destruct (Near j h Bh); eapply jacobian_near; eauto. }
  assert (F0 : f' 0 = 0).
  { unfold f', entry; rewrite bump_zero by auto.
    unfold evaluate_adjoint in Ew; rewrite A in Ew; cbn [option_map] in Ew; injection Ew as Ew.
    rewrite Ew; exact Zw. }
  assert (N2 : forall h, Rabs h < e -> derivable_pt_lim f h (f' h)).
  { intros h Bh; apply lim_shift; specialize (N1 h Bh); unfold f.
    replace (fun s => entry inf sp n (bump c t j (h + s)) i)
      with (fun s => entry inf sp n (bump (bump c t j h) t j s) i); auto.
    extensionality s; rewrite bump_bump; auto. }
  assert (M : exists d, 0 < d /\ forall h, h <> 0 -> Rabs h < d ->
    (0 < vat 0 w2 (i ++ j ++ j) -> f 0 < f h) /\ (vat 0 w2 (i ++ j ++ j) < 0 -> f h < f 0)).
  { destruct (Rdichotomy _ _ Pw) as [Q|Q].
    - destruct (second_max f f' e (vat 0 w2 (i ++ j ++ j)) Pe) as (d & Pd & _ & M); auto.
      exists d; split; [auto|]; intros h Nh Bh; split; [intro; lra|auto].
    - destruct (second_min f f' e (vat 0 w2 (i ++ j ++ j)) Pe) as (d & Pd & _ & M); auto.
      exists d; split; [auto|]; intros h Nh Bh; split; [auto|intro; lra]. }
  destruct M as (d & Pd & M).
  exists d; split; [exact Pd|]; intros h Nh Bh.
  destruct (bump_evaluates inf sp G c t n n' j h P) as (u & Eu).
  exists u; split; [exact Eu|]; specialize (M h Nh Bh).
  unfold f, entry in M; rewrite bump_zero, Ev, Eu in M; auto.
Qed.
End Claims.
