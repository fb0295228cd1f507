(** Facts about 64-bit floats (zero short cuts) and the real sigmoid. *)
From Coq Require Import List Arith ZArith Reals Bool SpecFloat Lia Lra.
Import ListNotations.
From Verif Require Import Base Shapes Scalar Buffers Spec Contraction Node Eval Types Instances
  Vocab Math Real_math Float_math Index_facts Buffers_facts Spec_facts Contraction_facts Contraction_entries
  Match_facts Eval_facts Typing_facts Progress_facts Exact_facts Math_facts Instance_facts.

Lemma f64_add_comm {prec emax} x y : SFadd prec emax x y = SFadd prec emax y x.
Proof.
  destruct x as [sx|sx| |sx mx ex], y as [sy|sy| |sy my ey]; auto; cbn [SFadd].
  - destruct sx, sy; auto.
  - destruct sx, sy; auto.
  - rewrite (Z.min_comm ey ex); f_equal; apply Z.add_comm.
Qed.

Lemma f64_mul_comm {prec emax} x y : SFmul prec emax x y = SFmul prec emax y x.
Proof.
  destruct x as [sx|sx| |sx mx ex], y as [sy|sy| |sy my ey]; auto; cbn [SFmul];
    rewrite 1?(xorb_comm sx sy); auto.
  rewrite (Z.add_comm ex ey), (Pos.mul_comm mx my); auto.
Qed.

Lemma f64_zero_inv z : SFeqb z f64_zero = true -> exists b, z = S754_zero b.
Proof. destruct z as [b|[]| |[] m e]; unfold SFeqb; simpl; try discriminate; eauto. Qed.

Lemma num_eq_refl x : num_eq x x.
Proof. left; auto. Qed.

Lemma f64_add_zero x b : num_eq x (SFadd 53 1024 x (S754_zero b)).
Proof.
  destruct x as [sx|sx| |sx mx ex]; simpl; try apply num_eq_refl.
  destruct (Bool.eqb sx b); [apply num_eq_refl|right; reflexivity].
Qed.
Lemma f64_sub_zero x b : num_eq x (SFsub 53 1024 x (S754_zero b)).
Proof.
  destruct x as [sx|sx| |sx mx ex]; simpl; try apply num_eq_refl.
  destruct (Bool.eqb sx (negb b)); [apply num_eq_refl|right; reflexivity].
Qed.
Lemma f64_mul_zero x b : finite x -> num_eq f64_zero (SFmul 53 1024 x (S754_zero b)).
Proof. destruct x as [sx|sx| |sx mx ex]; simpl; try tauto; intros _; right; reflexivity. Qed.

Section Short.
Variables (pow : f64 -> f64 -> f64) (lib : libfn -> f64 -> f64).
Local Instance FS : Scalar f64 := f64_scalar pow lib.

Lemma tensor_sfun (s : spec f64) ix : tat (tensor_of_spec s) ix = sfun s ix.
Proof. destruct s as [v|t x|t x]; reflexivity. Qed.

Lemma tensor_dims (s : spec f64) : tdims (tensor_of_spec s) = tdims_of (spec_bty s).
Proof. destruct s as [v|t x|t x]; reflexivity. Qed.

Lemma at_sfun (s : spec f64) ix :
  spec_wf s -> at_bc (tensor_of_spec s) ix = sfun s (pick (spec_bty s) ix).
Proof.
  intro W; unfold at_bc; rewrite tensor_sfun, tensor_dims; f_equal.
  assert (K := dims_nil _ (spec_wf_bty _ W)).
  destruct (spec_bty s) as [| | |[|? ?]]; auto; destruct K as [K _]; discriminate (K eq_refl).
Qed.

Lemma computes_intro op x y s t :
  spec_wf x -> spec_wf y -> bcast_bty (spec_bty x) (spec_bty y) = Ok t -> spec_bty s = t ->
  (forall ix, in_box (tdims_of t) ix -> 
     num_eq (sfun s ix) (op (sfun x (pick (spec_bty x) ix)) (sfun y (pick (spec_bty y) ix)))) ->
  computes op x y s.
Proof.
  intros Wx Wy B T E; destruct (bcast_ok _ _ _ (spec_wf_bty _ Wx) (spec_wf_bty _ Wy) B) as [D _].
  split; simpl; rewrite ?tensor_dims, T, ?D; auto.
  intros ix Bx; rewrite tensor_sfun, !at_sfun by auto; apply E; rewrite D; auto.
Qed.

Lemma dense_computes op x y s :
  spec_wf x -> spec_wf y ->
  (swapped (spec_bty x) (spec_bty y) = true -> forall u v : f64, op u v = op v u) ->
  zip_dense op x y = Ok s -> computes op x y s.
Proof.
  intros Wx Wy C H; apply zip_dense_zips in H; auto; destruct H as (t & B & T & W & E).
  apply (computes_intro op x y s t); auto; intros ix Bx; rewrite E by auto; apply num_eq_refl.
Qed.

Lemma full_computes op x y s z :
  spec_wf x -> spec_wf y ->
  res_map (fun t => Full t z) (bcast_bty (spec_bty x) (spec_bty y)) = Ok s ->
  (forall ix, in_box (tdims_of (spec_bty s)) ix -> 
     num_eq z (op (sfun x (pick (spec_bty x) ix)) (sfun y (pick (spec_bty y) ix)))) ->
  computes op x y s.
Proof.
  intros Wx Wy H E; destruct (bcast_bty _ _) as [t|e| |] eqn:B; try discriminate.
  apply Ok_inj in H; subst s; apply (computes_intro op x y _ t); auto.
Qed.

Lemma add_computes x y s : spec_wf x -> spec_wf y -> add_match x y = Ok s -> computes fadd x y s.
Proof.
  intros Wx Wy H.
  assert (D : zip_dense fadd x y = Ok s -> computes fadd x y s).
  { apply dense_computes; auto; intros; apply f64_add_comm. }
  destruct x as [xv|tx fx|tx fx], y as [yv|ty fy|ty fy]; try (apply D; exact H); unfold add_match in H.
  - destruct (is_zero fy) eqn:Z; [|apply D; exact H]; apply f64_zero_inv in Z; destruct Z as [b ->].
    simpl in Wx, Wy; rewrite zip_shape_eq in H by auto.
    destruct (bcast_bty _ _) as [t|e| |] eqn:B; try discriminate.
    apply Ok_inj in H; subst s; apply (computes_intro fadd _ _ _ t); auto; [apply build_bty|].
    intros ix Bx; cbn [sfun spec_bty]; rewrite vat_build by auto; apply f64_add_zero.
  - destruct (is_zero fx) eqn:Z; [|apply D; exact H]; apply f64_zero_inv in Z; destruct Z as [b ->].
    simpl in Wx, Wy; rewrite zip_shape_eq in H by auto.
    assert (Rv := bcast_rev tx (bty_of yv) Wx (vwf_bty _ Wy)).
    destruct (bcast_bty (bty_of yv) tx) as [t|e| |] eqn:B; try discriminate.
    apply Ok_inj in H; subst s; apply (computes_intro fadd _ _ _ t); auto; [apply build_bty|].
    intros ix Bx; cbn [sfun spec_bty]; rewrite vat_build by auto.
    change (fadd (S754_zero b) ?u) with (SFadd 53 1024 (S754_zero b) u); rewrite f64_add_comm; apply f64_add_zero.
  - apply (full_computes fadd (Full tx fx) (Full ty fy) s (fadd fx fy)); auto; intros; apply num_eq_refl.
Qed.

Lemma sub_computes v t z s :
  vwf v -> bty_wf t -> SFeqb z f64_zero = true ->
  sub_match (Raw v) (Full t z) = Ok s -> computes fsub (Raw v) (Full t z) s.
Proof.
  intros Wx Wy Z H; unfold sub_match in H; change (is_zero z) with (SFeqb z f64_zero) in H; rewrite Z in H.
  apply f64_zero_inv in Z; destruct Z as [b ->].
  rewrite zip_shape_eq in H by auto; destruct (bcast_bty _ _) as [t'|e| |] eqn:B; try discriminate.
  apply Ok_inj in H; subst s; apply (computes_intro fsub _ _ _ t'); auto; [apply build_bty|].
  intros ix Bx; cbn [sfun spec_bty]; rewrite vat_build by auto; apply f64_sub_zero.
Qed.

Lemma mul_computes x y s :
  spec_wf x -> spec_wf y -> all_finite x -> all_finite y -> mul_match x y = Ok s -> computes fmul x y s.
Proof.
  intros Wx Wy Fx Fy H.
  assert (D : zip_dense fmul x y = Ok s -> computes fmul x y s).
  { apply dense_computes; auto; intros; apply f64_mul_comm. }
  assert (BX : forall ix, (exists t, bcast_bty (spec_bty x) (spec_bty y) = Ok t /\ in_box (tdims_of t) ix) ->
     finite (sfun x (pick (spec_bty x) ix)) /\ finite (sfun y (pick (spec_bty y) ix))).
  { intros ix (t & B & Bx); destruct (bcast_ok _ _ _ (spec_wf_bty _ Wx) (spec_wf_bty _ Wy) B) as [_ K].
    destruct (K ix Bx); rewrite <- !tensor_sfun; split; [apply Fx|apply Fy]; auto. }
  assert (ZL : forall fx, x = Full (spec_bty x) fx -> is_zero fx = true ->
     res_map (fun sz => spec_zeroes sz) (bcast_bty (spec_bty x) (spec_bty y)) = Ok s -> computes fmul x y s).
  { intros fx Ex Z Q; apply f64_zero_inv in Z; destruct Z as [b ->].
    apply (full_computes fmul x y s f64_zero); auto; intros ix Bx.
    assert (K : sfun x (pick (spec_bty x) ix) = S754_zero b) by (rewrite Ex at 1; reflexivity).
    rewrite K; change (fmul (S754_zero b) ?u) with (SFmul 53 1024 (S754_zero b) u); rewrite f64_mul_comm.
    apply f64_mul_zero; apply BX; destruct (bcast_bty _ _) as [t|e| |] eqn:B; try discriminate.
    apply Ok_inj in Q; subst s; exists t; auto. }
  assert (ZR : forall fy, y = Full (spec_bty y) fy -> is_zero fy = true ->
     res_map (fun sz => spec_zeroes sz) (bcast_bty (spec_bty x) (spec_bty y)) = Ok s -> computes fmul x y s).
  { intros fy Ey Z Q; apply f64_zero_inv in Z; destruct Z as [b ->].
    apply (full_computes fmul x y s f64_zero); auto; intros ix Bx.
    assert (K : sfun y (pick (spec_bty y) ix) = S754_zero b) by (rewrite Ey at 1; reflexivity).
    rewrite K; apply f64_mul_zero; apply BX; destruct (bcast_bty _ _) as [t|e| |] eqn:B; try discriminate.
    apply Ok_inj in Q; subst s; exists t; auto. }
  destruct x as [xv|tx fx|tx fx], y as [yv|ty fy|ty fy]; try (apply D; exact H); unfold mul_match in H;
    try (destruct (is_zero fx) eqn:Z; [apply (ZL fx); auto|apply D; exact H]);
    try (destruct (is_zero fy) eqn:Z; [apply (ZR fy); auto|apply D; exact H]).
  apply (full_computes fmul (Full tx fx) (Full ty fy) s (fmul fx fy)); auto; intros; apply num_eq_refl.
Qed.

(** In terms of nodes. *)
Lemma node_zip (k : spec f64 -> spec f64 -> res incompat (spec f64)) l r (c c1 c2 : ctx f64) x y s :
  f_spec l c = (c1, Ok x) -> f_spec r c1 = (c2, Ok y) ->
  snd (both (f_spec l) (f_spec r) (fun x y => res_map_err EOutput (k x y)) c) = Ok s -> k x y = Ok s.
Proof. intros E1 E2; unfold both; rewrite E1, E2; simpl; apply map_err_ok. Qed.

Lemma add_short l r (c c1 c2 : ctx f64) x y s :
  evaluate_spec l c = (c1, Ok x) -> evaluate_spec r c1 = (c2, Ok y) -> spec_wf x -> spec_wf y ->
  snd (evaluate_spec (Add l r) c) = Ok s -> computes (SFadd 53 1024) x y s.
Proof. intros E1 E2 Wx Wy H; apply add_computes; auto; eapply node_zip; eauto. Qed.

Lemma sub_short l r (c c1 c2 : ctx f64) v t z s :
  evaluate_spec l c = (c1, Ok (Raw v)) -> evaluate_spec r c1 = (c2, Ok (Full t z)) ->
  vwf v -> bty_wf t -> SFeqb z f64_zero = true ->
  snd (evaluate_spec (Sub l r) c) = Ok s -> computes (SFsub 53 1024) (Raw v) (Full t z) s.
Proof. intros E1 E2 Wx Wy Z H; apply sub_computes; auto; eapply node_zip; eauto. Qed.

Lemma mul_short l r (c c1 c2 : ctx f64) x y s :
  evaluate_spec l c = (c1, Ok x) -> evaluate_spec r c1 = (c2, Ok y) -> spec_wf x -> spec_wf y ->
  all_finite x -> all_finite y ->
  snd (evaluate_spec (Mul l r) c) = Ok s -> computes (SFmul 53 1024) x y s.
Proof. intros E1 E2 Wx Wy Fx Fy H; apply mul_computes; auto; eapply node_zip; eauto. Qed.

(** Infinity times a zero constant: the short cut gives zero, the dense product NaN. *)
Lemma mul_infinite_differs : exists (l r : node f64) c x y s,
  snd (evaluate_spec l c) = Ok x /\ snd (evaluate_spec r c) = Ok y /\ spec_wf x /\ spec_wf y /\
  snd (evaluate_spec (Mul l r) c) = Ok s /\ ~ computes (SFmul 53 1024) x y s.
Proof.
  exists (Const (VScal (S754_infinity false))), (ConstSpec (Full TS f64_zero)), (fun _ => None).
  eexists; eexists; eexists; split; [reflexivity|split; [reflexivity|split; [exact I|split; [exact I|split; [reflexivity|]]]]].
  intros [_ H]; specialize (H [] (Forall2_nil _)); simpl in H; destruct H as [H|H]; discriminate H.
Qed.

End Short.

(** The sigmoid over the reals. *)
Section Sig.
Local Open Scope R_scope.
Variables (inf : R) (sp : libfn -> R -> R).
Local Instance RS : Scalar R := R_scalar inf sp.

Lemma sigmoid_formula x : sigmoid x = / (1 + exp (- x)).
Proof. exact (real_un_fn inf sp Sigmoid x). Qed.

Lemma sigmoid_range x : 0 < sigmoid x < 1.
Proof.
  rewrite sigmoid_formula; assert (E := exp_pos (- x)); split.
  - apply Rinv_0_lt_compat; lra.
  - rewrite <- Rinv_1; apply Rinv_lt_contravar; lra.
Qed.

Lemma sigmoid_reflect x : sigmoid (- x) = 1 - sigmoid x.
Proof.
  rewrite !sigmoid_formula, Ropp_involutive, exp_Ropp; assert (E := exp_pos x); field; lra.
Qed.

Lemma sigmoid_derivative x : derivable_pt_lim sigmoid x (sigmoid x * (1 - sigmoid x)).
Proof.
  assert (D : derivable_pt_lim (fun x => / (1 + exp (- x))) x (/ (1 + exp (- x)) * (1 - / (1 + exp (- x))))).
  { assert (E := exp_pos (- x)).
    assert (D1 : derivable_pt_lim (fun x => exp (- x)) x (exp (- x) * -1)).
    { apply (derivable_pt_lim_comp (fun x => - x) exp); [|apply derivable_pt_lim_exp].
      apply (derivable_pt_lim_opp (fun x => x)), derivable_pt_lim_id. }
    assert (D2 : derivable_pt_lim (fun x => 1 + exp (- x)) x (0 + exp (- x) * -1)).
    { apply (derivable_pt_lim_plus (fun _ => 1)); auto; apply derivable_pt_lim_const. }
    assert (D3 := derivable_pt_lim_div (fun _ => 1) (fun x => 1 + exp (- x)) x 0 _
                    (derivable_pt_lim_const 1 x) D2).
    cbn beta in D3; assert (N : 1 + exp (- x) <> 0) by lra; specialize (D3 N).
    replace (/ (1 + exp (- x)) * (1 - / (1 + exp (- x))))
      with ((0 * (1 + exp (- x)) - (0 + exp (- x) * -1) * 1) / Rsqr (1 + exp (- x)))
      by (unfold Rsqr; field; lra).
    intros eps He; destruct (D3 eps He) as [d Hd]; exists d; intros h H0 Hh.
    specialize (Hd h H0 Hh); unfold div_fct in Hd; unfold Rdiv in Hd at 2 3; rewrite !Rmult_1_l in Hd; exact Hd. }
  intros eps He; destruct (D eps He) as [d Hd]; exists d; intros h H0 Hh.
  rewrite !sigmoid_formula; apply Hd; auto.
Qed.

Lemma sigmoid_increasing x y : x < y -> sigmoid x < sigmoid y.
Proof.
  intro H; rewrite !sigmoid_formula; assert (Ex := exp_pos (- x)); assert (Ey := exp_pos (- y)).
  apply Rinv_lt_contravar; [apply Rmult_lt_0_compat; lra|].
  assert (exp (- y) < exp (- x)) by (apply exp_increasing; lra); lra.
Qed.

Lemma sigmoid_small_exp (g : R -> R) x :
  (forall y, y <= 0 -> g y = exp y) -> @sigmoid R (with_exp inf sp g) x = sigmoid x.
Proof.
  intro H; unfold sigmoid; cbn [fle fzero fone fadd fdiv flib fneg with_exp RS R_scalar R_lib].
  unfold R_leb; destruct (Rle_dec 0 x); [rewrite H by lra|rewrite H by lra]; reflexivity.
Qed.

End Sig.
