(** The text of a readable tree has the value of the tree as its only reading. *)
From Coq Require Import List Arith Bool String Ascii Reals Lra Lia.
Import ListNotations.
From Verif Require Import Base Shapes Scalar Buffers Spec Contraction Node Eval Types Instances
  Vocab Math Real_math Eval_claims Math_claims Fmt Fmt_math Fmt_claims Text_math Read_facts.
Local Open Scope string_scope.
Local Open Scope R_scope.

Section Reads.
Variables (inf : R) (sp : libfn -> R -> R) (rho : string -> R).
Notation sum_r := (sum_reads inf sp rho).
Notation product_r := (product_reads inf sp rho).
Notation signed_r := (signed_reads inf sp rho).
Notation atom_r := (atom_reads inf sp rho).

Lemma sum_eq x y s : sum_r x s -> x = y -> sum_r y s.
Proof. intros H <-; exact H. Qed.
Lemma prod_eq x y s : product_r x s -> x = y -> product_r y s.
Proof. intros H <-; exact H. Qed.
Lemma atom_signed x s : atom_r x s -> signed_r x s.
Proof. intro; apply signed_power, power_atom; auto. Qed.
Lemma atom_product x s : atom_r x s -> product_r x s.
Proof. intro; apply product_one, atom_signed; auto. Qed.
Lemma product_sum x s : product_r x s -> sum_r x s.
Proof. apply sum_one. Qed.
Lemma signed_sum x s : signed_r x s -> sum_r x s.
Proof. intro; apply sum_one, product_one; auto. Qed.

Lemma product_neg x s : product_r x s -> product_r (- x) ("-" ++ s).
Proof.
  induction 1.
  - apply product_one, signed_minus; auto.
  - apply (prod_eq ((- x) * y)); [|ring]. apply (product_times _ _ _ o (- x) ("-" ++ s) y t); auto.
  - apply (prod_eq ((- x) / y)); [|unfold Rdiv; ring]. apply (product_over _ _ _ o (- x) ("-" ++ s) y t); auto.
Qed.
Lemma product_mul o x s y t : In o [" ∘ "; " ⊗ "; " : "] -> product_r x s -> product_r y t -> product_r (x * y) (s ++ o ++ t).
Proof.
  intros I A; induction 1.
  - apply product_times; auto.
  - rewrite <- (app_assoc_s o), <- app_assoc_s. apply (prod_eq (x * x0 * y)); [|ring]. apply product_times; auto.
  - rewrite <- (app_assoc_s o), <- app_assoc_s. apply (prod_eq (x * x0 / y)); [|unfold Rdiv; ring].
    apply product_over; auto.
Qed.

(** What is kept for each subtree. *)
Definition fits (e : option expr) (x : R) : Prop :=
  match e with
  | Some XZero => x = 0
  | Some XOne => x = 1
  | Some (XText p) => if pw_wrap p then sum_r x (pw_text p) else product_r x (pw_text p)
  | None => True
  end.

Lemma fits_sum p x : fits (Some (XText p)) x -> sum_r x (pw_text p).
Proof. cbn; destruct (pw_wrap p); [auto|apply sum_one]. Qed.
Lemma fits_safe p x : fits (Some (XText p)) x -> product_r x (safe p).
Proof.
  cbn; unfold safe; destruct (pw_wrap p); [|auto]. intro; apply atom_product, atom_group; auto.
Qed.
Lemma fits_signed p x : fits (Some (XText p)) x -> a_signed inf sp rho (safe p) -> signed_r x (safe p).
Proof.
  intros A [y B]. replace x with y; auto.
  apply (one_reading inf sp rho y x (safe p)); [apply signed_sum; auto|apply sum_one, fits_safe; auto].
Qed.
Lemma fits_atom p x : fits (Some (XText p)) x -> an_atom inf sp rho (safe p) -> atom_r x (safe p).
Proof.
  intros A [y B]. replace x with y; auto.
  apply (one_reading inf sp rho y x (safe p)); [apply signed_sum, atom_signed; auto|apply sum_one, fits_safe; auto].
Qed.

Lemma atom_1 : atom_r 1 "1".
Proof. replace 1 with (decimal "1"); [apply atom_number; reflexivity|].
  change (10 * 0 + INR 1 = 1). rewrite INR_IZR_INZ; cbn; ring. Qed.
Lemma atom_2 : atom_r 2 "2".
Proof. replace 2 with (decimal "2"); [apply atom_number; reflexivity|].
  change (10 * 0 + INR 2 = 2). rewrite INR_IZR_INZ; cbn; ring. Qed.
Lemma atom_4 : atom_r 4 "4".
Proof. replace 4 with (decimal "4"); [apply atom_number; reflexivity|].
  change (10 * 0 + INR 4 = 4). rewrite INR_IZR_INZ; cbn; ring. Qed.
Lemma signed_m1 : signed_r (-1) "-1".
Proof. replace (-1) with (- (1)) by ring. apply (signed_minus _ _ _ 1 "1"), atom_signed, atom_1. Qed.

Lemma Int_part_IZR z : Int_part (IZR z) = z.
Proof.
  unfold Int_part. assert (up (IZR z) = (z + 1)%Z) as ->; [|lia].
  symmetry; apply tech_up; rewrite plus_IZR; lra.
Qed.
Lemma pow_2 x : R_pow x 2 = x * x.
Proof.
  unfold R_pow. rewrite Int_part_IZR. destruct (Req_EM_T 2 2); [|congruence].
  change (x ^ 2 = x * x). ring.
Qed.
Lemma pow_e x : R_pow (exp 1) x = exp x.
Proof.
  pose proof (exp_pos 1) as E. unfold R_pow. destruct (Req_EM_T x (IZR (Int_part x))) as [Q|Q].
  - rewrite <- (Rmult_1_r x) at 2. rewrite <- (ln_exp 1) at 2. fold (Rpower (exp 1) x).
    rewrite powerRZ_Rpower by auto. rewrite <- Q; reflexivity.
  - destruct (Req_EM_T (exp 1) 0); [lra|]. unfold Rpower. rewrite ln_exp, Rmult_1_r; reflexivity.
Qed.
Lemma pow_1 x : R_pow x 1 = x.
Proof. unfold R_pow. rewrite Int_part_IZR. destruct (Req_EM_T 1 1); [|congruence]. change (x ^ 1 = x). ring. Qed.

Lemma call_fits f u p x : In (f, u) functions -> fits (Some (XText p)) x ->
  product_r (real_un inf sp u x) (f ++ "(" ++ pw_text p ++ ")").
Proof. intros I H; apply atom_product, atom_call; auto. apply fits_sum; auto. Qed.
Lemma call_1 f u : In (f, u) functions -> product_r (real_un inf sp u 1) (f ++ "(1)").
Proof. intro I. apply atom_product, (atom_call _ _ _ f u 1 "1"); auto. apply signed_sum, atom_signed, atom_1. Qed.

Hypothesis half : rho "½" = 1 / 2.
Hypothesis pi : rho "π" = PI.
Lemma atom_half : atom_r (1 / 2) "½".
Proof. rewrite <- half; apply atom_name; reflexivity. Qed.
Lemma prod_pi o z : atom_r z o -> product_r (PI / z) ("π/" ++ o).
Proof.
  intro A. apply (product_over inf sp rho "/" PI "π" z o); [cbn; auto| |apply atom_signed; auto].
  apply atom_product. rewrite <- pi; apply atom_name; reflexivity.
Qed.

Lemma un_fits sym show u m e x : sp Lgamma 1 = 1 -> sp Lloggamma 1 = 0 ->
  to_expr sym show m = Some e -> no_wrong_constant sym show (Un u m) -> readable inf sp rho sym show (Un u m) ->
  fits (Some e) x -> fits (Some (un_expr u e)) (real_un inf sp u x).
Proof.
  intros G1 G2 E [_ Nw] [_ Rd] H. rewrite E in Nw, Rd.
  destruct e as [| |p].
  - (* Zero *)
    cbn [fits] in H; subst x.
    assert (M := un_means inf sp u XZero 0 G1 G2); cbn [means] in M.
    destruct u; cbn [un_expr on_expr fits plain wrap pw_wrap pw_text expr_display] in *;
      try (destruct Rd; fail); try (apply M; auto; fail); try (destruct Nw; congruence).
    + eapply prod_eq; [apply product_one, signed_m1|cbn; ring].
    + eapply prod_eq; [apply atom_product, atom_half|]. cbn. rewrite Ropp_0, exp_0; lra.
    + eapply prod_eq; [apply (prod_pi "2" 2), atom_2|]. cbn; rewrite acos_0; reflexivity.
  - (* One *)
    cbn [fits] in H; subst x.
    assert (M := un_means inf sp u XOne 1 G1 G2); cbn [means] in M.
    destruct u; cbn [un_expr on_expr fits plain wrap pw_wrap pw_text expr_display] in *;
      try (destruct Rd; fail); try (apply M; auto; fail); try (destruct Nw; congruence).
    + eapply sum_eq; [apply signed_sum, atom_signed, atom_2|cbn; ring].
    + eapply prod_eq; [apply atom_product, atom_2|cbn; ring].
    + eapply prod_eq; [apply product_one, signed_m1|cbn; ring].
    + apply (call_1 "δ" Dirac); cbn; tauto.
    + apply (call_1 "sgn" Sign); cbn; tauto.
    + apply atom_product, atom_e.
    + apply (call_1 "σ" Sigmoid); cbn; tauto.
    + apply (call_1 "cos" Cos); cbn; tauto.
    + apply (call_1 "cosh" Cosh); cbn; tauto.
    + apply (call_1 "sin" Sin); cbn; tauto.
    + eapply prod_eq; [apply (prod_pi "2" 2), atom_2|]. cbn; rewrite asin_1; reflexivity.
    + apply (call_1 "asinh" ArcSinh); cbn; tauto.
    + apply (call_1 "tan" Tan); cbn; tauto.
    + apply (call_1 "tanh" Tanh); cbn; tauto.
    + eapply prod_eq; [apply (prod_pi "4" 4), atom_4|]. cbn; rewrite atan_1; reflexivity.
  - (* Text *)
    pose proof (fits_sum p x H) as HS; pose proof (fits_safe p x H) as HP.
    destruct u; cbn [un_expr on_expr fits plain wrap pw_wrap pw_text expr_display] in *;
      try (destruct Rd; fail); try (unfold call; cbn [fits plain pw_wrap pw_text]; apply call_fits; auto; cbn; tauto).
    + apply (sum_minus inf sp rho x (safe p) 1 "1"); [apply sum_one; auto|apply atom_product, atom_1].
    + apply (sum_minus inf sp rho 1 "1" x (safe p)); [apply signed_sum, atom_signed, atom_1|auto].
    + cbn [real_un]; rewrite <- pow_2.
      replace ("(" ++ safe p ++ ")^2") with (("(" ++ safe p ++ ")") ++ "^" ++ "2") by (rewrite !app_assoc_s; reflexivity).
      apply product_one, signed_power.
      apply (power_raised inf sp rho x ("(" ++ safe p ++ ")") 2 "2"); [|apply atom_signed, atom_2].
      apply atom_group, sum_one; auto.
    + apply (prod_eq (2 * x)); [|cbn; ring].
      apply (product_mul " ∘ " 2 "2" x (safe p)); auto; [cbn; auto|apply atom_product, atom_2].
    + apply product_neg; auto.
    + apply (call_fits "δ" Dirac); auto; cbn; tauto.
    + apply (call_fits "sgn" Sign); auto; cbn; tauto.
    + eapply prod_eq; [apply atom_product, atom_abs, HS|]. cbn. unfold Rabs, Rmax.
      destruct (Rcase_abs x), (Rle_dec x (- x)); lra.
    + eapply sum_eq; [apply sum_one, (product_mul " ∘ " x (safe p) (ln x) ("ln(" ++ pw_text p ++ ")"));
        [cbn; auto|auto|apply (call_fits "ln" Ln); auto; cbn; tauto]|].
      cbn. destruct (Rlt_dec 0 x) as [P|P]; [reflexivity|].
      assert (ln x = 0) as ->; [|ring]. unfold ln. destruct (Rlt_dec 0 x); [contradiction|reflexivity].
    + cbn [real_un]. rewrite <- pow_e.
      apply product_one, signed_power, (power_raised inf sp rho (exp 1) "𝑒"); [apply atom_e|].
      apply fits_signed; auto.
    + eapply sum_eq; [apply sum_one, (product_mul " ∘ " x (safe p) (1 - x) ("(1 - " ++ safe p ++ ")")); [cbn; auto|auto|]|cbn; ring].
      apply atom_product, (atom_group inf sp rho (1 - x) ("1 - " ++ safe p)).
      apply (sum_minus inf sp rho 1 "1" x (safe p)); [apply signed_sum, atom_signed, atom_1|auto].
Qed.

Variables (sym : ident -> string) (show : R -> string).
Notation S0 := (R_scalar inf sp).
Notation D c n := (@den R S0 (real_un inf sp) c n).
Definition known (c : ctx R) (n : node R) : Prop := forall e, In e (reads n) -> undef_in c e = false.

Lemma known_left c l r : (forall e, In e (map ELeft (reads l) ++ map ERight (reads r))%list -> undef_in c e = false) ->
  known c l /\ known c r.
Proof.
  intro K; split; intros e I.
  - apply (K (ELeft e)), in_or_app; left; apply in_map; auto.
  - apply (K (ERight e)), in_or_app; right; apply in_map; auto.
Qed.

Lemma contract_den (c : ctx R) axes l r : scalar_ctx c -> scalar_tree l -> scalar_tree r ->
  tat (D c (Contract axes l r)) [] = tat (D c l) [] * tat (D c r) [].
Proof.
  intros Hc T1 T2; cbn [den]; destruct axes; unfold outer, inner.
  - cbn [tat]; rewrite !(scalar_dims inf sp) by auto; reflexivity.
  - rewrite !(scalar_dims inf sp) by auto; reflexivity.
Qed.

Lemma text_den (c : ctx R) n : sp Lgamma 1 = 1 -> sp Lloggamma 1 = 0 ->
  (forall i, is_name (sym i) = true) -> (forall i x, c i = Some (VScal x) -> rho (sym i) = x) ->
  scalar_ctx c -> scalar_tree n -> no_wrong_constant sym show n ->
  readable inf sp rho sym show n -> known c n ->
  @regular R S0 (real_un inf sp) c n ->
  fits (to_expr sym show n) (tat (D c n) []).
Proof.
  intros G1 G2 Nm Vl Hc.
  assert (B : forall m, scalar_tree m -> at_bc (D c m) [] = tat (D c m) []).
  { intros m Hm; unfold at_bc; rewrite (scalar_dims inf sp); auto. }
  induction n; intros T W Rd K Rg; pose proof (zero_one_den inf sp sym show c _ G1 G2 Hc T W Rg) as M.
  - cbn [to_expr fits plain pw_wrap pw_text]. apply atom_product.
    assert (exists x, c i = Some (VScal x)) as (x & E).
    { specialize (K (Undefined i) (or_introl eq_refl)); unfold undef_in in K; cbn in K.
      destruct (c i) as [v|] eqn:E; [|discriminate]. pose proof (Hc _ _ E) as Q.
      destruct v; try discriminate; eauto. }
    cbn [den]; unfold var_tensor; rewrite E; cbn. rewrite <- (Vl _ _ E); apply atom_name; auto.
  - cbn [to_expr] in *; destruct (ident_eqb i t); exact M.
  - destruct v; try exact Logic.I. cbn in *. apply product_one; auto.
  - exact Logic.I.
  - exact M.
  - exact Logic.I.
  - cbn [scalar_tree regular to_expr den tat] in *.
    destruct (to_expr sym show n) as [e|] eqn:E; [|exact Logic.I]. cbn [option_map].
    apply (un_fits sym show u n e); auto. apply IHn; auto; [apply W|apply Rd].
  - exact Logic.I.
  - cbn [scalar_tree no_wrong_constant readable reads regular to_expr den tat] in *.
    destruct T as [T1 T2], W as [W1 W2], Rd as (D1 & D2 & D3), Rg as (R1 & R2 & R3).
    apply known_left in K as [K1 K2]. specialize (IHn1 T1 W1 D1 K1 R1); specialize (IHn2 T2 W2 D2 K2 R2).
    destruct (to_expr sym show n1) as [e1|]; [|exact Logic.I]; destruct (to_expr sym show n2) as [e2|]; [|exact Logic.I].
    destruct e1 as [| |p], e2 as [| |q]; cbn [obind option_map power_expr] in *; try exact M.
    + cbn [fits] in IHn2; rewrite IHn2. replace (fpow (tat (D c n1) []) 1) with (tat (D c n1) []); [exact IHn1|].
      symmetry; apply pow_1.
    + destruct D3 as [D3 D4]. cbn [fits plain pw_wrap pw_text].
      apply product_one, signed_power. cbn [fpow R_scalar].
      apply power_raised; [apply fits_atom|apply fits_signed]; auto.
  - cbn [scalar_tree no_wrong_constant readable reads regular to_expr den tat pointwise] in *.
    destruct T as [T1 T2], W as [W1 W2], Rd as (D1 & D2), Rg as (R1 & R2).
    apply known_left in K as [K1 K2]. specialize (IHn1 T1 W1 D1 K1 R1); specialize (IHn2 T2 W2 D2 K2 R2).
    rewrite !B in * by auto; cbn [fadd R_scalar] in *.
    destruct (to_expr sym show n1) as [e1|]; [|exact Logic.I]; destruct (to_expr sym show n2) as [e2|]; [|exact Logic.I].
    destruct e1 as [| |p], e2 as [| |q]; cbn [obind option_map add_expr] in *; try exact M.
    + cbn [fits] in IHn1; rewrite IHn1, Rplus_0_l; auto.
    + cbn [fits] in IHn1, IHn2; rewrite IHn1, IHn2. apply atom_product, atom_2.
    + cbn [fits] in IHn1; rewrite IHn1. cbn [fits wrap pw_wrap pw_text].
      apply (sum_plus inf sp rho 1 "1"); [apply signed_sum, atom_signed, atom_1|apply fits_safe; auto].
    + cbn [fits] in IHn2; rewrite IHn2, Rplus_0_r; auto.
    + cbn [fits] in IHn2; rewrite IHn2. cbn [fits wrap pw_wrap pw_text].
      apply (sum_plus inf sp rho _ (safe p) 1 "1"); [apply sum_one, fits_safe; auto|apply atom_product, atom_1].
    + cbn [fits wrap pw_wrap pw_text].
      apply sum_plus; [apply sum_one, fits_safe|apply fits_safe]; auto.
  - cbn [scalar_tree no_wrong_constant readable reads regular to_expr den tat pointwise] in *.
    destruct T as [T1 T2], W as [W1 W2], Rd as (D1 & D2), Rg as (R1 & R2 & R3).
    apply known_left in K as [K1 K2]. specialize (IHn1 T1 W1 D1 K1 R1); specialize (IHn2 T2 W2 D2 K2 R2).
    rewrite !B in * by auto; cbn [fsub R_scalar] in *.
    destruct (to_expr sym show n1) as [e1|]; [|exact Logic.I]; destruct (to_expr sym show n2) as [e2|]; [|exact Logic.I].
    destruct e1 as [| |p], e2 as [| |q]; cbn [obind option_map sub_expr] in *; try exact M.
    + cbn [fits] in IHn1, IHn2; rewrite IHn1, IHn2. eapply prod_eq; [apply product_one, signed_m1|ring].
    + cbn [fits] in IHn1; rewrite IHn1. cbn [fits plain pw_wrap pw_text].
      eapply prod_eq; [apply product_neg, fits_safe; eauto|ring].
    + cbn [fits] in IHn1; rewrite IHn1. cbn [fits wrap pw_wrap pw_text].
      apply (sum_minus inf sp rho 1 "1"); [apply signed_sum, atom_signed, atom_1|apply fits_safe; auto].
    + cbn [fits] in IHn2; rewrite IHn2, Rminus_0_r; auto.
    + cbn [fits] in IHn2; rewrite IHn2. cbn [fits wrap pw_wrap pw_text].
      apply (sum_minus inf sp rho _ (safe p) 1 "1"); [apply sum_one, fits_safe; auto|apply atom_product, atom_1].
    + cbn [fits wrap pw_wrap pw_text].
      apply sum_minus; [apply sum_one, fits_safe|apply fits_safe]; auto.
  - cbn [scalar_tree no_wrong_constant readable reads regular to_expr den tat pointwise] in *.
    destruct T as [T1 T2], W as [W1 W2], Rd as (D1 & D2), Rg as (R1 & R2).
    apply known_left in K as [K1 K2]. specialize (IHn1 T1 W1 D1 K1 R1); specialize (IHn2 T2 W2 D2 K2 R2).
    rewrite !B in * by auto; cbn [fmul R_scalar] in *.
    destruct (to_expr sym show n1) as [e1|]; [|exact Logic.I]; destruct (to_expr sym show n2) as [e2|]; [|exact Logic.I].
    destruct e1 as [| |p], e2 as [| |q]; cbn [obind option_map prod_expr] in *; try exact M.
    + cbn [fits] in IHn1; rewrite IHn1, Rmult_1_l; auto.
    + cbn [fits] in IHn2; rewrite IHn2, Rmult_1_r; auto.
    + apply sum_one, product_mul; [cbn; auto|apply fits_safe; auto|apply fits_safe; auto].
  - cbn [scalar_tree no_wrong_constant readable reads regular to_expr den tat pointwise] in *.
    destruct T as [T1 T2], W as [W1 W2], Rd as (D1 & D2 & D3), Rg as (R1 & R2 & R3).
    apply known_left in K as [K1 K2]. specialize (IHn1 T1 W1 D1 K1 R1); specialize (IHn2 T2 W2 D2 K2 R2).
    rewrite !B in * by auto; cbn [fdiv R_scalar] in *.
    destruct (to_expr sym show n1) as [e1|]; [|exact Logic.I]; destruct (to_expr sym show n2) as [e2|]; [|exact Logic.I].
    destruct e1 as [| |p], e2 as [| |q]; cbn [obind option_map div_expr] in *; try exact M; try contradiction.
    + cbn [fits] in IHn1; rewrite IHn1. cbn [fits wrap pw_wrap pw_text].
      apply sum_one, (product_over inf sp rho " / " 1 "1"); [cbn; auto|apply atom_product, atom_1|apply fits_signed; auto].
    + cbn [fits] in IHn2; rewrite IHn2. replace (tat (D c n1) [] / 1) with (tat (D c n1) []) by field. auto.
    + apply sum_one, (product_over inf sp rho " / "); [cbn; auto|apply fits_safe; auto|apply fits_signed; auto].
  - cbn [scalar_tree no_wrong_constant readable reads] in *.
    destruct T as [T1 T2], W as [W1 W2], Rd as (D1 & D2).
    assert (R1 : @regular R S0 (real_un inf sp) c n1) by (destruct axes; apply Rg).
    assert (R2 : @regular R S0 (real_un inf sp) c n2) by (destruct axes; apply Rg).
    apply known_left in K as [K1 K2]. specialize (IHn1 T1 W1 D1 K1 R1); specialize (IHn2 T2 W2 D2 K2 R2).
    rewrite contract_den in * by auto.
    destruct axes as [|[|[|axes]]]; cbn [to_expr] in *; try exact Logic.I;
      (destruct (to_expr sym show n1) as [e1|]; [|exact Logic.I]; destruct (to_expr sym show n2) as [e2|]; [|exact Logic.I];
       destruct e1 as [| |p], e2 as [| |q]; cbn [obind option_map prod_expr] in *; try exact M;
       try (cbn [fits] in IHn1; rewrite IHn1, Rmult_1_l; exact IHn2);
       try (cbn [fits] in IHn2; rewrite IHn2, Rmult_1_r; exact IHn1)).
    + apply sum_one, product_mul; [cbn; auto|apply fits_safe; auto|apply fits_safe; auto].
    + apply atom_product, atom_inner; apply sum_one, fits_safe; auto.
    + apply sum_one, product_mul; [cbn; auto|apply fits_safe; auto|apply fits_safe; auto].
Qed.

Lemma display_den (c : ctx R) n s : sp Lgamma 1 = 1 -> sp Lloggamma 1 = 0 ->
  (forall i, is_name (sym i) = true) -> (forall i x, c i = Some (VScal x) -> rho (sym i) = x) ->
  scalar_ctx c -> scalar_tree n -> no_wrong_constant sym show n ->
  readable inf sp rho sym show n -> no_blank sym show n -> known c n ->
  @regular R S0 (real_un inf sp) c n ->
  to_expr sym show n <> None -> display sym show n = Some s -> sum_r (tat (D c n) []) s.
Proof.
  intros G1 G2 Nm Vl Hc. revert s.
  assert (Other : forall n s, display sym show n = option_map expr_display (to_expr sym show n) ->
     to_expr sym show n <> Some XZero ->
     scalar_tree n -> no_wrong_constant sym show n -> readable inf sp rho sym show n -> known c n ->
     @regular R S0 (real_un inf sp) c n -> display sym show n = Some s -> sum_r (tat (D c n) []) s).
  { intros m s E Z T W Rd K Rg Ds. pose proof (text_den c m G1 G2 Nm Vl Hc T W Rd K Rg) as H.
    rewrite E in Ds. destruct (to_expr sym show m) as [[| |p]|]; try congruence; cbn [option_map] in Ds; try discriminate Ds; injection Ds as <-.
    - cbn in H; rewrite H. apply signed_sum, atom_signed, atom_1.
    - apply fits_sum; auto. }
  induction n; intros s9 T W Rd Nb K Rg Te Ds;
    try (match goal with |- sum_r (tat (D c ?m) []) _ => apply (Other m); auto end; fail).
  - (* ConstAdj *)
    injection Ds as <-. replace (tat (D c (ConstAdj n t)) []) with (decimal "0").
    + apply signed_sum, atom_signed, atom_number; reflexivity.
    + change (10 * 0 + 0 = 0); ring.
  - exfalso; apply Te; reflexivity.
  - destruct axes as [|[|[|axes]]];
      try (match goal with |- sum_r (tat (D c ?m) []) _ => apply (Other m); auto end; fail).
    cbn [scalar_tree no_wrong_constant readable reads no_blank] in *.
    destruct T as [T1 T2], W as [W1 W2], Rd as (D1 & D2), Nb as [B1 B2].
    assert (R1 : @regular R S0 (real_un inf sp) c n1) by apply Rg.
    assert (R2 : @regular R S0 (real_un inf sp) c n2) by apply Rg.
    apply known_left in K as [K1 K2]. rewrite contract_den by auto.
    cbn [to_expr] in Te. cbn [display] in Ds.
    destruct (display sym show n1) as [s1|] eqn:E1; [|discriminate].
    destruct (display sym show n2) as [s2|] eqn:E2; [|discriminate]. cbn [obind option_map] in Ds. injection Ds as <-.
    apply sum_one.
    match goal with |- product_r _ ?t =>
      replace t with (("(" ++ s1 ++ ")") ++ " : " ++ ("(" ++ s2 ++ ")"))%string by (rewrite !app_assoc_s; reflexivity)
    end.
    apply (product_times inf sp rho " : " _ ("(" ++ s1 ++ ")") _ ("(" ++ s2 ++ ")")); [cbn; auto| |].
    + apply atom_product, atom_group, IHn1; auto.
      intro Q; rewrite Q in Te; apply Te; reflexivity.
    + apply atom_signed, atom_group, IHn2; auto.
      intro Q; rewrite Q in Te; apply Te; destruct (to_expr sym show n1); reflexivity.
Qed.
End Reads.

Lemma text_reads inf sp rho sym show (c c' : ctx R) (n : node R) v :
  let S := R_scalar inf sp in
  sp Lgamma 1 = 1 -> sp Lloggamma 1 = 0 -> rho "½" = 1 / 2 -> rho "π" = PI ->
  (forall i, is_name (sym i) = true) -> (forall i x, c i = Some (VScal x) -> rho (sym i) = x) ->
  node_wf n -> ctx_wf c -> cache_free n = true -> scalar_ctx c -> scalar_tree n ->
  regular (real_un inf sp) c n -> no_wrong_constant sym show n -> readable inf sp rho sym show n ->
  evaluate n c = (c', Ok v) ->
  exists x, v = VScal x /\
    (forall p, to_expr sym show n = Some (XText p) -> forall y, sum_reads inf sp rho y (pw_text p) <-> y = x) /\
    (forall s, to_expr sym show n <> None -> no_blank sym show n -> display sym show n = Some s ->
       forall y, sum_reads inf sp rho y s <-> y = x).
Proof.
  intros S G1 G2 Hh Hp Nm Vl Wn Wc Cf Sc St Rg Nw Rd E.
  destruct (value_real inf sp n c c' v Wn Wc Cf Rg E) as [Wv [Dv A]].
  assert (K : known c n).
  { pose proof (@any_error _ S n c Cf) as F; rewrite E in F; cbn in F. intros e I.
    apply (find_none _ _ F); auto. }
  rewrite (scalar_dims inf sp) in Dv, A by auto; specialize (A [] (Forall2_nil _)).
  destruct v as [x| | |ds a]; cbn in Dv; try discriminate.
  2:{ subst ds; destruct Wv as [_ Wv]; cbn in Wv; lia. }
  cbn in A; exists x; split; [reflexivity|].
  assert (One : forall s, sum_reads inf sp rho x s -> forall y, sum_reads inf sp rho y s <-> y = x).
  { intros s H y; split; [intro Q; eapply one_reading; eauto|intros ->; exact H]. }
  split.
  - intros p P; apply One. apply fits_sum.
    pose proof (text_den inf sp rho Hh Hp sym show c n G1 G2 Nm Vl Sc St Nw Rd K Rg) as H.
    rewrite P in H. rewrite A. exact H.
  - intros s Te Nb Ds; apply One. rewrite A.
    apply (display_den inf sp rho Hh Hp sym show c n s G1 G2 Nm Vl Sc St Nw Rd Nb K Rg Te Ds).
Qed.

(** * Where the text means something else *)
Definition xy (i : ident) : string := match i with 0%nat => "x" | _ => "y" end.
Definition xy_values (a b : R) (s : string) : R :=
  if String.eqb s "x" then a else if String.eqb s "y" then b
  else if String.eqb s "½" then 1 / 2 else if String.eqb s "π" then PI else 0.
(** The text [s] of [n] is a formula whose value is not that of [n]. *)
Definition misread (inf : R) (sp : libfn -> R -> R) (a b : R) (n : node R) (s : string) : Prop :=
  exists c x y, c = ctx2 (VScal a) (VScal b) /\
    (exists w, to_expr xy (fun _ => "") n = Some (XText (PW s w))) /\
    @evaluate R (R_scalar inf sp) n c = (c, Ok (VScal x)) /\
    sum_reads inf sp (xy_values a b) y s /\ x <> y.

Lemma pow_0 x : R_pow x 0 = 1.
Proof. unfold R_pow. rewrite Int_part_IZR. destruct (Req_EM_T 0 0); [|congruence]. reflexivity. Qed.

Section Misread.
Variables (inf : R) (sp : libfn -> R -> R) (a b : R).
Notation A := (atom_reads inf sp (xy_values a b)).
Lemma atom_x : A a "x".
Proof. exact (atom_name inf sp (xy_values a b) "x" eq_refl). Qed.
Lemma atom_y : A b "y".
Proof. exact (atom_name inf sp (xy_values a b) "y" eq_refl). Qed.
End Misread.

Lemma sinh_sin : sin 1 < sinh 1.
Proof.
  assert (Q : 5 / 4 < exp (/ 4)) by (pose proof (exp_ineq1 (/ 4) ltac:(lra)); lra).
  assert (E : exp 1 = exp (/ 4) * exp (/ 4) * (exp (/ 4) * exp (/ 4))).
  { rewrite <- !exp_plus; f_equal; lra. }
  assert (Q2 : 25 / 16 < exp (/ 4) * exp (/ 4)) by nra.
  assert (Q4 : 625 / 256 < exp 1) by (rewrite E; nra).
  assert (I : exp (Ropp 1) < 256 / 625).
  { rewrite exp_Ropp; replace (256 / 625) with (/ (625 / 256)) by field; apply Rinv_lt_contravar; nra. }
  pose proof (SIN_bound 1); unfold sinh; lra.
Qed.

Lemma misreadings inf sp :
  misread inf sp 1 0 (Un AddOne (Var 0%nat)) "1 - x" /\
  misread inf sp 1 0 (Un ArcSin (Var 0%nat)) "acos(x)" /\
  misread inf sp 0 0 (Un Exp (Un Double (Var 0%nat))) "𝑒^2 ∘ x" /\
  misread inf sp 1 2 (Div (Var 0%nat) (Un Double (Var 1%nat))) "x / 2 ∘ y" /\
  misread inf sp 2 0 (Power (Var 0%nat) (Un Double (Var 1%nat))) "x^2 ∘ y" /\
  misread inf sp 2 0 (Power (Un Square (Var 0%nat)) (Var 1%nat)) "(x)^2^y" /\
  misread inf sp 1 0 (Power (Un Negate (Var 0%nat)) (Var 1%nat)) "-x^y" /\
  misread inf sp 1 0 (Un Sinh (VarAdj 0%nat 0%nat)) "sin(1)".
Proof.
  assert (T : forall rho, atom_reads inf sp rho 2 "2") by (intro; apply atom_2).
  assert (O : forall rho, atom_reads inf sp rho 1 "1") by (intro; apply atom_1).
  repeat split; do 3 eexists;
    (split; [reflexivity|split; [eexists; reflexivity|split; [reflexivity|split]]]).
  - apply (sum_minus inf sp _ 1 "1" 1 "x"); [apply signed_sum, atom_signed, O|apply atom_product, atom_x].
  - cbn; lra.
  - apply signed_sum, atom_signed, (atom_call inf sp _ "acos" ArcCos 1 "x"); [cbn; tauto|].
    apply signed_sum, atom_signed, atom_x.
  - cbn. rewrite asin_1, acos_1. pose proof PI_RGT_0; lra.
  - apply sum_one, (product_times inf sp _ " ∘ " (R_pow (exp 1) 2) "𝑒^2" 0 "x"); [cbn; auto| |apply atom_signed, atom_x].
    apply product_one, signed_power, (power_raised inf sp _ _ "𝑒" 2 "2"); [apply atom_e|apply atom_signed, T].
  - cbn. rewrite !Rmult_0_r. apply Rgt_not_eq, exp_pos.
  - apply sum_one, (product_times inf sp _ " ∘ " (1 / 2) "x / 2" 2 "y"); [cbn; auto| |apply atom_signed, atom_y].
    apply (product_over inf sp _ " / " 1 "x" 2 "2"); [cbn; auto|apply atom_product, atom_x|apply atom_signed, T].
  - cbn; lra.
  - apply sum_one, (product_times inf sp _ " ∘ " (R_pow 2 2) "x^2" 0 "y"); [cbn; auto| |apply atom_signed, atom_y].
    apply product_one, signed_power, (power_raised inf sp _ _ "x" 2 "2"); [apply atom_x|apply atom_signed, T].
  - cbn. rewrite Rmult_0_r. match goal with |- R_pow _ ?z <> _ => replace z with 0 by ring end. rewrite pow_0; lra.
  - apply signed_sum, signed_power, (power_raised inf sp _ 2 "(x)" (R_pow 2 0) "2^y").
    + apply (atom_group inf sp _ 2 "x"), signed_sum, atom_signed, atom_x.
    + apply signed_power, (power_raised inf sp _ _ "2" 0 "y"); [apply T|apply atom_signed, atom_y].
  - cbn. rewrite !pow_0, pow_1. lra.
  - apply signed_sum, (signed_minus inf sp _ (R_pow 1 0) "x^y"), signed_power.
    apply (power_raised inf sp _ _ "x" 0 "y"); [apply atom_x|apply atom_signed, atom_y].
  - cbn. rewrite !pow_0; lra.
  - apply signed_sum, atom_signed, (atom_call inf sp _ "sin" Sin 1 "1"); [cbn; tauto|].
    apply signed_sum, atom_signed, O.
  - cbn. apply Rgt_not_eq, sinh_sin.
Qed.
