(** Proofs about error messages and about Zero/One in rendering, in the form used by
    Properties_fmt.v. *)
From Coq Require Import List Arith Bool String Ascii ZArith Reals Lia Lra DecimalString DecimalNat
  SpecFloat.
Import ListNotations.
From Verif Require Import Base Shapes Scalar Buffers Spec Contraction Node Eval Types Instances
  Vocab Math Real_math Exact_facts Instance_facts Eval_claims Math_claims Fmt Fmt_math.

(** * Error messages *)
Lemma err_display_layer dbg e :
  err_display dbg e =
  match err_layer e with
  | inl i => source_display dbg i
  | inr b => binary_display (err_display dbg) (err_display dbg) incompat_display b
  end.
Proof. destruct e; reflexivity. Qed.

Lemma message_nested : forall dbg path e,
  err_display dbg (nested path e) = err_display dbg e.
Proof. intros dbg path e; induction path as [|[] p IH]; simpl; auto. Qed.

Lemma message_root : forall dbg e,
  err_display dbg e = match root_cause e with
                      | inl i => source_display dbg i
                      | inr x => incompat_display x
                      end.
Proof. intros dbg e; induction e; simpl; auto. Qed.

(** [Display] of shapes determines the shape. *)
Local Open Scope string_scope.

Fixpoint no_v (s : string) : bool :=
  match s with EmptyString => true | String a s' => negb (Ascii.eqb a "v") && no_v s' end.
Definition dig_char (a : ascii) : bool := let n := nat_of_ascii a in ((48 <=? n) && (n <=? 57))%nat.
Fixpoint digs (s : string) : bool :=
  match s with EmptyString => true | String a s' => dig_char a && digs s' end.

Lemma app_assoc_s a b c : (a ++ b) ++ c = a ++ (b ++ c).
Proof. induction a; simpl; congruence. Qed.
Lemma app_nil_s a : a ++ "" = a.
Proof. induction a; simpl; congruence. Qed.
Lemma app_inj_l a b c : a ++ b = a ++ c -> b = c.
Proof. induction a; simpl; intro H; auto; injection H; auto. Qed.

Lemma length_app_s a b : length (a ++ b) = length a + length b.
Proof. induction a; simpl; lia. Qed.
Lemma app_inj_r a b c : a ++ c = b ++ c -> a = b.
Proof.
  revert b; induction a as [|x a IH]; intros [|y b] H; auto.
  - apply (f_equal length) in H; rewrite !length_app_s in H; simpl in H; lia.
  - apply (f_equal length) in H; rewrite !length_app_s in H; simpl in H; lia.
  - simpl in H; injection H as -> H; f_equal; auto.
Qed.

Lemma no_v_app a b : no_v (a ++ b) = no_v a && no_v b.
Proof. induction a; simpl; auto; rewrite IHa, andb_assoc; auto. Qed.
Lemma digs_no_v s : digs s = true -> no_v s = true.
Proof.
  induction s as [|a s IH]; auto; simpl; intro H; apply andb_true_iff in H as [H1 H2].
  rewrite IH by auto; rewrite andb_true_r.
  destruct (Ascii.eqb_spec a "v"); auto; subst; discriminate.
Qed.

Lemma digs_uint u : digs (NilEmpty.string_of_uint u) = true.
Proof. induction u; simpl; auto. Qed.
Lemma show_nat_digs n : digs (show_nat n) = true.
Proof. apply digs_uint. Qed.
Lemma show_nat_inj n m : show_nat n = show_nat m -> n = m.
Proof.
  unfold show_nat; intro H.
  assert (E : NilEmpty.uint_of_string (NilEmpty.string_of_uint (Nat.to_uint n)) =
              NilEmpty.uint_of_string (NilEmpty.string_of_uint (Nat.to_uint m))) by (rewrite H; auto).
  rewrite !NilEmpty.usu in E; injection E as E.
  apply (f_equal Nat.of_uint) in E; rewrite !Unsigned.of_to in E; auto.
Qed.
Lemma show_nat_nonempty n : show_nat n <> "".
Proof.
  unfold show_nat; destruct (Nat.to_uint n) eqn:E; try discriminate.
  destruct n as [|n]; [discriminate|].
  apply (f_equal Nat.of_uint) in E; rewrite Unsigned.of_to in E; discriminate.
Qed.

(** Two runs of digits followed by text that does not start with a digit. *)
Definition nodig (s : string) : Prop := match s with String a _ => dig_char a = false | _ => True end.
Lemma digs_split a b x y : digs a = true -> digs b = true -> nodig x -> nodig y ->
  a ++ x = b ++ y -> a = b /\ x = y.
Proof.
  revert b; induction a as [|p a IH]; intros [|q b] Da Db Nx Ny H; simpl in *; auto.
  - subst x; simpl in Nx; apply andb_true_iff in Db as [Db _]; congruence.
  - subst y; simpl in Ny; apply andb_true_iff in Da as [Da _]; congruence.
  - injection H as -> H; apply andb_true_iff in Da as [_ Da], Db as [_ Db].
    destruct (IH b Da Db Nx Ny H) as [-> ->]; auto.
Qed.

Lemma show_list_inj sep ds es x y : nodig sep -> sep <> "" -> nodig x -> nodig y ->
  (forall s, x <> sep ++ s) -> (forall s, y <> sep ++ s) ->
  ds <> [] -> es <> [] ->
  show_list sep ds ++ x = show_list sep es ++ y -> ds = es /\ x = y.
Proof.
  intros Ns Ne Nx Ny Sx Sy.
  assert (NS : forall s, nodig (sep ++ s)) by (intro s; destruct sep; [congruence|exact Ns]).
  revert es; induction ds as [|d ds IH]; intros es Nd Nn H; [congruence|].
  destruct es as [|e es]; [congruence|].
  destruct ds as [|d' ds]; destruct es as [|e' es].
  - cbn [show_list] in H; apply digs_split in H as [H ->]; auto using show_nat_digs.
    apply show_nat_inj in H; subst; auto.
  - change (show_nat d ++ x = (show_nat e ++ sep ++ show_list sep (e' :: es)) ++ y) in H.
    rewrite !app_assoc_s in H; apply digs_split in H as [H H1]; auto using show_nat_digs.
    destruct (Sx _ H1).
  - change ((show_nat d ++ sep ++ show_list sep (d' :: ds)) ++ x = show_nat e ++ y) in H.
    rewrite !app_assoc_s in H; apply digs_split in H as [H H1]; auto using show_nat_digs.
    destruct (Sy _ (eq_sym H1)).
  - change ((show_nat d ++ sep ++ show_list sep (d' :: ds)) ++ x =
            (show_nat e ++ sep ++ show_list sep (e' :: es)) ++ y) in H.
    rewrite !app_assoc_s in H; apply digs_split in H as [H H1]; auto using show_nat_digs.
    apply show_nat_inj in H; subst e; apply app_inj_l in H1.
    destruct (IH (e' :: es)) as [E ->]; auto; try discriminate; rewrite E; auto.
Qed.

Lemma show_list_no_v sep l : no_v sep = true -> no_v (show_list sep l) = true.
Proof.
  intro Hs; induction l as [|n l IH]; auto; destruct l as [|m l].
  - apply digs_no_v, show_nat_digs.
  - change (no_v (show_nat n ++ sep ++ show_list sep (m :: l)) = true).
    rewrite !no_v_app, Hs, IH, digs_no_v by apply show_nat_digs; auto.
Qed.

Lemma show_list_concat sep l : show_list sep l = String.concat sep (map show_nat l).
Proof.
  induction l as [|n l IH]; [reflexivity|]; destruct l as [|m l]; [reflexivity|].
  cbn [show_list map String.concat] in *; rewrite <- IH; reflexivity.
Qed.

Lemma shape_texts ds :
  shape_display (St ds) = (match ds with [] => "S0" | _ => String.concat " × " (map show_nat ds) end) /\
  shape_display (Dy ds) = ("SDynamic([" ++ String.concat ", " (map show_nat ds) ++ "])")%string.
Proof. unfold shape_display; rewrite !show_list_concat; destruct ds; split; reflexivity. Qed.

Lemma shape_display_inj s t : shape_display s = shape_display t -> s = t.
Proof.
  assert (D : forall n l sep, exists a r, show_list sep (n :: l) = String a r /\ dig_char a = true).
  { intros n l sep; pose proof (show_nat_nonempty n) as N; pose proof (show_nat_digs n) as G.
    destruct (show_nat n) as [|a r] eqn:E; [congruence|]; simpl in G; apply andb_true_iff in G as [G _].
    destruct l; cbn [show_list]; rewrite E; eexists _, _; split; try reflexivity; auto. }
  destruct s as [[|d ds]|ds]; destruct t as [[|e es]|es]; auto; unfold shape_display; intro H.
  - destruct (D e es " × ") as (a & r & E & G); rewrite E in H; injection H as <- _; discriminate.
  - discriminate.
  - destruct (D d ds " × ") as (a & r & E & G); rewrite E in H; injection H as -> _; discriminate.
  - f_equal; apply (show_list_inj " × " (d :: ds) (e :: es) "" ""); try exact eq_refl; try exact I;
      try discriminate.
    rewrite !app_nil_s; exact H.
  - destruct (D d ds " × ") as (a & r & E & G); rewrite E in H; injection H as -> _; discriminate.
  - discriminate.
  - destruct (D e es " × ") as (a & r & E & G); rewrite E in H; injection H as <- _; discriminate.
  - f_equal; apply app_inj_l in H.
    destruct ds as [|d ds], es as [|e es]; auto.
    + destruct (D e es ", ") as (a & r & E & G); rewrite E in H; injection H as <- _; discriminate.
    + destruct (D d ds ", ") as (a & r & E & G); rewrite E in H; injection H as -> _; discriminate.
    + apply (show_list_inj ", " (d :: ds) (e :: es) "])" "])"); try exact eq_refl; try discriminate; exact H.
Qed.

Lemma shape_no_v s : no_v (shape_display s) = true.
Proof.
  destruct s as [[|d ds]|ds]; auto; unfold shape_display.
  - apply show_list_no_v; auto.
  - rewrite !no_v_app, show_list_no_v; auto.
Qed.

Lemma no_v_split a b x y : no_v a = true -> no_v b = true ->
  a ++ String "v" x = b ++ String "v" y -> a = b /\ x = y.
Proof.
  revert b; induction a as [|p a IH]; intros [|q b] Da Db H; simpl in *.
  - injection H; auto.
  - injection H as <- _; discriminate.
  - injection H as -> _; discriminate.
  - injection H as -> H; apply andb_true_iff in Da as [_ Da], Db as [_ Db].
    destruct (IH b Da Db H) as [-> ->]; auto.
Qed.

Lemma incompat_display_inj e e' : incompat_display e = incompat_display e' -> e = e'.
Proof.
  destruct e as [l r], e' as [l' r']; unfold incompat_display; cbn [inc_left inc_right]; intro H.
  apply app_inj_l in H.
  assert (V : forall a s, a ++ " vs " ++ s = (a ++ " ") ++ String "v" ("s " ++ s)).
  { intros a s; rewrite app_assoc_s; auto. }
  rewrite !V in H; apply no_v_split in H as [H1 H2]; try (rewrite no_v_app, shape_no_v; auto).
  apply app_inj_r, shape_display_inj in H1; apply app_inj_l, app_inj_r, shape_display_inj in H2.
  subst; auto.
Qed.

Lemma message_cause : forall dbg e e', (forall i j, dbg i = dbg j -> i = j) ->
  err_display dbg e = err_display dbg e' -> root_cause e = root_cause e'.
Proof.
  intros dbg e e' Hd; rewrite !message_root.
  destruct (root_cause e), (root_cause e'); unfold source_display; intro H.
  - apply app_inj_l, app_inj_r in H; f_equal; auto.
  - discriminate.
  - discriminate.
  - f_equal; apply incompat_display_inj; auto.
Qed.

Lemma message_undefined : forall dbg F (S : Scalar F) (n : node F) (c : ctx F) e i,
  cache_free n = true -> snd (evaluate n c) = Err e -> err_ident e = Some i ->
  c i = None /\
  err_display dbg e = "No variable found with identifier " ++ dbg i ++ ".".
Proof.
  intros dbg F S n c e i Cf E I; split.
  - pose proof (@any_error _ S n c Cf) as A; rewrite E in A; destruct A as [A|A]; [|congruence].
    apply find_some in A as [_ A]; unfold undef_in in A; rewrite I in A; destruct (c i); congruence.
  - rewrite message_root.
    assert (R : root_cause e = inl i).
    { clear E; induction e; simpl in *; try (injection I as ->; reflexivity); auto; discriminate. }
    rewrite R; reflexivity.
Qed.

(** * Zero and One *)
Local Open Scope R_scope.
Section ZeroOne.
Variables (inf : R) (sp : libfn -> R -> R) (sym : ident -> string) (show : R -> string).
Local Existing Instance R_scalar.

Lemma scalar_dims (c : ctx R) n : scalar_ctx c -> scalar_tree n ->
  tdims (@den _ (R_scalar inf sp) (real_un inf sp) c n) = [].
Proof.
  intro Hc.
  assert (V : forall i, tdims (@var_tensor _ (R_scalar inf sp) c i) = []).
  { intro i; unfold var_tensor; destruct (c i) as [v|] eqn:E; auto.
    apply Hc in E; destruct v; try discriminate; auto. }
  induction n; intro H; cbn [den tdims scalar_tree] in *; auto.
  - rewrite !V; auto.
  - destruct v; try discriminate; auto.
  - destruct s as [v|t x|t x]; simpl in *; subst; auto. destruct v; try discriminate; auto.
  - rewrite IHn, V; auto.
  - destruct H; unfold pointwise; cbn [tdims]; rewrite IHn1; auto.
  - destruct H; unfold pointwise; cbn [tdims]; rewrite IHn1; auto.
  - destruct H; unfold pointwise; cbn [tdims]; rewrite IHn1; auto.
  - destruct H; unfold pointwise; cbn [tdims]; rewrite IHn1; auto.
  - destruct H; destruct axes; unfold outer, inner; cbn [tdims]; rewrite IHn1, IHn2; auto.
Qed.

Definition means (e : option expr) (x : R) : Prop :=
  match e with Some XZero => x = 0 | Some XOne => x = 1 | _ => True end.

Lemma ln_arg a : a = 1 -> ln a = 0.
Proof. intros ->; apply ln_1. Qed.

Lemma un_means u e x : sp Lgamma 1 = 1 -> sp Lloggamma 1 = 0 ->
  match u with
  | Erf => e <> XZero /\ e <> XOne
  | DiGamma => e <> XOne
  | _ => True
  end ->
  means (Some e) x -> means (Some (un_expr u e)) (real_un inf sp u x).
Proof.
  intros G1 G2 Hu; destruct e as [| |p]; cbn [means]; intro E; [subst x|subst x|destruct u; exact I];
    destruct u; cbn [un_expr on_expr means real_un plain wrap]; try exact I; auto; try lra;
    try (destruct Hu; congruence); try congruence.
  - rewrite Ropp_0, Rmax_left; lra.
  - destruct (Rlt_dec 0 0); lra.
  - apply exp_0.
  - apply cos_0.
  - rewrite Ropp_0, exp_0; lra.
  - apply sin_0.
  - rewrite Ropp_0, exp_0; lra.
  - apply asin_0.
  - apply ln_arg; rewrite Rmult_0_l, Rplus_0_l, Rplus_0_l; apply sqrt_1.
  - rewrite sin_0; unfold Rdiv; ring.
  - rewrite Ropp_0, exp_0; lra.
  - apply atan_0.
  - rewrite ln_arg; lra.
  - rewrite Rmax_left; lra.
  - apply ln_1.
  - destruct (Rlt_dec 0 1); [rewrite ln_1|]; lra.
  - apply acos_1.
  - apply ln_arg; replace (1 * 1 - 1) with 0 by ring; rewrite sqrt_0; ring.
Qed.

Lemma zero_one_den (c : ctx R) n : sp Lgamma 1 = 1 -> sp Lloggamma 1 = 0 ->
  scalar_ctx c -> scalar_tree n -> no_wrong_constant sym show n ->
  @regular _ (R_scalar inf sp) (real_un inf sp) c n ->
  means (to_expr sym show n) (tat (@den _ (R_scalar inf sp) (real_un inf sp) c n) []).
Proof.
  intros G1 G2 Hc; pose proof (R_exact inf sp) as X.
  assert (V : forall i, tdims (@var_tensor _ (R_scalar inf sp) c i) = []) by
    (intro i; apply (scalar_dims c (Var i) Hc I)).
  assert (B : forall m, scalar_tree m -> at_bc (@den _ (R_scalar inf sp) (real_un inf sp) c m) [] =
                         tat (@den _ (R_scalar inf sp) (real_un inf sp) c m) []).
  { intros m Hm; unfold at_bc; rewrite scalar_dims; auto. }
  induction n; intros T W Rg.
  - exact I.
  - cbn [to_expr den tat]; rewrite V; cbn [length firstn skipn ix_eqb]; rewrite andb_true_r.
    unfold ident_eqb; destruct (Nat.eqb _ _); reflexivity.
  - destruct v; exact I.
  - exact I.
  - reflexivity.
  - exact I.
  - cbn [scalar_tree no_wrong_constant regular to_expr den tat] in *; destruct W as [W1 W2].
    specialize (IHn T W1 Rg); destruct (to_expr sym show n) as [e|]; [|exact I].
    cbn [option_map]; apply un_means; auto.
    destruct u; auto.
    + intro; subst e; apply W2; reflexivity.
    + destruct W2 as [W2 W3]; split; intro; subst e; [apply W2|apply W3]; reflexivity.
  - exact I.
  - cbn [scalar_tree no_wrong_constant regular to_expr den tat] in *; destruct T, W, Rg as (R1 & R2 & R3).
    specialize (IHn1 H H1 R1); specialize (IHn2 H0 H2 R2).
    destruct (to_expr sym show n1) as [e1|]; [|exact I]; destruct (to_expr sym show n2) as [e2|]; [|exact I].
    destruct e1, e2; cbn [obind option_map power_expr means] in *; try exact I; auto;
      try (rewrite IHn1); try (apply (ex_0pow X); auto); try (apply (ex_1pow X)).
    rewrite IHn2; apply (ex_pow0 X).
  - cbn [scalar_tree no_wrong_constant regular to_expr den tat pointwise] in *; destruct T, W, Rg.
    rewrite !B by auto; specialize (IHn1 H H1 H3); specialize (IHn2 H0 H2 H4).
    destruct (to_expr sym show n1) as [e1|]; [|exact I]; destruct (to_expr sym show n2) as [e2|]; [|exact I].
    destruct e1, e2; cbn [obind option_map add_expr means fadd R_scalar] in *; try exact I; auto; lra.
  - cbn [scalar_tree no_wrong_constant regular to_expr den tat pointwise] in *; destruct T, W, Rg as (R1 & R2 & R3).
    rewrite !B by auto; specialize (IHn1 H H1 R1); specialize (IHn2 H0 H2 R2).
    destruct (to_expr sym show n1) as [e1|]; [|exact I]; destruct (to_expr sym show n2) as [e2|]; [|exact I].
    destruct e1, e2; cbn [obind option_map sub_expr means fsub R_scalar] in *; try exact I; auto; lra.
  - cbn [scalar_tree no_wrong_constant regular to_expr den tat pointwise] in *; destruct T, W, Rg.
    rewrite !B by auto; specialize (IHn1 H H1 H3); specialize (IHn2 H0 H2 H4).
    destruct (to_expr sym show n1) as [e1|]; [|exact I]; destruct (to_expr sym show n2) as [e2|]; [|exact I].
    destruct e1, e2; cbn [obind option_map prod_expr means fmul R_scalar] in *; try exact I; auto;
      rewrite ?IHn1, ?IHn2; lra.
  - cbn [scalar_tree no_wrong_constant regular to_expr den tat pointwise] in *; destruct T, W, Rg as (R1 & R2 & R3).
    rewrite !B by auto; specialize (IHn1 H H1 R1); specialize (IHn2 H0 H2 R2).
    destruct (to_expr sym show n1) as [e1|]; [|exact I]; destruct (to_expr sym show n2) as [e2|]; [|exact I].
    destruct e1, e2; cbn [obind option_map div_expr means fdiv R_scalar] in *; try exact I; auto;
      rewrite ?IHn1, ?IHn2; unfold Rdiv; try lra; rewrite ?Rinv_1; lra.
  - assert (E : tat (@den _ (R_scalar inf sp) (real_un inf sp) c (Contract axes n1 n2)) [] =
                tat (@den _ (R_scalar inf sp) (real_un inf sp) c n1) [] *
                tat (@den _ (R_scalar inf sp) (real_un inf sp) c n2) []).
    { destruct T; cbn [den]; destruct axes; unfold outer, inner.
      - cbn [tat]; rewrite !scalar_dims by auto; reflexivity.
      - rewrite !scalar_dims by auto; reflexivity. }
    rewrite E; destruct T, W.
    assert (Rg1 : @regular _ (R_scalar inf sp) (real_un inf sp) c n1) by (destruct axes; apply Rg).
    assert (Rg2 : @regular _ (R_scalar inf sp) (real_un inf sp) c n2) by (destruct axes; apply Rg).
    specialize (IHn1 H H1 Rg1); specialize (IHn2 H0 H2 Rg2).
    destruct axes as [|[|[|axes]]]; cbn [to_expr]; try exact I;
    (destruct (to_expr sym show n1) as [e1|]; [|exact I]; destruct (to_expr sym show n2) as [e2|]; [|exact I]);
    (destruct e1, e2; cbn [obind option_map prod_expr means] in *; try exact I; auto;
      rewrite ?IHn1, ?IHn2; lra).
Qed.

Lemma zero_one_sound (c c' : ctx R) n v :
  let S := R_scalar inf sp in
  sp Lgamma 1 = 1 -> sp Lloggamma 1 = 0 ->
  node_wf n -> ctx_wf c -> cache_free n = true -> scalar_ctx c -> scalar_tree n ->
  regular (real_un inf sp) c n -> no_wrong_constant sym show n ->
  evaluate n c = (c', Ok v) ->
  (to_expr sym show n = Some XZero -> v = VScal 0) /\
  (to_expr sym show n = Some XOne -> v = VScal 1).
Proof.
  intros S G1 G2 Wn Wc Cf Sc St Rg Nw E.
  destruct (value_real inf sp n c c' v Wn Wc Cf Rg E) as [Wv [D A]].
  pose proof (zero_one_den c n G1 G2 Sc St Nw Rg) as M.
  rewrite scalar_dims in D, A by auto; specialize (A [] (Forall2_nil _)).
  destruct v as [x| | |ds a]; cbn in D; try discriminate.
  2:{ subst ds; destruct Wv as [_ Wv]; cbn in Wv; lia. }
  cbn in A; split; intro Q; rewrite Q in M; cbn in M; rewrite <- M, <- A; reflexivity.
Qed.

End ZeroOne.

(** Special functions with some of the usual values. *)
Definition sp0 (l : libfn) (x : R) : R :=
  match l with Lgamma => 1 | Ldigamma => - (1 / 2) | _ => 0 end.

Lemma wrong_constants (inf : R) (sym : ident -> string) :
  (exists c : ctx R, let S := R_scalar inf sp0 in
     to_expr sym (fun _ => "") (Un Erf (VarAdj 0%nat 1%nat) : node R) = Some XOne /\
     evaluate (Un Erf (VarAdj 0%nat 1%nat)) c = (c, Ok (VScal 0)) /\
     to_expr sym (fun _ => "") (Un DiGamma (VarAdj 0%nat 0%nat) : node R) = Some XOne /\
     evaluate (Un DiGamma (VarAdj 0%nat 0%nat)) c = (c, Ok (VScal (- (1 / 2))))) /\
  (exists c : ctx Z, let S := Z_scalar in let n := Power (VarAdj 0%nat 1%nat) (VarAdj 0%nat 1%nat) in
     to_expr sym (fun _ => "") n = Some XZero /\ evaluate n c = (c, Ok (VScal 1%Z))) /\
  (exists c : ctx f64, let S := f64_scalar (fun x _ => x) (fun _ x => x) in
     let n := Div (VarAdj 0%nat 1%nat) (VarAdj 0%nat 1%nat) in
     to_expr sym (fun _ => "") n = Some XZero /\ evaluate n c = (c, Ok (VScal S754_nan))).
Proof.
  split; [|split].
  - exists (ctx2 (VScal 1) (VScal 2)); repeat split.
  - exists (ctx2 (VScal 1%Z) (VScal 2%Z)); split; vm_compute; reflexivity.
  - exists (ctx2 (VScal f64_zero) (VScal f64_zero)); split; vm_compute; reflexivity.
Qed.
