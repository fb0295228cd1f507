(** Derivatives of the primitive operations, and of the meaning of expressions. *)
From Coq Require Import List Arith ZArith Reals Bool Lia Lra FunctionalExtensionality.
Import ListNotations.
From Verif Require Import Base Shapes Scalar Buffers Spec Contraction Node Eval Types Instances
  Vocab Math Real_math Calculus Index_facts Shapes_facts Buffers_facts Typing_facts Eval_facts
  Math_facts Exact_facts Instance_facts Math_claims Adjoint_facts Zero_facts.
Local Open Scope R_scope.

(** * Functions of one real variable *)

Lemma lim_eq (f g : R -> R) x l l' :
  (forall y, f y = g y) -> l = l' -> derivable_pt_lim f x l -> derivable_pt_lim g x l'.
Proof. intros E -> H; eapply derivable_pt_lim_ext; eauto. Qed.

Lemma lim_const (f : R -> R) x a : (forall y, f y = a) -> derivable_pt_lim f x 0.
Proof. intro E; apply lim_eq with (f := fun _ => a) (l := 0); auto; apply derivable_pt_lim_const. Qed.

Lemma lim_chain (f g : R -> R) x l m :
  derivable_pt_lim g x m -> derivable_pt_lim f (g x) l -> derivable_pt_lim (fun h => f (g h)) x (l * m).
Proof. intros A B; exact (derivable_pt_lim_comp g f x m l A B). Qed.

Lemma near_eq (f g : R -> R) x l d :
  0 < d -> (forall y, Rabs (y - x) < d -> f y = g y) ->
  derivable_pt_lim f x l -> derivable_pt_lim g x l.
Proof.
  intros D E H; apply derivable_pt_lim_locally_ext with (f := f) (a := x - d) (b := x + d); auto; try lra.
  intros z Z; apply E; apply Rabs_def1; lra.
Qed.

Lemma lim_cont (f : R -> R) x l : derivable_pt_lim f x l -> continuity_pt f x.
Proof. intro H; apply derivable_continuous_pt; exists l; exact H. Qed.

Lemma near_pos (f : R -> R) x : continuity_pt f x -> 0 < f x ->
  exists d, 0 < d /\ forall y, Rabs (y - x) < d -> 0 < f y.
Proof.
  intros C P; destruct (C (f x)) as (d & D & H); [lra|]; exists d; split; [lra|]; intros y Y.
  destruct (Req_dec x y) as [->|N]; auto.
  specialize (H y); simpl in H; unfold R_dist, D_x, no_cond in H.
  assert (A : Rabs (f y - f x) < f x) by (apply H; auto); apply Rabs_def2 in A; lra.
Qed.

Lemma near_nonzero (f : R -> R) x : continuity_pt f x -> f x <> 0 ->
  exists d, 0 < d /\ forall y, Rabs (y - x) < d -> f y <> 0.
Proof.
  intros C N; destruct (near_pos (fun y => f y * f y) x) as (d & D & H).
  - apply continuity_pt_mult; auto.
  - apply Rsqr_pos_lt in N; auto.
  - exists d; split; auto; intros y Y E; specialize (H y Y); rewrite E in H; lra.
Qed.

Lemma powerRZ_lim x z : x <> 0 \/ (2 <= z)%Z ->
  derivable_pt_lim (fun y => powerRZ y z) x (IZR z * powerRZ x (z - 1)).
Proof.
  intro H; destruct z as [|p|p].
  - simpl; rewrite Rmult_0_l; apply derivable_pt_lim_const.
  - apply lim_eq with (f := fun y => y ^ (Pos.to_nat p)) (l := INR (Pos.to_nat p) * x ^ pred (Pos.to_nat p)).
    + auto.
    + rewrite INR_IPR, <- (INR_IPR p), INR_IZR_INZ, positive_nat_Z; f_equal.
      rewrite <- (positive_nat_Z p), pow_powerRZ; f_equal; lia.
    + apply derivable_pt_lim_pow.
  - destruct H as [N|]; [|lia].
    apply lim_eq with (f := fun y => 1 / (y ^ Pos.to_nat p))
      (l := (0 * x ^ Pos.to_nat p - INR (Pos.to_nat p) * x ^ pred (Pos.to_nat p) * 1) / (x ^ Pos.to_nat p)²).
    + intro y; simpl; unfold Rdiv; ring.
    + assert (Q : x ^ Pos.to_nat p <> 0) by (apply pow_nonzero; auto).
      change (IZR (Z.neg p)) with (- IZR (Z.pos p)); rewrite <- (positive_nat_Z p), <- INR_IZR_INZ.
      destruct (Pos2Nat.is_succ p) as (q & E).
      replace (powerRZ x (Z.neg p - 1)) with (/ (x ^ Pos.to_nat p * x)).
      * rewrite E; simpl pred; rewrite E in Q; cbn [pow] in Q |- *; unfold Rsqr.
        assert (x ^ q <> 0) by (apply pow_nonzero; auto); field; auto.
      * replace (Z.neg p - 1)%Z with (Z.neg (p + 1)) by lia; simpl.
        rewrite Pos2Nat.inj_add; rewrite pow_add; simpl; rewrite Rmult_1_r; auto.
    + apply derivable_pt_lim_div with (f1 := fun _ => 1) (f2 := fun y => y ^ Pos.to_nat p).
      * apply derivable_pt_lim_const.
      * apply derivable_pt_lim_pow.
      * apply pow_nonzero; auto.
Qed.

Lemma Rpower_lim (f g : R -> R) x a b :
  0 < f x -> derivable_pt_lim f x a -> derivable_pt_lim g x b ->
  derivable_pt_lim (fun h => Rpower (f h) (g h)) x
    (Rpower (f x) (g x - 1) * (g x * a + f x * ln (f x) * b)).
Proof.
  intros P A B; unfold Rpower.
  apply lim_eq with (f := fun h => exp (g h * ln (f h)))
    (l := exp (g x * ln (f x)) * (b * ln (f x) + g x * (/ f x * a))); auto.
  - replace ((g x - 1) * ln (f x)) with (g x * ln (f x) + - ln (f x)) by ring.
    rewrite exp_plus, exp_Ropp, exp_ln by auto; field; lra.
  - apply (lim_chain exp (fun h => g h * ln (f h))); [|apply derivable_pt_lim_exp].
    apply (derivable_pt_lim_mult g (fun h => ln (f h))); auto.
    apply (lim_chain ln f); auto; apply derivable_pt_lim_ln; auto.
Qed.

(** The power of the model. *)
Lemma R_pow_lim_pos (f g : R -> R) x a b :
  0 < f x -> derivable_pt_lim f x a -> derivable_pt_lim g x b ->
  derivable_pt_lim (fun h => R_pow (f h) (g h)) x
    (R_pow (f x) (g x - 1) * (g x * a + f x * ln (f x) * b)).
Proof.
  intros P A B; destruct (near_pos f x (lim_cont _ _ _ A) P) as (d & D & N).
  rewrite R_pow_pos by auto.
  apply near_eq with (f := fun h => Rpower (f h) (g h)) (d := d); auto.
  - intros y Y; rewrite R_pow_pos; auto.
  - apply Rpower_lim; auto.
Qed.

Lemma R_pow_lim_int (f g : R -> R) x a z :
  (forall y, g y = IZR z) -> f x <> 0 \/ (2 <= z)%Z -> derivable_pt_lim f x a ->
  derivable_pt_lim (fun h => R_pow (f h) (g h)) x (R_pow (f x) (g x - 1) * (g x * a)).
Proof.
  intros G H A; rewrite G; replace (IZR z - 1) with (IZR (z - 1)) by (rewrite minus_IZR; auto).
  rewrite R_pow_int.
  apply lim_eq with (f := fun h => powerRZ (f h) z) (l := IZR z * powerRZ (f x) (z - 1) * a).
  - intro y; rewrite G, R_pow_int; auto.
  - ring.
  - apply (lim_chain (fun y => powerRZ y z) f); auto; apply powerRZ_lim; auto.
Qed.

(** * Unary operators *)
Section Un.
Variables (inf : R) (sp : libfn -> R -> R).
Notation um := (real_un inf sp).

(** The derivative used by the code. *)
Definition un_deriv (u : unop) (x : R) : R :=
  match u with
  | SubOne | AddOne => 1
  | OneSub | Negate => -1
  | Square => x + x
  | Double => 2
  | Sign => um Dirac x
  | Abs => um Sign x
  | Ln => / x
  | XLnX => um Ln x + 1
  | Exp => exp x
  | Rabbit => 1 - (x + x)
  | Sigmoid => um Rabbit (um Sigmoid x)
  | Gamma => um DiGamma x * um Gamma x
  | LogGamma => um DiGamma x
  | Cos => - um Sin x
  | Sin => um Cos x
  | _ => 0
  end.

Lemma un_lim {F} u x (m m' : node F) n' :
  un_adjoint u m m' = Some n' -> smooth_at sp u x -> derivable_pt_lim (um u) x (un_deriv u x).
Proof.
  destruct u; simpl; intros A H; try discriminate; clear A.
  - (* SubOne *)
    apply lim_eq with (f := (id - fct_cte 1)%F) (l := 1 - 0); [reflexivity|ring|].
    apply derivable_pt_lim_minus; [apply derivable_pt_lim_id|apply derivable_pt_lim_const].
  - apply lim_eq with (f := (fct_cte 1 - id)%F) (l := 0 - 1); [reflexivity|ring|].
    apply derivable_pt_lim_minus; [apply derivable_pt_lim_const|apply derivable_pt_lim_id].
  - apply lim_eq with (f := (id + fct_cte 1)%F) (l := 1 + 0); [reflexivity|ring|].
    apply derivable_pt_lim_plus; [apply derivable_pt_lim_id|apply derivable_pt_lim_const].
  - apply lim_eq with (f := (id * id)%F) (l := 1 * id x + id x * 1); [reflexivity|unfold id; ring|].
    apply derivable_pt_lim_mult; apply derivable_pt_lim_id.
  - apply lim_eq with (f := (id + id)%F) (l := 1 + 1); [reflexivity|ring|].
    apply derivable_pt_lim_plus; apply derivable_pt_lim_id.
  - apply lim_eq with (f := (- id)%F) (l := - (1)); [reflexivity|ring|].
    apply derivable_pt_lim_opp; apply derivable_pt_lim_id.
  - (* Sign *)
    destruct (Req_EM_T x 0); [contradiction|].
    destruct (Rlt_dec x 0).
    + apply near_eq with (f := fun _ => -1) (d := - x); [lra| |apply derivable_pt_lim_const].
      intros y Y; apply Rabs_def2 in Y; cbn [real_un]; destruct (Rlt_dec y 0); [reflexivity|exfalso; lra].
    + apply near_eq with (f := fun _ => 1) (d := x); [lra| |apply derivable_pt_lim_const].
      intros y Y; apply Rabs_def2 in Y; cbn [real_un]; destruct (Rlt_dec y 0); [exfalso; lra|]; destruct (Rlt_dec 0 y); [reflexivity|exfalso; lra].
  - (* Abs *)
    apply lim_eq with (f := Rabs) (l := if Rlt_dec x 0 then -1 else 1).
    + intro y; cbn [real_un]; unfold Rmax; destruct (Rle_dec y (- y)); [rewrite Rabs_left1|rewrite Rabs_right]; lra.
    + destruct (Rlt_dec x 0); auto; destruct (Rlt_dec 0 x); auto; lra.
    + destruct (Rlt_dec x 0); [apply Rabs_derive_2|apply Rabs_derive_1]; lra.
  - apply derivable_pt_lim_ln; auto.
  - (* XLnX *)
    apply near_eq with (f := fun y => y * ln y) (d := x); auto.
    + intros y Y; apply Rabs_def2 in Y; cbn [real_un]; destruct (Rlt_dec 0 y); auto; lra.
    + apply lim_eq with (f := (id * ln)%F) (l := 1 * ln x + id x * / x); [reflexivity|unfold id; field; lra|].
      apply derivable_pt_lim_mult; [apply derivable_pt_lim_id|apply derivable_pt_lim_ln; auto].
  - apply derivable_pt_lim_exp.
  - (* Rabbit *)
    apply lim_eq with (f := (id - id * id)%F) (l := 1 - (1 * id x + id x * 1)); [reflexivity|unfold id; ring|].
    apply derivable_pt_lim_minus; [apply derivable_pt_lim_id|].
    apply derivable_pt_lim_mult; apply derivable_pt_lim_id.
  - (* Sigmoid *)
    assert (P : forall y, 0 < 1 + exp (- y)) by (intro y; assert (0 < exp (- y)) by apply exp_pos; lra).
    apply lim_eq with (f := fun y => 1 / (1 + exp (- y)))
      (l := (0 * (1 + exp (- x)) - (0 + exp (- x) * (- (1))) * 1) / (1 + exp (- x))²).
    + intro y; cbn [real_un]; unfold Rdiv; ring.
    + specialize (P x); unfold Rsqr; field; lra.
    + apply (derivable_pt_lim_div (fun _ => 1) (fun y => 1 + exp (- y))).
      * apply derivable_pt_lim_const.
      * apply (derivable_pt_lim_plus (fun _ => 1) (fun y => exp (- y))); [apply derivable_pt_lim_const|].
        apply (lim_chain exp (fun y => - y)); [|apply derivable_pt_lim_exp].
        apply (derivable_pt_lim_opp id); apply derivable_pt_lim_id.
      * specialize (P x); lra.
  - auto.
  - auto.
  - apply derivable_pt_lim_cos.
  - apply derivable_pt_lim_sin.
Qed.
End Un.

(** * Bumped contexts *)
Section Bump.
Variables (inf : R) (sp : libfn -> R -> R).
Notation den' := (rden inf sp).
Variables (c : ctx R) (t : ident).
Hypothesis W : ctx_wf c.

Lemma bump_bty j h v : bty_of (bump_value j h v) = bty_of v.
Proof. apply build_bty. Qed.

Lemma bump_wf j h v : vwf v -> vwf (bump_value j h v).
Proof. intro V; apply build_wf, vwf_bty, V. Qed.

Lemma bty_shape_v (v : value R) : bty_shape (bty_of v) = vshape v.
Proof. destruct v; auto. Qed.

Lemma bump_shape j h v : vshape (bump_value j h v) = vshape v.
Proof. rewrite <- !bty_shape_v, bump_bty; auto. Qed.

(** Outside its dimensions a buffer reads as zero (scalars ignore the index). *)
Lemma vat_out (v : value R) ix : vwf v -> bty_of v <> TS -> ~ in_box (dims (vshape v)) ix -> vat 0 v ix = 0.
Proof.
  intros V N B; destruct v; simpl in *; try congruence.
  - destruct ix as [|[|[|i]] [|j ix]]; auto; exfalso; apply B; repeat constructor.
  - destruct ix as [|i [|j ix]]; auto; apply nth_overflow.
    destruct (le_lt_dec (length l) i); auto; exfalso; apply B; repeat constructor; auto.
  - destruct V as [V _]; rewrite (arr_get_out _ _ _ V B); auto.
Qed.

Lemma vat_bump j h v ix : vwf v -> in_box (dims (vshape v)) ix ->
  vat 0 (bump_value j h v) ix = vat 0 v ix + (if ix_eqb ix j then h else 0).
Proof.
  intros V B; unfold bump_value; rewrite vat_build; auto; rewrite bty_shape_v; auto.
Qed.

Lemma vat_bump0 j v ix : vwf v -> vat 0 (bump_value j 0 v) ix = vat 0 v ix.
Proof.
  intro V; destruct (bty_of v) eqn:T; [destruct v; try discriminate; cbn [vat bump_value build bty_of]; destruct (ix_eqb [] j); ring| | | ];
    (destruct (in_boxb (dims (vshape v)) ix) eqn:B;
     [apply in_boxb_spec in B; rewrite vat_bump by auto; destruct (ix_eqb ix j); ring|]);
    (assert (NB : ~ in_box (dims (vshape v)) ix) by (rewrite <- in_boxb_spec; congruence));
    (rewrite !vat_out; auto; rewrite ?bump_bty, ?bump_shape, ?T; auto; try discriminate; apply bump_wf; auto).
Qed.

Lemma den_ext um (a b : ctx R) (S : Scalar R) n :
  (forall i, var_tensor a i = var_tensor b i) -> den um a n = den um b n.
Proof.
  intro E; induction n; cbn [den]; rewrite ?E, ?IHn, ?IHn1, ?IHn2; auto;
    destruct axes; rewrite ?IHn1, ?IHn2; auto.
Qed.

Lemma bump0 j n : den' (bump c t j 0) n = den' c n.
Proof.
  apply den_ext; intro i; unfold var_tensor, bump.
  destruct (Nat.eqb_spec i t); [subst|auto]; destruct (c t) as [v|] eqn:E; auto; simpl.
  unfold tensor_of; rewrite bump_shape; f_equal; extensionality ix; apply vat_bump0; eauto.
Qed.

Lemma bump_dims j h n : tdims (den' (bump c t j h) n) = tdims (den' c n).
Proof.
  assert (V : forall i, tdims (@var_tensor R (R_scalar inf sp) (bump c t j h) i)
                        = tdims (@var_tensor R (R_scalar inf sp) c i)).
  { intro i; unfold var_tensor, bump; destruct (Nat.eqb_spec i t); [subst|auto].
    destruct (c t); auto; simpl; rewrite bump_shape; auto. }
  unfold rden in *; induction n; cbn [den tdims pointwise]; rewrite ?V; auto; try congruence.
  - unfold pointwise; cbn [tdims]; rewrite IHn1, IHn2; auto.
  - unfold pointwise; cbn [tdims]; rewrite IHn1, IHn2; auto.
  - unfold pointwise; cbn [tdims]; rewrite IHn1, IHn2; auto.
  - unfold pointwise; cbn [tdims]; rewrite IHn1, IHn2; auto.
  - destruct axes; cbn [tdims outer]; [congruence|].
    unfold inner; rewrite IHn1, IHn2.
    destruct (tdims (den _ c n1)), (tdims (den _ c n2)); auto.
Qed.

Lemma bump_absent j h n : contains n t = false -> den' (bump c t j h) n = den' c n.
Proof.
  assert (V : forall i, i <> t -> @var_tensor R (R_scalar inf sp) (bump c t j h) i
                        = @var_tensor R (R_scalar inf sp) c i).
  { intros i N; unfold var_tensor, bump; destruct (Nat.eqb_spec i t); [congruence|auto]. }
  assert (E : forall i, ident_eqb i t = false -> i <> t).
  { intros i H ->; unfold ident_eqb in H; rewrite Nat.eqb_refl in H; discriminate. }
  unfold rden in *; induction n; cbn [contains den]; intro C;
    repeat match goal with H : _ || _ = false |- _ => apply orb_false_iff in H; destruct H end;
    rewrite ?V by auto; rewrite ?IHn, ?IHn1, ?IHn2 by auto; auto.
Qed.

(** * Entries of the pointwise operators *)
Lemma at_bc_pw f (a b : tensor R) ix :
  at_bc (pointwise f a b) ix = f (at_bc a ix) (at_bc b ix).
Proof.
  unfold at_bc, pointwise; cbn [tdims tat].
  destruct (tdims a) eqn:A; [destruct (tdims b) eqn:B|]; auto; unfold at_bc; rewrite ?A, ?B; auto.
Qed.

Lemma at_bc_in (a : tensor R) ix : in_box (tdims a) ix -> at_bc a ix = tat a ix.
Proof. unfold at_bc; destruct (tdims a); auto; intro B; apply in_box_nil in B; subst; auto. Qed.

Lemma at_bc_un u m ix : at_bc (den' c (Un u m)) ix = real_un inf sp u (at_bc (den' c m) ix).
Proof. reflexivity. Qed.

(** Index of an operand of dimensions [d] within a result. *)
Definition sub_ix (d i : list nat) : list nat := match d with [] => [] | _ => i end.

Lemma at_bc_sub (a : tensor R) i : at_bc a i = tat a (sub_ix (tdims a) i).
Proof. reflexivity. Qed.

Lemma sub_box a d i : a = [] \/ a = d -> in_box d i -> in_box a (sub_ix a i).
Proof. intros [->| ->] B; [constructor|]; destruct d; auto; simpl; constructor. Qed.

Lemma bc_split (a : tensor R) dl d T i j :
  tdims a = (dl ++ T)%list -> in_box d i -> in_box T j -> dl = [] \/ dl = d -> T = [] \/ dl = d ->
  at_bc a (i ++ j) = tat a (sub_ix dl i ++ j).
Proof.
  intros A Bi Bj D E; rewrite at_bc_sub, A; f_equal.
  destruct dl as [|x dl]; cbn [app sub_ix]; auto.
  destruct T as [|y T].
  - apply in_box_nil in Bj; subst; auto.
  - destruct E as [E|E]; [discriminate|]; subst; apply in_box_nil in Bi; subst; auto.
Qed.

Lemma bc_plain (a : tensor R) d T i j :
  tdims a = d -> in_box T j -> T = [] \/ d = [] -> at_bc a (i ++ j) = tat a (sub_ix d i).
Proof.
  intros A Bj D; rewrite at_bc_sub, A; f_equal; destruct d; auto; cbn [sub_ix].
  destruct D as [->|]; [|discriminate]; apply in_box_nil in Bj; subst; apply app_nil_r.
Qed.

End Bump.

(** * Dimensions from types *)
Lemma zip_sty_back kl kr k d : zip_sty kl kr = Some k -> sty_dims k = Some d ->
  exists a b, sty_dims kl = Some a /\ sty_dims kr = Some b.
Proof.
  destruct kl, kr; simpl; intros Z D; try discriminate; try (inversion Z; subst; discriminate); eauto.
Qed.
Lemma contract_sty_back axes kl kr k : contract_sty axes kl kr = Some k ->
  exists a b, sty_dims kl = Some a /\ sty_dims kr = Some b.
Proof.
  destruct kl, kr, axes as [|[|axes]]; simpl; intros Z; try discriminate; eauto;
  destruct ds as [|? [|? [|? ?]]]; discriminate.
Qed.

Lemma sty_dims_v (v : value R) d : sty_dims (sty_of (bty_of v)) = Some d -> dims (vshape v) = d.
Proof. destruct v; simpl; intro H; inversion H; auto. Qed.

Section Typed.
Context {F : Type} {SF : Scalar F}.
Variables (um : unop -> F -> F) (G : tenv) (c : ctx F).
Hypothesis OK : ctx_ok G c.

Lemma sty_dims_val (v : value F) d : sty_dims (sty_of (bty_of v)) = Some d -> dims (vshape v) = d.
Proof. destruct v; simpl; intro H; inversion H; auto. Qed.

Lemma var_dims i k d : c i <> None -> G i = Some k -> sty_dims k = Some d ->
  tdims (var_tensor c i) = d.
Proof.
  intros N Gi D; unfold var_tensor; destruct (c i) as [v|] eqn:E; [|congruence].
  destruct (OK i v E) as [_ E']; assert (k = sty_of (bty_of v)) by congruence; subst.
  apply sty_dims_val; auto.
Qed.

Lemma typed_dims n k d :
  typeof G n = Some k -> sty_dims k = Some d -> square G n -> (forall i, uses n i -> c i <> None) ->
  tdims (den um c n) = d.
Proof.
  revert k d; induction n; intros k0 d Ty D Sq U; cbn [typeof square uses den] in *.
  - eapply var_dims; eauto.
  - apply obind_some in Ty; destruct Ty as (ki & Ki & Ty); apply obind_some in Ty; destruct Ty as (kt & Kt & Ty).
    destruct (self_concat ki); [|discriminate]; apply adj_sty_dims in Ty; destruct Ty as (a & b & A & B & E).
    cbn [tdims]; erewrite (var_dims i), (var_dims t); eauto; congruence.
  - inversion Ty; subst; apply sty_dims_val; auto.
  - inversion Ty; subst; destruct s; cbn [tensor_of_spec tdims spec_bty] in *.
    + apply sty_dims_val; auto.
    + destruct t; simpl in *; inversion D; auto.
    + destruct t; simpl in *; inversion D; auto.
  - apply obind_some in Ty; destruct Ty as (ki & Ki & Ty); apply obind_some in Ty; destruct Ty as (kt & Kt & Ty).
    apply adj_sty_dims in Ty; destruct Ty as (a & b & A & B & E).
    cbn [tdims]; erewrite IHn, (var_dims t); eauto; congruence.
  - apply obind_some in Ty; destruct Ty as (ki & Ki & Ty); apply obind_some in Ty; destruct Ty as (kt & Kt & Ty).
    apply cached_type in Ty; subst; eauto.
  - cbn [tdims]; eauto.
  - apply obind_some in Ty; destruct Ty as (ki & Ki & Ty); inversion Ty; subst; simpl in D; inversion D; auto.
  - apply obind_some in Ty; destruct Ty as (ki & Ki & Ty); apply obind_some in Ty; destruct Ty as (kt & Kt & Ty).
    destruct ki, kt; try discriminate; inversion Ty; subst; simpl in D; inversion D; auto.
  - apply obind_some in Ty; destruct Ty as (kl & Kl & Ty); apply obind_some in Ty; destruct Ty as (kr & Kr & Ty).
    destruct (zip_sty_back _ _ _ _ Ty D) as (a & b & A & B), (zip_sty_dims _ _ _ _ _ Ty A B) as (d' & D' & Z).
    assert (d' = d) by congruence; subst; destruct Sq.
    unfold pointwise; cbn [tdims]; rewrite (IHn1 kl a), (IHn2 kr b) by auto.
    destruct Z as [[-> ->]|[[-> ->]|[-> ->]]]; auto; match goal with |- match ?x with _ => _ end = _ => destruct x end; auto.
  - apply obind_some in Ty; destruct Ty as (kl & Kl & Ty); apply obind_some in Ty; destruct Ty as (kr & Kr & Ty).
    destruct (zip_sty_back _ _ _ _ Ty D) as (a & b & A & B), (zip_sty_dims _ _ _ _ _ Ty A B) as (d' & D' & Z).
    assert (d' = d) by congruence; subst; destruct Sq.
    unfold pointwise; cbn [tdims]; rewrite (IHn1 kl a), (IHn2 kr b) by auto.
    destruct Z as [[-> ->]|[[-> ->]|[-> ->]]]; auto; match goal with |- match ?x with _ => _ end = _ => destruct x end; auto.
  - apply obind_some in Ty; destruct Ty as (kl & Kl & Ty); apply obind_some in Ty; destruct Ty as (kr & Kr & Ty).
    destruct (zip_sty_back _ _ _ _ Ty D) as (a & b & A & B), (zip_sty_dims _ _ _ _ _ Ty A B) as (d' & D' & Z).
    assert (d' = d) by congruence; subst; destruct Sq.
    unfold pointwise; cbn [tdims]; rewrite (IHn1 kl a), (IHn2 kr b) by auto.
    destruct Z as [[-> ->]|[[-> ->]|[-> ->]]]; auto; match goal with |- match ?x with _ => _ end = _ => destruct x end; auto.
  - apply obind_some in Ty; destruct Ty as (kl & Kl & Ty); apply obind_some in Ty; destruct Ty as (kr & Kr & Ty).
    destruct (zip_sty_back _ _ _ _ Ty D) as (a & b & A & B), (zip_sty_dims _ _ _ _ _ Ty A B) as (d' & D' & Z).
    assert (d' = d) by congruence; subst; destruct Sq.
    unfold pointwise; cbn [tdims]; rewrite (IHn1 kl a), (IHn2 kr b) by auto.
    destruct Z as [[-> ->]|[[-> ->]|[-> ->]]]; auto; match goal with |- match ?x with _ => _ end = _ => destruct x end; auto.
  - apply obind_some in Ty; destruct Ty as (kl & Kl & Ty); apply obind_some in Ty; destruct Ty as (kr & Kr & Ty).
    destruct (contract_sty_back _ _ _ _ Ty) as (a & b & A & B), (contract_sty_dims _ _ _ _ _ _ Ty A B) as (d' & D' & Z).
    assert (d' = d) by congruence; subst; destruct Sq as (S1 & S2 & S3); specialize (S3 kl kr Kl Kr).
    destruct axes as [|axes].
    + cbn [tdims outer]; rewrite (IHn1 kl a), (IHn2 kr b) by auto; simpl in Z; auto.
    + destruct axes as [|axes]; [|destruct kl, kr; discriminate].
      unfold inner; rewrite (IHn1 kl a), (IHn2 kr b) by auto.
      destruct Z as [(-> & -> & ->)|[(n & -> & -> & ->)|[(n & m & -> & -> & ->)|[(n & z & m & -> & -> & ->)|(n & m & -> & -> & ->)]]]];
        cbn [tdims removelast app tl]; auto.
      * destruct kl, kr; try discriminate; simpl in A, B; inversion A; inversion B; subst; simpl in S3; subst; auto; discriminate Ty.
Qed.
End Typed.
