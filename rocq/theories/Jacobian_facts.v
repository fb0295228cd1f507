(** The meaning of the adjoint is the Jacobian of the meaning. *)
From Coq Require Import List Arith ZArith Reals Bool Lia Lra FunctionalExtensionality.
Import ListNotations.
From Verif Require Import Base Shapes Scalar Buffers Spec Contraction Node Eval Types Instances
  Vocab Math Real_math Calculus Index_facts Shapes_facts Buffers_facts Typing_facts Eval_facts
  Math_facts Exact_facts Instance_facts Math_claims Adjoint_facts Zero_facts Calculus_facts.
Local Open Scope R_scope.

Lemma adjoint_uses {F} (n n' : node F) t i : adjoint n t = Some n' -> uses n' i -> uses n i \/ i = t.
Proof.
  revert n'; induction n; intros n' A U; cbn [adjoint] in A; cbn [uses].
  7:{ apply obind_some in A; destruct A as (m' & A & B).
      destruct u; cbn [un_adjoint] in B; try discriminate; injection B as B; subst n'; cbn [uses] in U;
        intuition eauto. }
  6:{ destruct (ident_eqb k t); [eauto|discriminate]. }
  all: try discriminate A; adj_inv A; cbn [uses] in U; 
    repeat match type of U with _ \/ _ => destruct U as [U|U] | False => destruct U end; auto;
    match goal with
    | IH : forall n', _ = Some n' -> _ |- _ => destruct (IH _ eq_refl U); auto
    | IH : forall n', _ = Some n' -> _ |- _ => destruct (IH _ A U); auto
    end.
Qed.

Lemma in_box_both d T i j : in_box d i -> in_box T j -> in_box (d ++ T) (i ++ j).
Proof. intros; unfold in_box in *; apply Forall2_app; auto. Qed.

Lemma in_box_split d T i : in_box (d ++ T) i -> exists x y, i = (x ++ y)%list /\ in_box d x /\ in_box T y.
Proof.
  intro B; apply in_box_app in B; exists (firstn (length d) i), (skipn (length d) i).
  rewrite firstn_skipn; tauto.
Qed.

Lemma sub_ix_in d i : in_box d i -> sub_ix d i = i.
Proof. destruct d; auto; intro B; apply in_box_nil in B; auto. Qed.

Lemma sum_lim (A : Type) (inf : R) sp (l : list A) (f : A -> R -> R) (g : A -> R) x :
  (forall a, In a l -> derivable_pt_lim (f a) x (g a)) ->
  derivable_pt_lim (fun h => @sum_over R (R_scalar inf sp) A l (fun a => f a h)) x
                   (@sum_over R (R_scalar inf sp) A l g).
Proof.
  induction l as [|a l IH]; intro H.
  - apply lim_const with (a := 0); reflexivity.
  - rewrite (sum_over_cons (R_exact inf sp)).
    apply lim_eq with (f := fun h => f a h + @sum_over R (R_scalar inf sp) A l (fun a => f a h))
      (l := g a + @sum_over R (R_scalar inf sp) A l g); auto.
    + intro y; rewrite (sum_over_cons (R_exact inf sp)); reflexivity.
    + apply (derivable_pt_lim_plus (f a)); [apply H; left; auto|apply IH; intros; apply H; right; auto].
Qed.

Section Jacobian.
Variables (inf : R) (sp : libfn -> R -> R) (G : tenv) (c : ctx R) (t : ident) (T : list nat) (kt : sty).
Notation den' := (rden inf sp).
Notation S0 := (R_scalar inf sp).
Hypothesis OK : ctx_ok G c.
Hypothesis Ct : c t <> None.
Hypothesis Gt : G t = Some kt.
Hypothesis DT : sty_dims kt = Some T.

Let W : ctx_wf c.
Proof. intros i v E; destruct (OK i v E); auto. Qed.

(** [n'] is the Jacobian of [n], of dimensions [d]. *)
Definition jac (n n' : node R) (d : list nat) : Prop :=
  forall i j, in_box d i -> in_box T j ->
    derivable_pt_lim (fun h => tat (den' (bump c t j h) n) i) 0 (tat (den' c n') (i ++ j)).

Lemma t_dims : tdims (den' c (Var t)) = T.
Proof. unfold rden; cbn [den]; eapply var_dims; eauto. Qed.

Lemma jac_at l l' dl d i j :
  jac l l' dl -> tdims (den' c l) = dl -> in_box d i -> in_box T j -> dl = [] \/ dl = d ->
  derivable_pt_lim (fun h => at_bc (den' (bump c t j h) l) i) 0 (tat (den' c l') (sub_ix dl i ++ j)).
Proof.
  intros J D Bi Bj E.
  apply lim_eq with (f := fun h => tat (den' (bump c t j h) l) (sub_ix dl i))
                    (l := tat (den' c l') (sub_ix dl i ++ j)); auto.
  - intro h; rewrite at_bc_sub, bump_dims, D; auto.
  - apply J; auto; eapply sub_box; eauto.
Qed.

Lemma bump0_at j l i : at_bc (den' (bump c t j 0) l) i = at_bc (den' c l) i.
Proof. rewrite bump0; auto. Qed.

Lemma zip_sub a b d : zip_dims a b d -> (a = [] \/ a = d) /\ (b = [] \/ b = d).
Proof. unfold zip_dims; intuition subst; auto. Qed.

Lemma jac_var i d : tdims (den' c (Var i)) = d -> c i <> None -> jac (Var i) (VarAdj i t) d.
Proof.
  intros D Ci ix j Bi Bj; unfold rden in *; cbn [den tat tdims] in *; rewrite D.
  assert (L : length d = length ix) by (symmetry; apply in_box_length; auto).
  rewrite L, firstn_length_app, skipn_length_app.
  destruct (Nat.eqb_spec i t) as [->|N]; cbn [andb].
  - unfold var_tensor, bump in *; rewrite Nat.eqb_refl.
    destruct (c t) as [v|] eqn:E; [|congruence]; cbn [option_map tensor_of tat tdims] in *; subst d.
    apply lim_eq with (f := (fct_cte (vat 0 v ix) + (if ix_eqb ix j then id else fct_cte 0))%F)
      (l := 0 + if ix_eqb ix j then 1 else 0).
    + intro h; unfold plus_fct, fct_cte; symmetry; cbn [fzero R_scalar]; rewrite vat_bump; eauto.
      destruct (ix_eqb ix j); reflexivity.
    + cbn [fzero fone R_scalar]; destruct (ix_eqb ix j); ring.
    + apply derivable_pt_lim_plus; [apply derivable_pt_lim_const|].
      destruct (ix_eqb ix j); [apply derivable_pt_lim_id|apply derivable_pt_lim_const].
  - apply lim_const with (a := tat (@var_tensor R S0 c i) ix); intro y; unfold var_tensor, bump.
    destruct (Nat.eqb_spec i t); [congruence|auto].
Qed.

Lemma jac_const n d : (forall j h, tat (den' (bump c t j h) n) = tat (den' c n)) -> jac n (ConstAdj n t) d.
Proof.
  intros E ix j Bi Bj; cbn; apply lim_const with (a := tat (den' c n) ix); intro h; rewrite E; auto.
Qed.

Lemma jac_varadj i u d : jac (VarAdj i u) (ConstAdj (VarAdj i u) t) d.
Proof.
  apply jac_const; intros j h; extensionality ix; unfold rden; cbn [den tat].
  assert (E := bump_dims inf sp c t j h (Var i)); unfold rden in E; cbn [den] in E; rewrite E; auto.
Qed.

(** ** Unary operators *)
Lemma jac_un u m m' d n0 :
  jac m m' d -> un_adjoint u m m' = Some n0 -> (forall i, in_box d i -> smooth_at sp u (tat (den' c m) i)) ->
  forall i j, in_box d i -> in_box T j ->
    derivable_pt_lim (fun h => tat (den' (bump c t j h) (Un u m)) i) 0
      (un_deriv inf sp u (tat (den' c m) i) * tat (den' c m') (i ++ j)).
Proof.
  intros J A Sm i j Bi Bj; unfold rden at 1; cbn [den tat].
  apply (lim_chain (real_un inf sp u) (fun h => tat (den' (bump c t j h) m) i)); [apply J; auto|].
  cbn beta; rewrite bump0 by auto; eapply un_lim; eauto.
Qed.

(** The value of the adjoint of a unary operator. *)
Lemma un_value u m m' n' d i j :
  un_adjoint u m m' = Some n' -> tdims (den' c m) = d -> tdims (den' c m') = (d ++ T)%list ->
  in_box d i -> in_box T j ->
  (match u with SubOne | OneSub | AddOne | Double | Negate => True | _ => d = [] \/ T = [] end) ->
  tat (den' c n') (i ++ j) = un_deriv inf sp u (tat (den' c m) i) * tat (den' c m') (i ++ j).
Proof.
  intros A D D' Bi Bj E.
  assert (M : d = [] \/ T = [] -> at_bc (den' c m) (i ++ j) = tat (den' c m) i).
  { intro Q; rewrite (bc_plain _ d T) by (auto; tauto); rewrite sub_ix_in; auto. }
  assert (M' : at_bc (den' c m') (i ++ j) = tat (den' c m') (i ++ j)).
  { apply at_bc_in; rewrite D'; apply in_box_both; auto. }
  assert (PW : forall f (a b : tensor R), tat (@pointwise R f a b) (i ++ j) = f (at_bc a (i ++ j)) (at_bc b (i ++ j)))
    by reflexivity.
  destruct u; cbn [un_adjoint] in A; try discriminate; injection A as A; subst n'; unfold rden in *; cbn [den un_deriv];
    rewrite ?PW; cbn [tat]; try specialize (M E);
    repeat (rewrite PW || rewrite at_bc_pw);
    unfold at_bc in *; cbn [tdims tat] in *; rewrite ?M, ?M'; cbn [real_un fmul fadd fsub fdiv R_scalar]; try ring.
  unfold Rdiv; ring.
Qed.

(** ** Elementwise operators *)
Section Pair.
Variables (l l' r r' : node R) (dl dr d : list nat).
Hypothesis Jl : jac l l' dl.
Hypothesis Jr : jac r r' dr.
Hypothesis Dl : tdims (den' c l) = dl.
Hypothesis Dr : tdims (den' c r) = dr.
Hypothesis Dl' : tdims (den' c l') = (dl ++ T)%list.
Hypothesis Dr' : tdims (den' c r') = (dr ++ T)%list.
Hypothesis Z : zip_dims dl dr d.

Lemma pair_l i j : in_box d i -> in_box T j ->
  derivable_pt_lim (fun h => at_bc (den' (bump c t j h) l) i) 0 (tat (den' c l') (sub_ix dl i ++ j)).
Proof. intros; eapply jac_at; eauto; apply zip_sub in Z; tauto. Qed.
Lemma pair_r i j : in_box d i -> in_box T j ->
  derivable_pt_lim (fun h => at_bc (den' (bump c t j h) r) i) 0 (tat (den' c r') (sub_ix dr i ++ j)).
Proof. intros; eapply jac_at; eauto; apply zip_sub in Z; tauto. Qed.

Lemma jac_add : T = [] \/ dl = dr -> jac (Add l r) (Add l' r') d.
Proof.
  intros E i j Bi Bj.
  assert (Q := zip_sub _ _ _ Z).
  assert (E' : (T = [] \/ dl = d) /\ (T = [] \/ dr = d)).
  { destruct E as [->| ->]; auto; unfold zip_dims in Z; intuition subst; auto. }
  apply lim_eq with (f := ((fun h => at_bc (den' (bump c t j h) l) i) + (fun h => at_bc (den' (bump c t j h) r) i))%F)
    (l := tat (den' c l') (sub_ix dl i ++ j) + tat (den' c r') (sub_ix dr i ++ j)).
  - reflexivity.
  - rewrite <- (bc_split (den' c l') dl d T i j), <- (bc_split (den' c r') dr d T i j) by tauto; reflexivity.
  - apply derivable_pt_lim_plus; [apply pair_l|apply pair_r]; auto.
Qed.

Lemma jac_sub : T = [] \/ dl = dr -> jac (Sub l r) (Sub l' r') d.
Proof.
  intros E i j Bi Bj.
  assert (Q := zip_sub _ _ _ Z).
  assert (E' : (T = [] \/ dl = d) /\ (T = [] \/ dr = d)).
  { destruct E as [->| ->]; auto; unfold zip_dims in Z; intuition subst; auto. }
  apply lim_eq with (f := ((fun h => at_bc (den' (bump c t j h) l) i) - (fun h => at_bc (den' (bump c t j h) r) i))%F)
    (l := tat (den' c l') (sub_ix dl i ++ j) - tat (den' c r') (sub_ix dr i ++ j)).
  - reflexivity.
  - rewrite <- (bc_split (den' c l') dl d T i j), <- (bc_split (den' c r') dr d T i j) by tauto; reflexivity.
  - apply derivable_pt_lim_minus; [apply pair_l|apply pair_r]; auto.
Qed.

Hypothesis E : T = [] \/ (dl = [] /\ dr = []).

Lemma pair_vals i j : in_box d i -> in_box T j ->
  at_bc (den' c l) (i ++ j) = at_bc (den' c l) i /\ at_bc (den' c r) (i ++ j) = at_bc (den' c r) i /\
  at_bc (den' c l') (i ++ j) = tat (den' c l') (sub_ix dl i ++ j) /\
  at_bc (den' c r') (i ++ j) = tat (den' c r') (sub_ix dr i ++ j).
Proof.
  intros Bi Bj; assert (Q := zip_sub _ _ _ Z).
  assert (dd : dl = [] /\ dr = [] -> d = []) by (unfold zip_dims in Z; intuition congruence).
  split; [|split; [|split]].
  - rewrite (bc_plain (den' c l) dl T i j) by (auto; tauto); rewrite at_bc_sub, Dl; auto.
  - rewrite (bc_plain (den' c r) dr T i j) by (auto; tauto); rewrite at_bc_sub, Dr; auto.
  - apply (bc_split (den' c l') dl d T i j); auto; try tauto.
    destruct E as [?|[? ?]]; auto; right; rewrite dd; tauto.
  - apply (bc_split (den' c r') dr d T i j); auto; try tauto.
    destruct E as [?|[? ?]]; auto; right; rewrite dd; tauto.
Qed.

Lemma jac_mul : jac (Mul l r) (Add (Mul l' r) (Mul r' l)) d.
Proof.
  intros i j Bi Bj; destruct (pair_vals i j Bi Bj) as (V1 & V2 & V3 & V4).
  apply lim_eq with (f := ((fun h => at_bc (den' (bump c t j h) l) i) * (fun h => at_bc (den' (bump c t j h) r) i))%F)
    (l := tat (den' c l') (sub_ix dl i ++ j) * at_bc (den' (bump c t j 0) r) i
          + at_bc (den' (bump c t j 0) l) i * tat (den' c r') (sub_ix dr i ++ j)).
  - reflexivity.
  - rewrite !bump0 by auto.
    transitivity (at_bc (den' c l') (i ++ j) * at_bc (den' c r) (i ++ j)
                  + at_bc (den' c r') (i ++ j) * at_bc (den' c l) (i ++ j)).
    + rewrite V1, V2, V3, V4; ring.
    + unfold rden; cbn [den]; symmetry; change (tat (pointwise fadd ?a ?b) ?x) with (@fadd R S0 (at_bc a x) (at_bc b x)).
      rewrite !at_bc_pw; reflexivity.
  - apply (derivable_pt_lim_mult (fun h => at_bc (den' (bump c t j h) l) i) (fun h => at_bc (den' (bump c t j h) r) i));
      [apply pair_l|apply pair_r]; auto.
Qed.

Lemma jac_div : (forall i, in_box dr i -> tat (den' c r) i <> 0) ->
  jac (Div l r) (Div (Sub (Mul r l') (Mul l r')) (Un Square r)) d.
Proof.
  intros NZ i j Bi Bj; destruct (pair_vals i j Bi Bj) as (V1 & V2 & V3 & V4).
  assert (N0 : at_bc (den' c r) i <> 0).
  { rewrite at_bc_sub, Dr; apply NZ; apply (sub_box dr d i); auto; apply zip_sub in Z; tauto. }
  apply lim_eq with (f := ((fun h => at_bc (den' (bump c t j h) l) i) / (fun h => at_bc (den' (bump c t j h) r) i))%F)
    (l := (tat (den' c l') (sub_ix dl i ++ j) * at_bc (den' (bump c t j 0) r) i
          - tat (den' c r') (sub_ix dr i ++ j) * at_bc (den' (bump c t j 0) l) i)
          / (at_bc (den' (bump c t j 0) r) i)²).
  - reflexivity.
  - rewrite !bump0 by auto.
    transitivity ((at_bc (den' c r) (i ++ j) * at_bc (den' c l') (i ++ j)
                  - at_bc (den' c l) (i ++ j) * at_bc (den' c r') (i ++ j))
                  / (at_bc (den' c r) (i ++ j) * at_bc (den' c r) (i ++ j))).
    + rewrite V1, V2, V3, V4; unfold Rsqr; field; auto.
    + unfold rden; cbn [den]; symmetry; change (tat (pointwise fdiv ?a ?b) ?x) with (@fdiv R S0 (at_bc a x) (at_bc b x)).
      rewrite !at_bc_pw; reflexivity.
  - apply (derivable_pt_lim_div (fun h => at_bc (den' (bump c t j h) l) i) (fun h => at_bc (den' (bump c t j h) r) i));
      [apply pair_l|apply pair_r|rewrite bump0]; auto.
Qed.
End Pair.

(** ** Power *)
Lemma jac_power b b' e e' :
  jac b b' [] -> jac e e' [] ->
  tdims (den' c b) = [] -> tdims (den' c e) = [] -> tdims (den' c b') = T -> tdims (den' c e') = T ->
  (0 < tat (den' c b) [] \/
   contains e t = false /\ exists z, tat (den' c e) [] = IZR z /\ (tat (den' c b) [] <> 0 \/ (2 <= z)%Z)) ->
  jac (Power b e) (Mul (Power b (Un SubOne e)) (Add (Mul e b') (Mul (Un XLnX b) e'))) [].
Proof.
  intros Jb Je Db De Db' De' Sm i j Bi Bj; apply in_box_nil in Bi; subst i; cbn [app].
  assert (X : forall a, tdims a = T -> @at_bc R a j = tat a j).
  { intros a Q; apply at_bc_in; rewrite Q; auto. }
  assert (Y : forall n, tdims (den' c n) = [] -> at_bc (den' c n) j = tat (den' c n) []).
  { intros n Q; unfold at_bc; rewrite Q; auto. }
  assert (V : tat (den' c (Mul (Power b (Un SubOne e)) (Add (Mul e b') (Mul (Un XLnX b) e')))) j =
    R_pow (tat (den' c b) []) (tat (den' c e) [] - 1) *
      (tat (den' c e) [] * tat (den' c b') j + real_un inf sp XLnX (tat (den' c b) []) * tat (den' c e') j)).
  { unfold rden in *; cbn [den].
    change (tat (pointwise fmul ?a ?b) ?x) with (@fmul R S0 (at_bc a x) (at_bc b x)).
    rewrite !at_bc_pw, (X _ Db'), (X _ De'), (Y e De).
    unfold at_bc; cbn [tdims tat]; rewrite Db; reflexivity. }
  rewrite V; specialize (Jb [] j); specialize (Je [] j); cbn [app] in Jb, Je.
  assert (B0 : in_box [] []) by constructor; specialize (Jb B0 Bj); specialize (Je B0 Bj).
  unfold rden at 1; cbn [den tat]; change (@fpow R S0) with R_pow.
  destruct Sm as [P|(Ab & z & Ez & Sm)].
  - assert (H := R_pow_lim_pos (fun h => tat (den' (bump c t j h) b) []) (fun h => tat (den' (bump c t j h) e) []) 0
       (tat (den' c b') j) (tat (den' c e') j)); cbn beta in H; rewrite !bump0 in H by auto.
    cbn [real_un]; destruct (Rlt_dec 0 (tat (den' c b) [])); [|contradiction]; apply H; auto.
  - assert (E0 : tat (den' c e') j = 0).
    { eapply uniqueness_limite; [exact Je|]; apply lim_const with (a := tat (den' c e) []).
      intro h; rewrite bump_absent; auto. }
    assert (H := R_pow_lim_int (fun h => tat (den' (bump c t j h) b) []) (fun h => tat (den' (bump c t j h) e) []) 0
       (tat (den' c b') j) z); cbn beta in H; rewrite !bump0 in H by auto.
    rewrite E0, Rmult_0_r, Rplus_0_r; apply H; auto.
    intro y; rewrite bump_absent; auto.
Qed.

(** ** Contractions *)
Lemma prod_lim l r p q j a b :
  derivable_pt_lim (fun h => tat (den' (bump c t j h) l) p) 0 a ->
  derivable_pt_lim (fun h => tat (den' (bump c t j h) r) q) 0 b ->
  derivable_pt_lim (fun h => tat (den' (bump c t j h) l) p * tat (den' (bump c t j h) r) q) 0
    (tat (den' c l) p * b + a * tat (den' c r) q).
Proof.
  intros A B.
  apply lim_eq with (f := ((fun h => tat (den' (bump c t j h) l) p) * (fun h => tat (den' (bump c t j h) r) q))%F)
    (l := a * tat (den' (bump c t j 0) r) q + tat (den' (bump c t j 0) l) p * b).
  - reflexivity.
  - rewrite !bump0 by auto; ring.
  - apply (derivable_pt_lim_mult (fun h => tat (den' (bump c t j h) l) p)); auto.
Qed.

Lemma sum_prod_lim l r N (p q : nat -> list nat) j (a b : nat -> R) :
  (forall k, (k < N)%nat -> derivable_pt_lim (fun h => tat (den' (bump c t j h) l) (p k)) 0 (a k)) ->
  (forall k, (k < N)%nat -> derivable_pt_lim (fun h => tat (den' (bump c t j h) r) (q k)) 0 (b k)) ->
  derivable_pt_lim
    (fun h => @sum_over R S0 nat (seq 0 N) (fun k => tat (den' (bump c t j h) l) (p k) * tat (den' (bump c t j h) r) (q k))) 0
    (@sum_over R S0 nat (seq 0 N) (fun k => tat (den' c l) (p k) * b k)
     + @sum_over R S0 nat (seq 0 N) (fun k => a k * tat (den' c r) (q k))).
Proof.
  intros A B.
  change (?x + ?y) with (@fadd R S0 x y); rewrite <- (sum_over_add (R_exact inf sp)).
  apply (sum_lim nat inf sp (seq 0 N) (fun k h => tat (den' (bump c t j h) l) (p k) * tat (den' (bump c t j h) r) (q k))
          (fun k => tat (den' c l) (p k) * b k + a k * tat (den' c r) (q k))).
  intros k K; apply in_seq in K; apply prod_lim; [apply A|apply B]; lia.
Qed.

Lemma jac_outer l l' r r' dl dr :
  jac l l' dl -> jac r r' dr -> tdims (den' c l) = dl -> tdims (den' c r) = dr ->
  tdims (den' c l') = (dl ++ T)%list -> tdims (den' c r') = (dr ++ T)%list ->
  (dr ++ T = T ++ dr)%list -> T = [] \/ dr = [] \/ contains l t = false ->
  jac (Contract 0 l r) (Add (Contract 0 l r') (Contract 0 l' r)) (dl ++ dr).
Proof.
  intros Jl Jr Dl Dr Dl' Dr' P E i j Bi Bj.
  apply in_box_split in Bi; destruct Bi as (i1 & i2 & -> & B1 & B2).
  assert (L1 : length dl = length i1) by (symmetry; apply in_box_length; auto).
  apply lim_eq with (f := fun h => tat (den' (bump c t j h) l) i1 * tat (den' (bump c t j h) r) i2)
    (l := tat (den' c l) i1 * tat (den' c r') (i2 ++ j) + tat (den' c l') (i1 ++ j) * tat (den' c r) i2).
  - intro h; change (den' (bump c t j h) (Contract 0 l r)) with
      (@outer R S0 (den' (bump c t j h) l) (den' (bump c t j h) r)).
    cbn [outer tat]; rewrite bump_dims, Dl, L1, firstn_length_app, skipn_length_app; auto.
  - assert (IB : in_box (dl ++ dr ++ T) ((i1 ++ i2) ++ j)).
    { rewrite <- app_assoc; apply in_box_both; auto; apply in_box_both; auto. }
    change (den' c (Add (Contract 0 l r') (Contract 0 l' r))) with
      (@pointwise R Rplus (@outer R S0 (den' c l) (den' c r')) (@outer R S0 (den' c l') (den' c r))).
    cbn [pointwise tat]; rewrite !at_bc_in.
    2:{ cbn [outer tdims]; rewrite Dl', Dr, <- app_assoc, <- P; auto. }
    2:{ cbn [outer tdims]; rewrite Dl, Dr'; auto. }
    cbn [outer tat]; rewrite Dl, Dl', L1, <- app_assoc, firstn_length_app, skipn_length_app.
    change (@fmul R S0) with Rmult; f_equal.
    rewrite app_length, L1, firstn_app_2, skipn_app.
    replace (length i1 + length T - length i1)%nat with (length T) by lia.
    rewrite (skipn_all2 i1) by lia; cbn [app].
    destruct E as [ET|[ER|EA]].
    + rewrite ET in *; apply in_box_nil in Bj; subst j; cbn [length firstn skipn]; rewrite !app_nil_r; auto.
    + rewrite ER in *; apply in_box_nil in B2; subst i2; cbn [app].
      rewrite <- (in_box_length _ _ Bj), firstn_all, skipn_all; auto.
    + assert (Z : forall j', in_box T j' -> tat (den' c l') (i1 ++ j') = 0).
      { intros j' B'; eapply uniqueness_limite; [apply Jl; eauto|].
        apply lim_const with (a := tat (den' c l) i1); intro h; rewrite bump_absent; auto. }
      rewrite !Z; auto; [ring|].
      assert (IB2 : in_box (T ++ dr) (i2 ++ j)) by (rewrite <- P; apply in_box_both; auto).
      apply in_box_split in IB2; destruct IB2 as (x & y & -> & X & Y).
      rewrite <- (in_box_length _ _ X), firstn_length_app; auto.
  - apply prod_lim; [apply Jl|apply Jr]; auto.
Qed.

Lemma jac_inner axes l l' r r' dl dr d :
  jac l l' dl -> jac r r' dr -> tdims (den' c l) = dl -> tdims (den' c r) = dr ->
  tdims (den' c l') = (dl ++ T)%list -> tdims (den' c r') = (dr ++ T)%list ->
  contract_dims (S axes) dl dr d -> tdims (@inner R S0 (den' c l) (den' c r)) = d ->
  tdims (@inner R S0 (den' c l) (den' c r')) = (d ++ T)%list ->
  tdims (@inner R S0 (den' c l') (den' c r)) = (d ++ T)%list ->
  T = [] \/ (exists n, T = [n] /\ dl = [n] /\ dr = [n] /\
               forall p q x, (p < n)%nat -> (q < n)%nat -> partial inf sp c t l [p] [q] x ->
                             partial inf sp c t l [q] [p] x) ->
  jac (Contract (S axes) l r) (Add (Contract (S axes) l r') (Contract (S axes) l' r)) d.
Proof.
  intros Jl Jr Dl Dr Dl' Dr' C Di Di' Di'' E i j Bi Bj.
  assert (V : tat (den' c (Add (Contract (S axes) l r') (Contract (S axes) l' r))) (i ++ j) =
     tat (@inner R S0 (den' c l) (den' c r')) (i ++ j) + tat (@inner R S0 (den' c l') (den' c r)) (i ++ j)).
  { change (den' c (Add (Contract (S axes) l r') (Contract (S axes) l' r))) with
      (@pointwise R Rplus (@inner R S0 (den' c l) (den' c r')) (@inner R S0 (den' c l') (den' c r))).
    cbn [pointwise tat]; rewrite !at_bc_in; auto; rewrite ?Di', ?Di''; apply in_box_both; auto. }
  rewrite V; clear V.
  change (fun h => tat (den' (bump c t j h) (Contract (S axes) l r)) i) with
    (fun h => tat (@inner R S0 (den' (bump c t j h) l) (den' (bump c t j h) r)) i).
  assert (IN : forall (a b : tensor R) ix, tdims a <> [] ->
    tat (@inner R S0 a b) ix = @sum_over R S0 nat (seq 0 (last (tdims a) 0%nat))
      (fun k => tat a (firstn (length (tdims a) - 1) ix ++ [k]) * tat b (k :: skipn (length (tdims a) - 1) ix))).
  { intros a b ix Na; unfold inner; destruct (tdims a); [congruence|reflexivity]. }
  destruct E as [ET|(n & ET & El & Er & Sym)].
  - rewrite ET, app_nil_r in *; apply in_box_nil in Bj; subst j; rewrite app_nil_r.
    destruct C as [(-> & -> & ->)|C].
    + apply in_box_nil in Bi; subst i.
      apply lim_eq with (f := fun h => tat (den' (bump c t [] h) l) [] * tat (den' (bump c t [] h) r) [])
        (l := tat (den' c l) [] * tat (den' c r') [] + tat (den' c l') [] * tat (den' c r) []).
      * intro h; unfold inner; rewrite !bump_dims, Dl, Dr; reflexivity.
      * unfold inner; rewrite Dl, Dr, Dl', Dr'; reflexivity.
      * apply prod_lim; [apply (Jl [] [])|apply (Jr [] [])]; rewrite ?ET; constructor.
    + assert (N0 : dl <> []).
      { intro N; rewrite N in C; destruct C as [(n & C & _)|[(n & m & C & _)|[(n & z & m & C & _)|(n & m & C & _)]]]; discriminate. }
      rewrite !IN by congruence; rewrite Dl, Dl'.
      apply lim_eq with (f := fun h => @sum_over R S0 nat (seq 0 (last dl 0%nat))
         (fun k => tat (den' (bump c t [] h) l) (firstn (length dl - 1) i ++ [k]) *
                   tat (den' (bump c t [] h) r) (k :: skipn (length dl - 1) i)))
        (l := @sum_over R S0 nat (seq 0 (last dl 0%nat))
                (fun k => tat (den' c l) (firstn (length dl - 1) i ++ [k]) * tat (den' c r') (k :: skipn (length dl - 1) i))
            + @sum_over R S0 nat (seq 0 (last dl 0%nat))
                (fun k => tat (den' c l') (firstn (length dl - 1) i ++ [k]) * tat (den' c r) (k :: skipn (length dl - 1) i))).
      * intro h; rewrite IN; rewrite bump_dims, Dl; auto.
      * auto.
      * assert (BX : forall k, (k < last dl 0)%nat ->
           in_box dl (firstn (length dl - 1) i ++ [k]) /\ in_box dr (k :: skipn (length dl - 1) i)).
        { intros k K; rewrite <- Di in Bi; unfold inner in Bi; rewrite Dl, Dr in Bi.
          destruct C as [(n & -> & -> & ->)|[(n & m & -> & -> & ->)|[(n & z & m & -> & -> & ->)|(n & m & -> & -> & ->)]]];
            cbn [tdims removelast tl app last length Nat.sub] in *.
          - apply in_box_nil in Bi; subst i; split; repeat constructor; auto.
          - apply in_box_cons in Bi; destruct Bi as (x & i' & -> & X & Bi); apply in_box_nil in Bi; subst.
            cbn [firstn skipn app]; unfold inner in Di; rewrite Dl, Dr in Di; cbn in Di; injection Di as Di; subst.
            split; repeat constructor; auto.
          - apply in_box_cons in Bi; destruct Bi as (x & i' & -> & X & Bi).
            apply in_box_cons in Bi; destruct Bi as (y & i'' & -> & Y & Bi); apply in_box_nil in Bi; subst.
            cbn [firstn skipn app]; split; repeat constructor; auto.
          - apply in_box_cons in Bi; destruct Bi as (x & i' & -> & X & Bi); apply in_box_nil in Bi; subst.
            cbn [firstn skipn app]; split; repeat constructor; auto. }
        apply sum_prod_lim.
        -- intros k K; destruct (BX k K) as [X Y]; specialize (Jl _ [] X); rewrite app_nil_r in Jl.
           apply Jl; rewrite ET; constructor.
        -- intros k K; destruct (BX k K) as [X Y]; specialize (Jr _ [] Y); rewrite app_nil_r in Jr.
           apply Jr; rewrite ET; constructor.
  - rewrite ET, El, Er in *.
    assert (D0 : d = []) by (rewrite <- Di; unfold inner; rewrite Dl, Dr; reflexivity).
    rewrite D0 in *.
    apply in_box_nil in Bi; subst i; cbn [app] in *.
    apply in_box_cons in Bj; destruct Bj as (q & j' & -> & Q & Bj); apply in_box_nil in Bj; subst j'.
    rewrite !IN by congruence; rewrite Dl, Dl'; cbn [last length Nat.sub firstn skipn app].
    apply lim_eq with (f := fun h => @sum_over R S0 nat (seq 0 n)
         (fun k => tat (den' (bump c t [q] h) l) [k] * tat (den' (bump c t [q] h) r) [k]))
        (l := @sum_over R S0 nat (seq 0 n) (fun k => tat (den' c l) [k] * tat (den' c r') [k; q])
            + @sum_over R S0 nat (seq 0 n) (fun k => tat (den' c l') [q; k] * tat (den' c r) [k])).
    + intro h; rewrite IN; rewrite bump_dims, Dl; [reflexivity|discriminate].
    + auto.
    + apply sum_prod_lim.
      * intros k K; apply (Sym q k); auto; apply (Jl [q] [k]); rewrite ?ET; repeat constructor; auto.
      * intros k K; apply (Jr [k] [q]); rewrite ?ET; repeat constructor; auto.
Qed.

(** ** All expressions *)
Lemma both_dims n n' k k' :
  scalar_sums G n -> adjoint n t = Some n' -> typeof G n = Some k -> typeof G n' = Some k' ->
  square G n -> square G n' -> (forall i, uses n i -> c i <> None) ->
  exists d, sty_dims k = Some d /\ sty_dims k' = Some (d ++ T)%list /\
            tdims (den' c n) = d /\ tdims (den' c n') = (d ++ T)%list.
Proof.
  intros Sc A Tn Tn' Sq Sq' U.
  destruct (adjoint_dims G t n n' k k' Sc A Tn Tn') as (d & T0 & k0 & D & G0 & D0 & D').
  assert (T0 = T) by congruence; subst T0.
  exists d; split; auto; split; auto; unfold rden; split; eapply typed_dims; eauto.
  intros i Ui; destruct (adjoint_uses _ _ _ _ A Ui); subst; auto.
Qed.

Lemma contract_T axes dl dr d x y e :
  contract_dims (S axes) dl dr d -> contract_dims (S axes) dl (dr ++ T) x ->
  contract_dims (S axes) (dl ++ T) dr y -> zip_dims x y e ->
  T = [] \/ exists n m, dl = [n] /\ dr = [n] /\ T = [m].
Proof.
  intros C1 C2 C3 Z; destruct T as [|p [|q T']]; auto; right; cbn [contract_dims] in *.
  - repeat match goal with
      | H : _ \/ _ |- _ => destruct H
      | H : _ /\ _ |- _ => destruct H
      | H : exists _, _ |- _ => destruct H
      end; subst; try discriminate; simpl in *; try discriminate;
      repeat match goal with H : _ :: _ = _ :: _ |- _ => injection H; intros; clear H; subst end;
      try discriminate; eauto 9.
  - exfalso; repeat match goal with
      | H : _ \/ _ |- _ => destruct H
      | H : _ /\ _ |- _ => destruct H
      | H : exists _, _ |- _ => destruct H
      end; subst; try discriminate; simpl in *; try discriminate;
      repeat match goal with H : _ :: _ = _ :: _ |- _ => injection H; intros; clear H; subst end;
      try discriminate.
Qed.

Ltac side := cbn [scalar_sums square uses smooth] in *;
  repeat match goal with H : _ /\ _ |- _ => destruct H end.
(** Facts about an operand [m] with adjoint [m']. *)
Ltac operand m m' := match goal with
  | A : adjoint m _ = Some m', T1 : typeof _ m = Some ?k1, T2 : typeof _ m' = Some ?k2 |- _ =>
      let d := fresh "d" in let D1 := fresh "D" in let D2 := fresh "D" in
      let D3 := fresh "D" in let D4 := fresh "D" in
      destruct (both_dims m m' k1 k2) as (d & D1 & D2 & D3 & D4); auto
  end.

Lemma adjoint_jac n : forall n' k k' d,
  scalar_sums G n -> adjoint n t = Some n' -> typeof G n = Some k -> typeof G n' = Some k' ->
  sty_dims k = Some d -> square G n -> square G n' -> (forall i, uses n i -> c i <> None) ->
  smooth inf sp c t n -> jac n n' d.
Proof.
  induction n; intros n' k0 k' dd Sc A Tn Tn' D Sq Sq' U Sm; cbn [adjoint] in A.
  - injection A as A; subst n'; apply jac_var; [|apply U; reflexivity].
    unfold rden; eapply typed_dims; eauto.
  - injection A as A; subst n'; apply jac_varadj.
  - injection A as A; subst n'; apply jac_const; reflexivity.
  - discriminate.
  - discriminate.
  - destruct Sm.
  - (* Un *)
    apply obind_some in A; destruct A as (m' & A & B).
    cbn [typeof] in Tn; side.
    assert (M : exists km', typeof G m' = Some km' /\ square G m' /\
       match u with SubOne | OneSub | AddOne | Double | Negate => True | _ => dd = [] \/ T = [] end).
    { assert (Q : forall km', typeof G m' = Some km' -> square G m' ->
         forall z, zip_sty k0 km' = Some z \/ zip_sty km' k0 = Some z -> dd = [] \/ T = []).
      { intros km' T1 S1 z Z; operand n m'; assert (Q0 : d = dd) by congruence; rewrite Q0 in *; clear Q0.
        destruct Z as [Z|Z]; [destruct (zip_sty_dims _ _ _ _ _ Z D0 D1) as (e & _ & E)
                             |destruct (zip_sty_dims _ _ _ _ _ Z D1 D0) as (e & _ & E)].
        - apply zip_self in E; tauto.
        - apply zip_self_r in E; tauto. }
      destruct u; cbn [un_adjoint] in B; try discriminate; injection B as B; subst n';
        cbn [typeof square] in Tn', Sq'; obs; side; eauto;
        repeat match goal with H1 : typeof G n = Some ?a, H2 : typeof G n = Some ?b |- _ =>
          assert (a = b) by congruence; subst; clear H2 end;
        try (eexists; split; [eassumption|split; [assumption|]]; eapply Q; eauto; fail). }
    destruct M as (km' & T1 & S1 & M); operand n m'; assert (Q0 : d = dd) by congruence; rewrite Q0 in *; clear Q0.
    intros i j Bi Bj; rewrite (un_value u n m' n' dd i j); auto.
    eapply jac_un; eauto.
    intros i0 B0; rewrite <- D2 in B0; exact (H0 _ B0).
  - (* Sum *)
    side; cbn [typeof] in Tn; obs.
    match goal with H1 : typeof G n = Some ?a, H2 : typeof G n = Some ?b |- _ =>
          assert (a = b) by congruence; subst; clear H2 end.
    injection D as <-.
    assert (J : jac n n' []) by (eapply IHn; eauto; reflexivity).
    intros i j Bi Bj; apply in_box_nil in Bi; subst i.
    eapply lim_eq; [|reflexivity|apply (J [] j); [constructor|auto]].
    intro h; cbn beta.
    assert (DN : tdims (den' c n) = []) by (unfold rden; eapply typed_dims; eauto; reflexivity).
    change (tat (den' (bump c t j h) n) [] =
      @sum_over R S0 _ (all_ix (tdims (den' (bump c t j h) n))) (tat (den' (bump c t j h) n))).
    rewrite bump_dims, DN; cbn; ring.
  - (* Power *)
    adj_inv A; side; cbn [typeof] in Tn, Tn'; obs; destruct_scal; side; unis.
    operand n1 n; operand n2 n0.
    match goal with H1 : sty_dims KS = Some ?a, H2 : sty_dims KS = Some ?b |- _ =>
      injection H1 as <-; injection H2 as <- end.
    injection Tn as <-; injection D as <-.
    apply jac_power; auto; [eapply IHn1|eapply IHn2]; eauto; reflexivity.
  - (* Add *)
    adj_inv A; side; cbn [typeof] in Tn, Tn'; obs; side; unis.
    operand n1 n; operand n2 n0.
    destruct (zip_sty_dims _ _ _ _ _ Tn D0 D4) as (e & De & E1).
    destruct (zip_sty_dims _ _ _ _ _ Tn' D1 D5) as (e' & _ & E2).
    assert (Q0 : e = dd) by congruence; rewrite Q0 in *; clear Q0.
    destruct (zip_both _ _ _ _ _ E1 E2) as [_ ZZ].
    eapply jac_add; eauto.
  - (* Sub *)
    adj_inv A; side; cbn [typeof] in Tn, Tn'; obs; side; unis.
    operand n1 n; operand n2 n0.
    destruct (zip_sty_dims _ _ _ _ _ Tn D0 D4) as (e & De & E1).
    destruct (zip_sty_dims _ _ _ _ _ Tn' D1 D5) as (e' & _ & E2).
    assert (Q0 : e = dd) by congruence; rewrite Q0 in *; clear Q0.
    destruct (zip_both _ _ _ _ _ E1 E2) as [_ ZZ].
    eapply jac_sub; eauto.
  - (* Mul *)
    adj_inv A; side; cbn [typeof] in Tn, Tn'; obs; side; unis.
    operand n1 n; operand n2 n0.
    destruct (zip_sty_dims _ _ _ _ _ Tn D0 D4) as (e & De & E1).
    assert (Q0 : e = dd) by congruence; rewrite Q0 in *; clear Q0.
    match goal with X : zip_sty _ _ = Some ?x, Y : zip_sty _ _ = Some ?y |- _ =>
      match type of Tn' with zip_sty x y = _ =>
        destruct (zip_sty_dims _ _ _ _ _ X D1 D4) as (ex & Dx & E2);
        destruct (zip_sty_dims _ _ _ _ _ Y D5 D0) as (ey & Dy & E3) end end.
    destruct (zip_sty_dims _ _ _ _ _ Tn' Dx Dy) as (ez & _ & E4).
    destruct (zip_mul _ _ _ _ _ _ _ E1 E2 E3 E4) as [_ ZZ].
    eapply jac_mul; eauto.
  - (* Div *)
    adj_inv A; side; cbn [typeof] in Tn, Tn'; obs; side; unis.
    operand n1 n; operand n2 n0.
    destruct (zip_sty_dims _ _ _ _ _ Tn D0 D4) as (e & De & E1).
    assert (Q0 : e = dd) by congruence; rewrite Q0 in *; clear Q0.
    match goal with X : zip_sty _ _ = Some ?x, Y : zip_sty _ _ = Some ?y, Z : zip_sty ?x ?y = Some ?z |- _ =>
      match type of Tn' with zip_sty z _ = _ =>
        destruct (zip_sty_dims _ _ _ _ _ X D4 D1) as (ex & Dx & E2);
        destruct (zip_sty_dims _ _ _ _ _ Y D0 D5) as (ey & Dy & E3);
        destruct (zip_sty_dims _ _ _ _ _ Z Dx Dy) as (ez & Dz & E4) end end.
    destruct (zip_sty_dims _ _ _ _ _ Tn' Dz D4) as (ew & _ & E5).
    destruct (zip_div _ _ _ _ _ _ _ _ E1 E2 E3 E4 E5) as [_ ZZ].
    eapply jac_div; eauto.
    match goal with Q : forall i, in_box (dims_at _ _ _ n2) i -> _ |- _ => rename Q into NZ end.
    unfold dims_at, value_at in NZ; rewrite D6 in NZ; auto.
  - (* Contract *)
    adj_inv A; cbn [smooth] in Sm;
    side; cbn [typeof] in Tn, Tn'; obs; side; unis.
    operand n1 n; operand n2 n0.
    destruct (contract_sty_dims _ _ _ _ _ _ Tn D0 D4) as (e & De & E1).
    assert (Q0 : e = dd) by congruence; rewrite Q0 in *; clear Q0.
    match goal with X : contract_sty _ k4 k5 = Some ?x, Y : contract_sty _ k2 k3 = Some ?y |- _ =>
      rename X into TX; rename Y into TY; rename x into kx; rename y into ky end.
    destruct (contract_sty_dims _ _ _ _ _ _ TX D0 D5) as (ex & Dx & E2).
    destruct (contract_sty_dims _ _ _ _ _ _ TY D1 D4) as (ey & Dy & E3).
    destruct (zip_sty_dims _ _ _ _ _ Tn' Dx Dy) as (ez & _ & E4).
    destruct (contract_adj _ _ _ _ _ _ _ _ E1 E2 E3 E4) as (_ & Qx & Qy).
    assert (Un0 : forall i, uses n0 i -> c i <> None).
    { intros i Ui; destruct (adjoint_uses _ _ _ _ E0 Ui); subst; auto. }
    assert (Un : forall i, uses n i -> c i <> None).
    { intros i Ui; destruct (adjoint_uses _ _ _ _ E Ui); subst; auto. }
    assert (TD : forall l r kl kr k1 dk, typeof G l = Some kl -> typeof G r = Some kr ->
       contract_sty axes kl kr = Some k1 -> sty_dims k1 = Some dk -> square G l -> square G r ->
       (forall kl kr, typeof G l = Some kl -> typeof G r = Some kr -> square_sty axes kl kr) ->
       (forall i, uses l i -> c i <> None) -> (forall i, uses r i -> c i <> None) ->
       tdims (den' c (Contract axes l r)) = dk).
    { intros l r kl kr k1 dk Tl Tr Tc Dk S1 S2 S3 U1 U2; unfold rden; apply (typed_dims _ _ _ OK _ k1); auto.
      - cbn [typeof]; rewrite Tl, Tr; auto.
      - cbn [square]; auto.
      - cbn [uses]; intros i [Ui|Ui]; auto. }
    assert (TD1 := TD n1 n2 _ _ _ _ T6 T7 Tn De); assert (TD2 := TD n1 n0 _ _ _ _ T6 T5 TX Dx).
    assert (TD3 := TD n n2 _ _ _ _ T2 T7 TY Dy).
    assert (Dt := t_dims).
    destruct axes as [|axes]; destruct Sm as (Sm1 & Sm2 & Sm3).
    + rewrite E1; cbn [contract_dims] in E2, E3.
      assert (J1 : jac n1 n d) by eauto; assert (J2 : jac n2 n0 d0) by eauto.
      apply jac_outer; auto.
      * apply (app_inv_head d); rewrite <- E2, app_assoc, <- E3; congruence.
      * unfold target_dims, dims_at in Sm3; rewrite Dt, D6 in Sm3; auto.
    + rewrite Qx in TD2; rewrite Qy in TD3.
      assert (J1 : jac n1 n d) by eauto; assert (J2 : jac n2 n0 d0) by eauto.
      apply jac_inner with (dl := d) (dr := d0); auto.
      unfold target_dims, symmetric in Sm3; rewrite Dt in Sm3; unfold target_dims, dims_at in Sm3.
      destruct (contract_T _ _ _ _ _ _ _ E1 E2 E3 E4) as [ET|(x & y & El & Er & ET)]; [left; exact ET|].
      destruct Sm3 as [?|Sm3]; [left; auto|right].
      assert (Y : y = x).
      { assert (Q : square_sty (S axes) k4 k5) by eauto.
        rewrite El in D0; rewrite Er, ET in D5; clear - TX D0 D5 Q; destruct axes as [|axes]; [|destruct k4, k5; discriminate].
        destruct k4, k5; try discriminate; cbn [sty_dims app] in *; injection D0 as ->; injection D5 as ->; auto. }
      subst y; exists x; split; auto; split; auto; split; auto.
      intros p q z Hp Hq; apply Sm3; rewrite D2, Dt, El, ET; repeat constructor; auto.
Qed.

(** ** Regularity of the adjoint and of nearby points *)
Notation reg := (@regular R S0 (real_un inf sp)).

Lemma pw_nil f (a b : tensor R) : tdims (@pointwise R f a b) = [] -> tdims a = [] /\ tdims b = [].
Proof. unfold pointwise; cbn [tdims]; destruct (tdims a); auto; discriminate. Qed.

Lemma sq_dims axes kl kr k (a b : tensor R) da db :
  contract_sty (S axes) kl kr = Some k -> square_sty (S axes) kl kr ->
  sty_dims kl = Some da -> sty_dims kr = Some db -> tdims a = da -> tdims b = db -> square_dims a b.
Proof.
  intros C Q A B Da Db; unfold square_dims; rewrite Da, Db.
  destruct axes as [|axes]; [|destruct kl, kr; discriminate].
  destruct kl as [| | |[|? [|? [|? ?]]]], kr as [| | |[|? [|? [|? ?]]]]; try discriminate;
    cbn [sty_dims] in A, B; injection A as <-; injection B as <-; auto.
Qed.

Lemma regular_adj n : forall n' k k',
  scalar_sums G n -> adjoint n t = Some n' -> typeof G n = Some k -> typeof G n' = Some k' ->
  square G n -> square G n' -> (forall i, uses n i -> c i <> None) ->
  smooth inf sp c t n -> reg c n -> reg c n'.
Proof.
  assert (D := I); induction n; intros n' k0 k' Sc A Tn Tn' Sq Sq' U Sm Rg; cbn [adjoint] in A.
  - injection A as A; subst n'; exact I.
  - injection A as A; subst n'; exact I.
  - injection A as A; subst n'; exact I.
  - discriminate.
  - discriminate.
  - destruct Sm.
  - (* Un *)
    apply obind_some in A; destruct A as (m' & A & B).
    cbn [typeof] in Tn; side; cbn [regular] in Rg.
    assert (M : exists km', typeof G m' = Some km' /\ square G m').
    { destruct u; cbn [un_adjoint] in B; try discriminate; injection B as B; subst n';
        cbn [typeof square] in Tn', Sq'; obs; side; eauto. }
    destruct M as (km' & T1 & S1); operand n m'.
    assert (R1 : reg c m') by (eapply IHn; eauto).
    destruct u; cbn [un_adjoint] in B; try discriminate; injection B as B; subst n';
      cbn [regular]; try tauto.
    split; [auto|split; [auto|]]; unfold keeps_order; intro N; unfold rden in *.
    rewrite D3 in N; apply app_eq_nil in N; destruct N as [N _]; rewrite D2, N; simpl; lia.
  - (* Sum *)
    side; cbn [typeof] in Tn; obs; eauto.
  - (* Power *)
    adj_inv A; side; cbn [typeof] in Tn, Tn'; obs; destruct_scal; side; unis; cbn [regular] in Rg |- *.
    destruct Rg as (R1 & R2 & R3).
    assert (R4 : reg c n) by eauto; assert (R5 : reg c n0) by eauto.
    split; [split; [auto|split; auto]|auto].
    intro B0; match goal with Q : 0 < _ \/ _ |- _ => rename Q into P end; unfold value_at in P.
    change (tat (den' c n1) [] = 0) in B0; rewrite B0 in P.
    destruct P as [P|(_ & z & Ez & [P|P])]; [lra|congruence|].
    cbn [den tat real_un fle R_scalar fzero]; unfold R_leb.
    change (tat (den (real_un inf sp) c n2) []) with (tat (den' c n2) []); rewrite Ez.
    apply IZR_le in P; destruct (Rle_dec (IZR z - 1) 0); auto; lra.
  - (* Add *)
    adj_inv A; side; cbn [typeof] in Tn, Tn'; obs; side; unis; cbn [regular] in Rg |- *; destruct Rg.
    split; [eapply IHn1|eapply IHn2]; eauto.
  - (* Sub *)
    adj_inv A; side; cbn [typeof] in Tn, Tn'; obs; side; unis; cbn [regular] in Rg |- *.
    operand n1 n; operand n2 n0; destruct Rg as (R1 & R2 & R3).
    split; [eauto|split; [eauto|]]; unfold keeps_order, rden in *; rewrite D3, D7; intro N.
    apply app_eq_nil in N; destruct N as [N1 N2]; rewrite D2, D6 in R3; rewrite N2, app_nil_r; auto.
  - (* Mul *)
    adj_inv A; side; cbn [typeof] in Tn, Tn'; obs; side; unis; cbn [regular] in Rg |- *; destruct Rg.
    split; split; auto; [eapply IHn1|eapply IHn2]; eauto.
  - (* Div *)
    adj_inv A; side; cbn [typeof] in Tn, Tn'; obs; side; unis; cbn [regular] in Rg |- *.
    operand n1 n; operand n2 n0; destruct Rg as (R1 & R2 & R3).
    assert (R4 : reg c n) by eauto; assert (R5 : reg c n0) by eauto.
    unfold keeps_order, rden in *; cbn [den]; split; [split; [auto|split; [auto|]]|split; [auto|]]; intro N.
    + apply pw_nil in N; destruct N as [N1 N2]; rewrite D3 in N2; apply app_eq_nil in N2; destruct N2 as [N2 N3].
      unfold pointwise; cbn [tdims]; rewrite D2, D7, D6 in *; rewrite N2, N1, N3; simpl; lia.
    + apply pw_nil in N; destruct N as [N1 _]; apply pw_nil in N1; destruct N1 as [N1 _].
      cbn [tdims]; rewrite N1; simpl; lia.
  - (* Contract *)
    adj_inv A; cbn [smooth] in Sm.
    side; cbn [typeof] in Tn, Tn'; obs; side; unis.
    operand n1 n; operand n2 n0.
    destruct axes as [|axes]; cbn [regular] in Rg |- *.
    + destruct Rg, Sm as (? & ? & _); split; split; auto; [eapply IHn2|eapply IHn1]; eauto.
    + destruct Rg as (R1 & R2 & R3), Sm as (? & ? & _).
      unfold rden in D2, D3, D6, D7; split; (split; [eauto|split; [eauto|]]).
      * eapply (sq_dims axes k4 k5); eauto.
      * eapply (sq_dims axes k2 k3); eauto.
Qed.

Lemma near_regular n : forall n' k k' j,
  scalar_sums G n -> adjoint n t = Some n' -> typeof G n = Some k -> typeof G n' = Some k' ->
  square G n -> square G n' -> (forall i, uses n i -> c i <> None) ->
  smooth inf sp c t n -> reg c n -> in_box T j ->
  exists e, 0 < e /\ forall h, Rabs h < e -> reg (bump c t j h) n.
Proof.
  assert (K1 : forall (P : R -> Prop), (forall h, P h) -> exists e, 0 < e /\ forall h, Rabs h < e -> P h).
  { intros P Q; exists 1; split; auto; lra. }
  assert (K2 : forall (P Q : R -> Prop), (exists e, 0 < e /\ forall h, Rabs h < e -> P h) ->
     (exists e, 0 < e /\ forall h, Rabs h < e -> Q h) -> exists e, 0 < e /\ forall h, Rabs h < e -> P h /\ Q h).
  { intros P Q (e1 & E1 & H1) (e2 & E2 & H2); exists (Rmin e1 e2); split; [apply Rmin_pos; auto|].
    intros h H; split; [apply H1|apply H2]; eapply Rlt_le_trans; eauto; [apply Rmin_l|apply Rmin_r]. }
  induction n; intros n' k0 k' j Sc A Tn Tn' Sq Sq' U Sm Rg Bj; cbn [adjoint] in A.
  - apply K1; intro; exact I.
  - apply K1; intro; exact I.
  - apply K1; intro; exact I.
  - discriminate.
  - discriminate.
  - destruct Sm.
  - (* Un *)
    apply obind_some in A; destruct A as (m' & A & B).
    cbn [typeof] in Tn; side; cbn [regular] in Rg.
    assert (M : exists km', typeof G m' = Some km' /\ square G m').
    { destruct u; cbn [un_adjoint] in B; try discriminate; injection B as B; subst n';
        cbn [typeof square] in Tn', Sq'; obs; side; eauto. }
    destruct M as (km' & T1 & S1); cbn [regular]; eauto.
  - (* Sum *)
    side; cbn [typeof] in Tn; obs; cbn [regular]; eauto.
  - (* Power *)
    adj_inv A; side; cbn [typeof] in Tn, Tn'; obs; destruct_scal; side; unis; cbn [regular] in Rg |- *.
    destruct Rg as (R1 & R2 & R3).
    apply K2; [eauto|apply K2; [eauto|]].
    match goal with Q : 0 < _ \/ _ |- _ => rename Q into P end; unfold value_at in P.
    assert (J : jac n1 n []) by (eapply adjoint_jac; eauto; reflexivity).
    assert (CB : continuity_pt (fun h => tat (den' (bump c t j h) n1) []) 0).
    { eapply lim_cont; apply (J [] j); [constructor|auto]. }
    assert (B0 : tat (den' (bump c t j 0) n1) [] = tat (den' c n1) []) by (rewrite bump0; auto).
    destruct P as [P|(Ab & z & Ez & P)].
    + destruct (near_pos _ _ CB) as (e & E1 & E2); [cbn beta; rewrite B0; auto|].
      exists e; split; auto; intros h Hh Z; exfalso.
      assert (0 < tat (den' (bump c t j h) n1) []) by (apply E2; rewrite Rminus_0_r; auto).
      change (tat (den' (bump c t j h) n1) [] = 0) in Z; lra.
    + destruct (Req_dec (tat (den' c n1) []) 0) as [B1|B1].
      * apply K1; intros h _.
        change (tat (den (real_un inf sp) (bump c t j h) n2) []) with (tat (den' (bump c t j h) n2) []).
        rewrite bump_absent by auto; rewrite Ez; destruct P as [P|P]; [contradiction|].
        apply IZR_le in P; cbn [fle R_scalar fzero]; unfold R_leb; destruct (Rle_dec (IZR z) 0); auto; lra.
      * destruct (near_nonzero _ _ CB) as (e & E1 & E2); [cbn beta; rewrite B0; auto|].
        exists e; split; auto; intros h Hh Z; exfalso; apply (E2 h); [rewrite Rminus_0_r; auto|exact Z].
  - adj_inv A; side; cbn [typeof] in Tn, Tn'; obs; side; unis; cbn [regular] in Rg |- *.
    destruct Rg; apply K2; eauto.
  - adj_inv A; side; cbn [typeof] in Tn, Tn'; obs; side; unis; cbn [regular] in Rg |- *.
    destruct Rg as (R1 & R2 & R3); apply K2; [eauto|apply K2; [eauto|apply K1]].
    intro h; unfold keeps_order in *.
    assert (X1 := bump_dims inf sp c t j h n1); assert (X2 := bump_dims inf sp c t j h n2).
    unfold rden in X1, X2; rewrite X1, X2; auto.
  - adj_inv A; side; cbn [typeof] in Tn, Tn'; obs; side; unis; cbn [regular] in Rg |- *.
    destruct Rg; apply K2; eauto.
  - adj_inv A; side; cbn [typeof] in Tn, Tn'; obs; side; unis; cbn [regular] in Rg |- *.
    destruct Rg as (R1 & R2 & R3); apply K2; [eauto|apply K2; [eauto|apply K1]].
    intro h; unfold keeps_order in *.
    assert (X1 := bump_dims inf sp c t j h n1); assert (X2 := bump_dims inf sp c t j h n2).
    unfold rden in X1, X2; rewrite X1, X2; auto.
  - adj_inv A; cbn [smooth] in Sm.
    side; cbn [typeof] in Tn, Tn'; obs; side; unis.
    destruct axes as [|axes]; cbn [regular] in Rg |- *.
    + destruct Rg, Sm as (? & ? & _); apply K2; eauto.
    + destruct Rg as (R1 & R2 & R3), Sm as (? & ? & _); apply K2; [eauto|apply K2; [eauto|apply K1]].
      intro h; unfold square_dims in *.
      assert (X1 := bump_dims inf sp c t j h n1); assert (X2 := bump_dims inf sp c t j h n2).
      unfold rden in X1, X2; rewrite X1, X2; auto.
Qed.

End Jacobian.

Lemma adjoint_novec {F} G (n n' : node F) t : adjoint n t = Some n' -> novec G n -> novec G n'.
Proof.
  revert n'; induction n; intros n' A N; cbn [adjoint] in A; cbn [novec] in N.
  7:{ apply obind_some in A; destruct A as (m' & A & B); specialize (IHn _ A N).
      destruct u; cbn [un_adjoint] in B; try discriminate; injection B as B; subst n'; cbn [novec]; tauto. }
  6:{ destruct (ident_eqb k t); [eauto|discriminate]. }
  6:{ eauto. }
  all: try discriminate A; adj_inv A; cbn [novec]; auto; destruct N; auto 9.
Qed.

(** There is no gradient of an expression with [Vec]s. *)
Lemma gradient_novec {F} G (n n' : node F) t : adjoint n t = Some n' -> typeof G n' <> None -> novec G n.
Proof.
  assert (V : forall l r, l = KV \/ r = KV -> adj_sty l r = None).
  { intros l r [-> | ->]; unfold adj_sty; cbn; auto; destruct (sty_dims l); auto. }
  assert (D : forall A B (o : option A) (f : A -> option B), obind o f <> None -> exists a, o = Some a /\ f a <> None).
  { intros A B [a|] f H; cbn in H; eauto; congruence. }
  revert n'; induction n; intros n' A N; cbn [adjoint] in A; cbn [novec].
  7:{ apply obind_some in A; destruct A as (m' & A & B); apply (IHn _ A).
      destruct u; cbn [un_adjoint] in B; try discriminate; injection B as B; subst n'; cbn [typeof] in N; auto;
        repeat match goal with
          | H : obind _ _ <> None |- _ => apply D in H; destruct H as (? & ? & H)
          | H : obind _ _ = Some _ |- _ => apply obind_some in H; destruct H as (? & ? & H)
          end; cbn [typeof] in *; congruence. }
  6:{ destruct (ident_eqb k t); [eauto|discriminate]. }
  6:{ eauto. }
  all: try discriminate A; adj_inv A; cbn [typeof] in N; auto.
  1:{ intro E; rewrite E in N; cbn [obind] in N; destruct (G t); cbn in N; auto. }
  1:{ intro E; rewrite E in N; cbn [obind] in N; destruct (G t); cbn in N; auto. }
  all: repeat match goal with
    | H : obind _ _ <> None |- _ => apply D in H; destruct H as (? & ? & H)
    | H : obind _ _ = Some _ |- _ => apply obind_some in H; destruct H as (? & ? & H)
    end; split; [eapply IHn1|eapply IHn2]; eauto; congruence.
Qed.

Lemma bump_ok G c t j h : ctx_ok G c -> ctx_ok G (bump c t j h).
Proof.
  intros OK i v; unfold bump; destruct (Nat.eqb_spec i t); [subst|apply OK].
  destruct (c t) as [w|] eqn:E; [|discriminate]; cbn [option_map]; intro H; injection H as <-.
  destruct (OK _ _ E) as [Wv Gv]; rewrite bump_bty; split; auto; apply bump_wf; auto.
Qed.

Lemma bump_some c t j h i : c i <> None -> bump c t j h i <> None.
Proof.
  unfold bump; destruct (Nat.eqb_spec i t); [subst|auto]; destruct (c t); simpl; congruence.
Qed.
