(** Proofs about [aegir!], in the form used by Properties_macros.v. *)
From Coq Require Import List Arith ZArith Bool String Lia.
Import ListNotations.
From Verif Require Import Base Shapes Scalar Buffers Spec Contraction Node Eval Types Instances Vocab Math
  Eval_claims Ids Derive Compile Macro_math Math_claims.

Section Ind.
Variable P : rexpr -> Prop.
Hypothesis Hbin : forall op l r, P l -> P r -> P (RBin op l r).
Hypothesis Hlit : forall l, P (RLit l).
Hypothesis Hparen : forall e, P e -> P (RParen e).
Hypothesis Hpath : forall p, P (RPath p).
Hypothesis Hmeth : forall r m args, P r -> Forall P args -> P (RMethod r m args).
Hypothesis Hprefix : forall p e, P e -> P (RPrefix p e).
Hypothesis Hother : forall cs, Forall P cs -> P (ROther cs).
Fixpoint rexpr_ind' (e : rexpr) : P e :=
  let all := fix all l : Forall P l :=
    match l with [] => Forall_nil _ | x :: l' => Forall_cons x (rexpr_ind' x) (all l') end in
  match e with
  | RBin op l r => Hbin op l r (rexpr_ind' l) (rexpr_ind' r)
  | RLit l => Hlit l
  | RParen e => Hparen e (rexpr_ind' e)
  | RPath p => Hpath p
  | RMethod r m args => Hmeth r m args (rexpr_ind' r) (all args)
  | RPrefix p e => Hprefix p e (rexpr_ind' e)
  | ROther cs => Hother cs (all cs)
  end.
End Ind.

(** * When the conversion panics *)
Definition bad (e : rexpr) : Prop := exists op l r, inside (RBin op l r) e /\ unsupported op.

Lemma sequence_split {A} (l : list rexpr) (f : rexpr -> res unit A) :
  Forall (fun e => (f e = Panic /\ bad e) \/ ((exists c, f e = Ok c) /\ ~ bad e)) l ->
  (sequence (map f l) = Panic /\ exists e, In e l /\ bad e) \/
  ((exists cs, sequence (map f l) = Ok cs) /\ forall e, In e l -> ~ bad e).
Proof.
  induction 1 as [|e l [[E B]|[[c E] B]] _ IH]; simpl.
  - right; split; [eauto|tauto].
  - left; rewrite E; simpl; split; auto; exists e; auto.
  - rewrite E; simpl; destruct IH as [[-> (x & I & Bx)]|[[cs ->] Bx]]; simpl.
    + left; split; auto; exists x; auto.
    + right; split; [eauto|]; intros x [<-|I]; auto.
Qed.

Lemma bad_bin op l r : bad (RBin op l r) <-> unsupported op \/ bad l \/ bad r.
Proof.
  split.
  - intros (o & a & b & I & U); inversion I; subst; auto; right; [left|right]; exists o, a, b; auto.
  - intros [U|[(o & a & b & I & U)|(o & a & b & I & U)]].
    + exists op, l, r; split; auto; constructor.
    + exists o, a, b; split; auto; apply in_left; auto.
    + exists o, a, b; split; auto; apply in_right; auto.
Qed.
Lemma bad_lit l : ~ bad (RLit l).
Proof. intros (o & a & b & I & U); inversion I. Qed.

Lemma unsupported_method op : method_of op = None <-> unsupported op.
Proof. unfold unsupported; destruct op; simpl; split; intro H; try discriminate; auto; destruct H; discriminate. Qed.

Lemma fold_split e : (fold_expr e = Panic /\ bad e) \/ ((exists c, fold_expr e = Ok c) /\ ~ bad e).
Proof.
  induction e as [op l r IHl IHr|l|e IH|p|r m args IHr IHa|pf e IH|cs IHc] using rexpr_ind'.
  - cbn [fold_expr]; destruct (method_of op) as [m|] eqn:M.
    + assert (U : ~ unsupported op) by (rewrite <- unsupported_method; congruence).
      assert (G : (res_bind (fold_expr r) (fun r' => res_map (fun l' => CMethod l' m [r']) (fold_expr l)) = Panic
                   /\ bad (RBin op l r)) \/
                  ((exists c, res_bind (fold_expr r) (fun r' => res_map (fun l' => CMethod l' m [r']) (fold_expr l)) = Ok c)
                   /\ ~ bad (RBin op l r))).
      { rewrite bad_bin; destruct IHr as [[-> Br]|[[r' ->] Br]]; simpl; [left; tauto|].
        destruct IHl as [[-> Bl]|[[l' ->] Bl]]; simpl; [left; tauto|right; split; [eauto|tauto]]. }
      destruct r as [| |x| | | |]; auto.
      destruct (String.eqb m "pow" && is_two l0); auto.
      rewrite bad_bin; pose proof (bad_lit l0).
      destruct IHl as [[-> Bl]|[[l' ->] Bl]]; simpl; [left; tauto|right; split; [eauto|tauto]].
    + left; split; auto; apply bad_bin; left; apply unsupported_method; auto.
  - right; split; [destruct l; simpl; eauto|apply bad_lit].
  - assert (B : bad (RParen e) <-> bad e).
    { split; intros (o & a & b & I & U); exists o, a, b; split; auto; [inversion I; auto|apply in_paren; auto]. }
    rewrite B; simpl; destruct IH as [[-> H]|[[c ->] H]]; simpl; eauto.
  - right; split; [simpl; eauto|]; intros (o & a & b & I & U); inversion I.
  - assert (B : bad (RMethod r m args) <-> bad r \/ exists e, In e args /\ bad e).
    { split.
      - intros (o & a & b & I & U); inversion I; subst; [left; exists o, a, b; auto|right].
        exists a0; split; auto; exists o, a, b; auto.
      - intros [(o & a & b & I & U)|(e & J & o & a & b & I & U)]; exists o, a, b; split; auto;
          [apply in_recv; auto|eapply in_arg; eauto]. }
    rewrite B; cbn [fold_expr]; destruct IHr as [[-> H]|[[c ->] H]]; simpl; [auto|].
    destruct (sequence_split args fold_expr IHa) as [[-> Q]|[[cs ->] Q]]; simpl; [auto|].
    right; split; [eauto|]; intros [X|(e & J & X)]; auto; apply (Q e); auto.
  - assert (B : bad (RPrefix pf e) <-> bad e).
    { split; intros (o & a & b & I & U); exists o, a, b; split; auto; [inversion I; auto|apply in_prefix; auto]. }
    rewrite B; cbn [fold_expr]; destruct IH as [[-> H]|[[c ->] H]]; simpl; eauto.
  - assert (B : bad (ROther cs) <-> exists e, In e cs /\ bad e).
    { split.
      - intros (o & a & b & I & U); inversion I; subst; exists a0; split; auto; exists o, a, b; auto.
      - intros (e & J & o & a & b & I & U); exists o, a, b; split; auto; eapply in_child; eauto. }
    rewrite B; cbn [fold_expr].
    destruct (sequence_split cs fold_expr IHc) as [[-> Q]|[[ds ->] Q]]; simpl; [auto|].
    right; split; [eauto|]; intros (e & J & X); apply (Q e); auto.
Qed.

Lemma fold_panics e :
  fold_expr e = Panic <-> exists op l r, inside (RBin op l r) e /\ unsupported op.
Proof.
  destruct (fold_split e) as [[E B]|[[c E] B]]; rewrite E; split; auto; [discriminate|contradiction].
Qed.
Lemma fold_accepts e :
  (exists c, fold_expr e = Ok c) <-> forall op l r, inside (RBin op l r) e -> ~ unsupported op.
Proof.
  destruct (fold_split e) as [[E B]|[[c E] B]]; rewrite E; split; eauto.
  - intros [c H]; discriminate.
  - intro H; destruct B as (o & a & b & I & U); destruct (H o a b I U).
  - intros _ op l r I U; apply B; exists op, l, r; auto.
Qed.

(** * Meaning *)
Section Meaning.
Context {F : Type} {S : Scalar F}.

(** Tensors that agree wherever they are used. *)
Definition sem (a b : tensor F) : Prop := tdims a = tdims b /\ forall ix, at_bc a ix = at_bc b ix.

Lemma sem_refl a : sem a a.
Proof. split; auto. Qed.

Lemma pointwise_at f (a b : tensor F) ix :
  at_bc (pointwise f a b) ix =
  let ix' := match tdims (pointwise f a b) with [] => [] | _ => ix end in f (at_bc a ix') (at_bc b ix').
Proof. reflexivity. Qed.

Lemma sem_pointwise f a a' b b' : sem a a' -> sem b b' -> sem (pointwise f a b) (pointwise f a' b').
Proof.
  intros [D1 E1] [D2 E2]; assert (D : tdims (pointwise f a b) = tdims (pointwise f a' b')).
  { simpl; rewrite D1, D2; auto. }
  split; auto; intro ix; rewrite !pointwise_at, D; simpl; rewrite E1, E2; auto.
Qed.

Lemma at_bc_box (a : tensor F) ix : in_box (tdims a) ix -> at_bc a ix = tat a ix.
Proof.
  unfold at_bc; destruct (tdims a); auto; intro B; inversion B; auto.
Qed.
Lemma sem_teq a b : sem a b -> teq a b.
Proof.
  intros [D E]; split; auto; intros ix B; rewrite <- at_bc_box by auto; rewrite E; apply at_bc_box.
  rewrite <- D; auto.
Qed.
Lemma at_bc_bc (a : tensor F) ix : at_bc a (match tdims a with [] => [] | _ => ix end) = at_bc a ix.
Proof. unfold at_bc; destruct (tdims a); auto. Qed.

Lemma two_spec x : is_two x = true <-> two (RLit x).
Proof.
  unfold two, is_two; destruct x as [t|t|t].
  - rewrite String.eqb_eq; split; [intros ->; auto|intros [H|H]; congruence].
  - rewrite String.eqb_eq; split; [intros ->; auto|intros [H|H]; congruence].
  - split; [discriminate|intros [H|H]; discriminate].
Qed.

(** Shape of converted binary operators. *)
Lemma fold_bin op l r c : fold_expr (RBin op l r) = Ok c ->
  (op = BXor /\ two r /\ exists l', fold_expr l = Ok l' /\ c = CMethod l' "squared" []) \/
  (~ (op = BXor /\ two r) /\ exists m l' r',
     method_of op = Some m /\ fold_expr l = Ok l' /\ fold_expr r = Ok r' /\ c = CMethod l' m [r']).
Proof.
  cbn [fold_expr]; destruct (method_of op) as [m|] eqn:M; [|discriminate].
  assert (G : res_bind (fold_expr r) (fun r' => res_map (fun l' => CMethod l' m [r']) (fold_expr l)) = Ok c ->
              exists m0 l' r', Some m = Some m0 /\ fold_expr l = Ok l' /\ fold_expr r = Ok r' /\ c = CMethod l' m0 [r']).
  { destruct (fold_expr r) as [r'|u| |]; try discriminate; simpl.
    destruct (fold_expr l) as [l'|u| |]; try discriminate; simpl.
    intro H; injection H as <-; exists m, l', r'; auto. }
  destruct r as [| x | | | | |]; try (intro H; right; split; [intros [_ [T|T]]; discriminate|auto]).
  destruct (String.eqb m "pow" && is_two x) eqn:Q.
  - apply andb_true_iff in Q as [Q1 Q2]; apply String.eqb_eq in Q1; subst m; apply two_spec in Q2.
    destruct (fold_expr l) as [l'|u| |]; try discriminate; simpl; intro H; injection H as <-.
    left; split; [destruct op; try discriminate; auto|]; split; auto; exists l'; auto.
  - intro H; right; split; auto; intros [-> T]; injection M as <-.
    apply two_spec in T; rewrite T in Q; discriminate.
Qed.

Lemma fold_method r m args c : fold_expr (RMethod r m args) = Ok c ->
  exists r' args', fold_expr r = Ok r' /\ sequence (map fold_expr args) = Ok args' /\ c = CMethod r' m args'.
Proof.
  cbn [fold_expr]; destruct (fold_expr r) as [r'|u| |]; try discriminate; simpl.
  destruct (sequence (map fold_expr args)) as [args'|u| |]; try discriminate; simpl.
  intro H; injection H as <-; exists r', args'; auto.
Qed.

Lemma fold_method0 r m c : fold_expr (RMethod r m []) = Ok c ->
  exists r', fold_expr r = Ok r' /\ c = CMethod r' m [].
Proof.
  intro H; destruct (fold_method _ _ _ _ H) as (r' & args' & E & Q & ->).
  simpl in Q; injection Q as <-; exists r'; auto.
Qed.
Lemma fold_method1 r m a c : fold_expr (RMethod r m [a]) = Ok c ->
  exists r' a', fold_expr r = Ok r' /\ fold_expr a = Ok a' /\ c = CMethod r' m [a'].
Proof.
  intro H; destruct (fold_method _ _ _ _ H) as (r' & args' & E & Q & ->); cbn [map sequence] in Q.
  destruct (fold_expr a) as [a'|u| |]; try discriminate; simpl in Q; injection Q as <-; exists r', a'; auto.
Qed.

(** The methods by name. *)
Lemma unary_call {A} m u (n : node A) : unary_method m = Some u -> apply_method m n [] = Some (Un u n).
Proof.
  unfold unary_method, apply_method.
  destruct (String.eqb m "squared"); [intro H; injection H as <-; auto|].
  destruct (String.eqb m "abs"); [intro H; injection H as <-; auto|].
  destruct (String.eqb m "neg"); [intro H; injection H as <-; auto|].
  destruct (String.eqb m "ln"); [intro H; injection H as <-; auto|].
  destruct (String.eqb m "sigmoid") eqn:E; [|discriminate]; intro H; injection H as <-.
  apply String.eqb_eq in E; subst m; reflexivity.
Qed.
Lemma sum_call {A} (n : node A) : apply_method "sum" n [] = Some (Sum n).
Proof. reflexivity. Qed.
Lemma dot_call {A} (n k : node A) : apply_method "dot" n [k] = Some (Contract 1 n k).
Proof. reflexivity. Qed.
Lemma binary_cases m f : binary_method m = Some f ->
  (m = "add"%string /\ f = fadd) \/ (m = "sub"%string /\ f = fsub) \/ (m = "mul"%string /\ f = fmul) \/
  (m = "div"%string /\ f = fdiv) \/ (m = "pow"%string /\ f = fpow).
Proof.
  unfold binary_method.
  repeat (match goal with |- context [String.eqb m ?x] => destruct (String.eqb_spec m x) end;
          [intro H; injection H as <-; subst; tauto|]); discriminate.
Qed.
Lemma unary_names m : In m ["squared"; "abs"; "neg"; "ln"; "sigmoid"]%string -> exists u, unary_method m = Some u.
Proof. simpl; intro H; repeat (destruct H as [<-|H]; [eexists; reflexivity|]); destruct H. Qed.
Lemma binary_names m : In m ["add"; "sub"; "mul"; "div"; "pow"]%string -> exists f, binary_method m = Some f.
Proof. simpl; intro H; repeat (destruct H as [<-|H]; [eexists; reflexivity|]); destruct H. Qed.

Lemma sem_each f a a' : sem a a' -> sem (each f a) (each f a').
Proof.
  intros [D E]; split; auto; intro ix; specialize (E ix); unfold at_bc, each in *; cbn [tdims tat].
  rewrite E; reflexivity.
Qed.
Lemma sem_tat a a' ix : sem a a' -> tdims a <> [] -> tat a ix = tat a' ix.
Proof.
  intros [D E] N; specialize (E ix); unfold at_bc in E; rewrite <- D in E; destruct (tdims a); tauto.
Qed.
Lemma sem_tat0 a a' : sem a a' -> tat a [] = tat a' [].
Proof. intros [D E]; specialize (E []); unfold at_bc in E; rewrite <- D in E; destruct (tdims a); auto. Qed.
Lemma sum_same {A} (l : list A) (f g : A -> F) : (forall x, In x l -> f x = g x) -> sum_over l f = sum_over l g.
Proof.
  unfold sum_over; generalize fzero; induction l as [|x l IH]; simpl; intros a H; auto.
  rewrite H by auto; apply IH; auto.
Qed.
Lemma sem_total a a' : sem a a' -> sem (total a) (total a').
Proof.
  intros H; split; auto; intro ix; unfold at_bc, total; cbn [tdims tat].
  destruct H as [D E]; rewrite <- D; apply sum_same; intros i I.
  destruct (tdims a) eqn:Da.
  - destruct I as [<-|[]]; apply sem_tat0; split; auto; congruence.
  - apply sem_tat; [split; auto; congruence|congruence].
Qed.
Lemma sem_inner a a' b b' : sem a a' -> sem b b' ->
  (tdims a = [] <-> tdims b = []) -> sem (inner a b) (inner a' b').
Proof.
  intros Ha Hb Q.
  pose proof (sem_tat0 a a' Ha) as A0; pose proof (sem_tat0 b b' Hb) as B0.
  unfold inner; rewrite <- (proj1 Ha), <- (proj1 Hb).
  destruct (tdims a) as [|x l] eqn:Da, (tdims b) as [|y k] eqn:Db.
  - split; auto; intro ix; unfold at_bc; cbn [tdims tat]; rewrite A0, B0; reflexivity.
  - destruct Q as [Q _]; discriminate (Q eq_refl).
  - destruct Q as [_ Q]; discriminate (Q eq_refl).
  - split; auto; intro ix; unfold at_bc; cbn [tdims tat]; apply sum_same; intros i _.
    rewrite (sem_tat a a' _ Ha), (sem_tat b b' _ Hb) by congruence; reflexivity.
Qed.

Variable um : unop -> F -> F.
Variable rho : ctx F.
Variable env : string -> option (node F).
Variable num : lit -> option F.
Variable val : lit -> F.
Hypothesis Hnum : forall l x, num l = Some x -> val l = x.
Hypothesis Htwo : forall l x, two (RLit l) -> um Square x = fpow x (val l).

(** A power of two scalars. *)
Lemma sem_power nl nr tl tr : sem (den um rho nl) tl -> sem (den um rho nr) tr -> tdims tl = [] -> tdims tr = [] ->
  sem (den um rho (Power nl nr)) (pointwise fpow tl tr).
Proof.
  intros [D1 E1] [D2 E2] Q1 Q2; split; [simpl; rewrite Q1, Q2; auto|]; intro ix; rewrite pointwise_at; simpl; rewrite Q1, Q2.
  cbn [at_bc tdims tat]; specialize (E1 []); specialize (E2 []).
  unfold at_bc in *; rewrite D1, Q1 in E1; rewrite D2, Q2 in E2; simpl; rewrite E1, E2; auto.
  rewrite Q1, Q2; auto.
Qed.

Lemma meaning_sem e c n t :
  fold_expr e = Ok c -> build env num c = Some n ->
  meaning um rho env val e = Some t -> scalar_powers um rho env val e -> sem (den um rho n) t.
Proof.
  revert c n t; induction e as [op l r IHl IHr|x|e IH|p|r m args IHr IHa|pf e IH|cs IHc] using rexpr_ind'; intros c n t Hf Hb Hm Hp.
  - apply fold_bin in Hf as [(-> & T & l' & Fl & ->)|(NT & m & l' & r' & M & Fl & Fr & ->)].
    + cbn [meaning scalar_powers] in Hm, Hp; cbn [build map all_some] in Hb.
      destruct (build env num l') as [nl|] eqn:Bl; [|discriminate]; injection Hb as <-.
      destruct (meaning um rho env val l) as [tl|] eqn:Ml; [|discriminate].
      assert (X : exists x, two (RLit x) /\ meaning um rho env val r = Some (Tensor [] (fun _ => val x))).
      { destruct T as [-> | ->]; eexists; (split; [|reflexivity]); [left|right]; auto. }
      destruct X as (x & Tx & Mr); rewrite Mr in Hm; injection Hm as <-.
      destruct (IHl _ _ _ Fl Bl eq_refl (proj1 Hp)) as [D E]; clear IHl IHr.
      assert (D' : tdims (den um rho (Un Square nl)) = tdims (pointwise fpow tl (Tensor [] (fun _ => val x)))).
      { simpl; rewrite D; destruct (tdims tl); auto. }
      split; auto; intro ix; rewrite pointwise_at, <- D'.
      replace (at_bc (den um rho (Un Square nl)) ix) with (um Square (at_bc (den um rho nl) ix)) by reflexivity.
      rewrite E, (Htwo x _ Tx); cbn [den tdims]; rewrite D; cbv zeta.
      rewrite at_bc_bc; reflexivity.
    + cbn [build map all_some] in Hb.
      destruct (build env num l') as [nl|] eqn:Bl; [|discriminate].
      destruct (build env num r') as [nr|] eqn:Br; [|discriminate]; simpl in Hb.
      destruct op; try discriminate; injection M as <-; cbn [meaning scalar_powers] in Hm, Hp;
        injection Hb as <-; unfold combine in Hm;
        (destruct (meaning um rho env val l) as [tl|] eqn:Ml; [|discriminate]);
        (destruct (meaning um rho env val r) as [tr|] eqn:Mr; [|discriminate]); injection Hm as <-.
      1-3: apply sem_pointwise; [apply (IHl _ _ _ Fl Bl eq_refl); tauto|apply (IHr _ _ _ Fr Br eq_refl); tauto].
      assert (Q : tdims tl = [] /\ tdims tr = [] \/ two r) by (destruct Hp as (_ & _ & [T|D]); auto).
      destruct Q as [[Q1 Q2]|T]; [|destruct NT; auto].
      apply sem_power; auto; [apply (IHl _ _ _ Fl Bl eq_refl)|apply (IHr _ _ _ Fr Br eq_refl)]; tauto.
  - destruct x as [a|a|a]; simpl in Hf; injection Hf as <-; simpl in Hb, Hm; try discriminate;
      injection Hm as <-.
    + destruct (num (LInt a)) as [v|] eqn:N; [|discriminate]; injection Hb as <-; apply Hnum in N; subst v.
      split; auto.
    + destruct (num (LFloat a)) as [v|] eqn:N; [|discriminate]; injection Hb as <-; apply Hnum in N; subst v.
      split; auto.
  - simpl in Hf; destruct (fold_expr e) as [e'|u| |] eqn:Fe; try discriminate; injection Hf as <-.
    apply (IH e' n t); auto.
  - simpl in Hf; injection Hf as <-; simpl in Hb, Hm; rewrite Hb in Hm; injection Hm as <-; apply sem_refl.
  - destruct args as [|a [|? ?]]; [| |discriminate].
    + apply fold_method0 in Hf as (r' & Fr & ->); cbn [build map all_some] in Hb.
      cbn [meaning scalar_powers] in Hm, Hp.
      destruct (build env num r') as [nr|] eqn:Br; [|discriminate].
      destruct (unary_method m) as [u|] eqn:U.
      * rewrite (unary_call m u nr U) in Hb; injection Hb as <-.
        destruct (meaning um rho env val r) as [tr|] eqn:Mr; [|discriminate]; injection Hm as <-.
        apply (sem_each (um u)); apply (IHr r' nr tr); auto.
      * destruct (String.eqb_spec m "sum"); [|discriminate]; subst m; rewrite sum_call in Hb; injection Hb as <-.
        destruct (meaning um rho env val r) as [tr|] eqn:Mr; [|discriminate]; injection Hm as <-.
        apply sem_total; apply (IHr r' nr tr); auto.
    + apply fold_method1 in Hf as (r' & a' & Fr & Fa & ->); cbn [build map all_some] in Hb.
      inversion IHa as [|? ? IHa' _]; subst; clear IHa; rename IHa' into IHa.
      cbn [meaning scalar_powers] in Hm, Hp; destruct Hp as (Pr & Pa & Hpow).
      destruct (build env num r') as [nr|] eqn:Br; [|discriminate].
      destruct (build env num a') as [na|] eqn:Ba; [|discriminate]; cbn [option_map] in Hb.
      destruct (binary_method m) as [f|] eqn:U.
      * unfold combine in Hm; destruct (meaning um rho env val r) as [tr|] eqn:Mr; [|discriminate].
        destruct (meaning um rho env val a) as [ta|] eqn:Ma; [|discriminate]; injection Hm as <-.
        pose proof (IHr r' nr tr Fr Br eq_refl Pr) as Sr; pose proof (IHa a' na ta Fa Ba eq_refl Pa) as Sa.
        apply binary_cases in U as [[-> ->]|[[-> ->]|[[-> ->]|[[-> ->]|[-> ->]]]]]; simpl in Hb; injection Hb as <-;
          try (apply sem_pointwise; auto).
        destruct (Hpow eq_refl tr ta eq_refl eq_refl) as [Q1 Q2]; apply sem_power; auto.
      * destruct (String.eqb_spec m "dot"); [|discriminate]; subst m; rewrite dot_call in Hb; injection Hb as <-.
        unfold dot_product in Hm; destruct (meaning um rho env val r) as [tr|] eqn:Mr; [|discriminate].
        destruct (meaning um rho env val a) as [ta|] eqn:Ma; [|discriminate].
        pose proof (IHr r' nr tr Fr Br eq_refl Pr) as Sr; pose proof (IHa a' na ta Fa Ba eq_refl Pa) as Sa.
        assert (X : t = inner tr ta /\ (tdims tr = [] <-> tdims ta = [])).
        { destruct (tdims tr) eqn:X1, (tdims ta) eqn:X2; try discriminate; injection Hm as <-; split; auto;
            split; auto; discriminate. }
        destruct X as [-> X]; apply (sem_inner (den um rho nr) tr (den um rho na) ta Sr Sa).
        rewrite (proj1 Sr), (proj1 Sa); auto.
  - discriminate.
  - discriminate.
Qed.

Lemma meaning_teq e c n t :
  fold_expr e = Ok c -> build env num c = Some n ->
  meaning um rho env val e = Some t -> scalar_powers um rho env val e -> teq (den um rho n) t.
Proof. intros; apply sem_teq; eapply meaning_sem; eauto. Qed.

Lemma arithmetic_good e : arithmetic e -> ~ bad e.
Proof.
  induction e as [op l r IHl IHr|x|e IH|p|r m args IHr IHa|pf e IH|cs IHc] using rexpr_ind'; simpl; try tauto.
  - intros (V & Aa & Ab) Z; apply bad_bin in Z; tauto.
  - intros _; apply bad_lit.
  - intros Ae (o & a & b & J & V); inversion J; subst; apply IH; auto; exists o, a, b; auto.
  - intros _ (o & a & b & J & V); inversion J.
  - intros A (o & x & y & J & V).
    assert (G : arithmetic r /\ forall a, In a args -> arithmetic a).
    { destruct args as [|a [|? ?]]; [| |contradiction]; (split; [tauto|]); [intros ? []|].
      intros b [<-|[]]; tauto. }
    destruct G as [Gr Ga]; inversion J; subst; [apply IHr; auto; exists o, x, y; auto|].
    rewrite Forall_forall in IHa; apply (IHa a); auto; exists o, x, y; auto.
Qed.

Lemma build_defined e : arithmetic e -> in_scope env num e ->
  exists c n, fold_expr e = Ok c /\ build env num c = Some n.
Proof.
  induction e as [op l r IHl IHr|x|e IH|p|r m args IHr IHa|pf e IH|cs IHc] using rexpr_ind'; intros A B; try contradiction.
  - destruct A as (U & A1 & A2).
    assert (X : (op = BXor /\ two r) \/ (in_scope env num l /\ in_scope env num r)).
    { destruct op; simpl in B; try tauto. }
    assert (Il : in_scope env num l) by (destruct op; simpl in B; tauto).
    destruct (IHl A1 Il) as (cl & nl & Fl & Bl).
    assert (C : exists c, fold_expr (RBin op l r) = Ok c).
    { destruct (fold_split (RBin op l r)) as [[_ Q]|[[c Q] _]]; [|eauto]; exfalso.
      apply (arithmetic_good (RBin op l r)); auto; split; auto. }
    destruct C as [c C]; exists c; pose proof C as C'.
    apply fold_bin in C' as [(-> & T & l' & Fl' & ->)|(NT & m & l' & r' & M & Fl' & Fr' & ->)];
      rewrite Fl in Fl'; injection Fl' as <-.
    + exists (Un Square nl); split; auto; simpl; rewrite Bl; auto.
    + destruct X as [X|[_ Ir]]; [destruct (NT X)|].
      destruct (IHr A2 Ir) as (cr & nr & Fr & Br); rewrite Fr in Fr'; injection Fr' as <-.
      destruct op; try discriminate; injection M as <-; eexists; (split; [exact C|]); simpl; rewrite Bl, Br; reflexivity.
  - destruct x as [a|a|a]; simpl in *; try tauto; destruct (num _) as [f|] eqn:N; try congruence;
      eexists; exists (Const (VScal f)); (split; [reflexivity|]); simpl; rewrite N; reflexivity.
  - simpl in *; destruct (IH A B) as (c & n & -> & E); exists (CParen c), n; auto.
  - simpl in B; destruct (env p) as [n|] eqn:E; [|congruence]; exists (CPath p), n; auto.
  - destruct args as [|a [|? ?]]; [| |contradiction].
    + destruct A as [A M], (unary_names m M) as [u U]; cbn [in_scope] in B; destruct (IHr A B) as (cr & nr & Fr & Br).
      exists (CMethod cr m []), (Un u nr); cbn [fold_expr map sequence build all_some]; rewrite Fr, Br; split; auto.
      apply unary_call; auto.
    + destruct A as (A & Aa & M); cbn [in_scope] in B; destruct B as [B Ba].
      inversion IHa as [|? ? IHa' _]; subst; destruct (IHr A B) as (cr & nr & Fr & Br), (IHa' Aa Ba) as (ca & na & Fa & Ea).
      assert (Q : exists n, apply_method m nr [na] = Some n).
      { simpl in M; repeat (destruct M as [<-|M]; [eexists; reflexivity|]); destruct M. }
      destruct Q as [n Q]; exists (CMethod cr m [ca]), n; cbn [fold_expr map sequence build all_some].
      rewrite Fr, Fa; cbn [res_bind res_map]; split; auto; rewrite Br, Ea; exact Q.
Qed.
End Meaning.

(** * Value of the converted expression *)
Section Value.
Context {F : Type} {S : Scalar F}.

Lemma holds_teq (v : value F) a b : holds v a -> teq a b -> holds v b.
Proof.
  intros [D H] [D' E]; split; [congruence|]; intros ix B; rewrite H by (rewrite D'; auto).
  apply E; rewrite D'; auto.
Qed.

(** Exact arithmetic; any trees, when the converted tree is well typed and regular. *)
Lemma converted_exact um G (env : string -> option (node F)) num val e c n t k (rho : ctx F) :
  exact F -> (forall u x, un_fn u x = um u x) ->
  (forall l x, num l = Some x -> val l = x) ->
  (forall l, two (RLit l) -> val l = ftwo) ->
  fold_expr e = Ok c -> build env num c = Some n ->
  meaning um rho env val e = Some t -> scalar_powers um rho env val e ->
  node_wf n -> novec G n -> square G n -> typeof G n = Some k ->
  cache_free n = true -> ctx_ok G rho -> (forall i, uses n i -> rho i <> None) -> regular um rho n ->
  exists v, evaluate n rho = (rho, Ok v) /\ sty_of (bty_of v) = k /\ holds v t.
Proof.
  intros EX UM Hn H2 Hf Hb Hm Hp W NN SQ T Cf O D Rg.
  destruct (value_total um G n k rho EX UM W NN SQ T Cf O D Rg) as (v & E & K & H).
  exists v; split; auto; split; auto; apply (holds_teq v _ _ H).
  eapply (meaning_teq um rho env num val); eauto.
  intros l x T2; rewrite (H2 l T2), <- UM; reflexivity.
Qed.

(** Trees that evaluate to one scalar. *)
Definition one_scalar (rho : ctx F) (m : node F) : Prop :=
  exists x, evaluate m rho = (rho, Ok (VScal x)) /\ evaluate_spec m rho = (rho, Ok (Raw (VScal x))).

Lemma elementwise_one rho m v :
  ctx_wf rho -> elementwise rho m -> node_wf m -> tdims (den un_fn rho m) = [] ->
  evaluate m rho = (rho, Ok v) -> one_scalar rho m.
Proof.
  intros Wc El W D E.
  assert (A := lifted_agrees m rho (elementwise_spine rho m El)); rewrite E in A.
  destruct (elementwise_spec rho m Wc W El rho eq_refl) as [C1 G]; unfold evaluate_spec in *.
  destruct (f_spec (interp m) rho) as [c' [s| | |]] eqn:Es; simpl in *; try discriminate.
  destruct (G s eq_refl) as (w & -> & Ww & [Dw Hw]); simpl in A; injection A as A1 A2; subst w c'.
  rewrite D in Dw; unfold vshape in Dw; destruct v as [x|? ?|l|ds a]; try discriminate.
  - exists x; split; auto.
  - simpl in Ww, Dw; destruct Ww as [_ L]; simpl in Dw; subst ds; simpl in L; lia.
Qed.

Lemma one_un u rho m : one_scalar rho m -> one_scalar rho (Un u m).
Proof.
  intros (x & E & Q); exists (un_fn u x); unfold evaluate, evaluate_spec in *; simpl; rewrite E, Q; auto.
Qed.
Lemma one_bin rho l r (mk : node F -> node F -> node F) :
  In mk [Add; Sub; Mul; Div; Power] -> one_scalar rho l -> one_scalar rho r -> one_scalar rho (mk l r).
Proof.
  intros I (x & E1 & Q1) (y & E2 & Q2); unfold evaluate, evaluate_spec in *.
  repeat (destruct I as [<-|I]); try destruct I;
    [exists (fadd x y)|exists (fsub x y)|exists (fmul x y)|exists (fdiv x y)|exists (fpow x y)];
    cbn [interp]; (split; [cbn|cbn]);
    unfold eval_by_spec, default_spec, both, both_eval; rewrite ?E1, ?Q1; cbn; rewrite ?E2, ?Q2; reflexivity.
Qed.

(** Scalars: any scalar type, no condition on the order. *)
Lemma scalar_elementwise (env : string -> option (node F)) num e c n (rho : ctx F) :
  arithmetic e -> ctx_wf rho ->
  (forall p m, env p = Some m -> elementwise rho m /\ node_wf m /\ tdims (den un_fn rho m) = [] /\
                                 exists v, evaluate m rho = (rho, Ok v)) ->
  fold_expr e = Ok c -> build env num c = Some n ->
  elementwise rho n /\ node_wf n /\ tdims (den un_fn rho n) = [] /\ one_scalar rho n.
Proof.
  intros A Wc He; revert c n A; induction e as [op l r IHl IHr|x|e IH|p|r m args IHr IHa|pf e IH|cs IHc] using rexpr_ind';
    intros c n A Hf Hb; try contradiction.
  - destruct A as (U & A1 & A2).
    apply fold_bin in Hf as [(-> & T & l' & Fl & ->)|(NT & m & l' & r' & M & Fl & Fr & ->)];
      cbn [build map all_some] in Hb; (destruct (build env num l') as [nl|] eqn:Bl; [|discriminate]).
    + injection Hb as <-; destruct (IHl _ _ A1 Fl Bl) as (E1 & W1 & D1 & O1); simpl; auto using one_un.
    + destruct (build env num r') as [nr|] eqn:Br; [|discriminate]; simpl in Hb.
      destruct (IHl _ _ A1 Fl Bl) as (E1 & W1 & D1 & O1); destruct (IHr _ _ A2 Fr Br) as (E2 & W2 & D2 & O2).
      assert (K : keeps_order (den un_fn rho nl) (den un_fn rho nr)).
      { intros _; rewrite D2; simpl; lia. }
      destruct op; try discriminate; injection M as <-; injection Hb as <-;
        (split; [simpl; auto|split; [simpl; auto|split; [simpl; rewrite ?D1, ?D2; auto|]]]);
        apply one_bin; simpl; auto 7.
  - destruct x as [a|a|a]; simpl in Hf; try contradiction; injection Hf as <-; simpl in Hb;
      (destruct (num _) as [y|]; [|discriminate]); injection Hb as <-; simpl;
      (repeat (split; auto)); exists y; split; reflexivity.
  - simpl in Hf; destruct (fold_expr e) as [e'|u| |] eqn:Fe; try discriminate; injection Hf as <-.
    apply (IH e'); auto.
  - simpl in Hf; injection Hf as <-; simpl in Hb; destruct (He p n Hb) as (E & W & D & v & V).
    split; auto; split; auto; split; auto; apply (elementwise_one rho n v); auto.
  - destruct args as [|a [|? ?]]; [| |contradiction].
    + apply fold_method0 in Hf as (r' & Fr & ->); cbn [build map all_some] in Hb.
      destruct A as [A M], (unary_names m M) as [u U].
      destruct (build env num r') as [nr|] eqn:Br; [|discriminate].
      rewrite (unary_call m u nr U) in Hb; injection Hb as <-.
      destruct (IHr _ _ A Fr Br) as (E1 & W1 & D1 & O1); simpl; auto using one_un.
    + apply fold_method1 in Hf as (r' & a' & Fr & Fa & ->); cbn [build map all_some] in Hb.
      inversion IHa as [|? ? IHa' _]; subst; destruct A as (A1 & A2 & M).
      destruct (build env num r') as [nl|] eqn:Bl; [|discriminate].
      destruct (build env num a') as [nr|] eqn:Br; [|discriminate]; cbn [option_map] in Hb.
      destruct (IHr _ _ A1 Fr Bl) as (E1 & W1 & D1 & O1); destruct (IHa' _ _ A2 Fa Br) as (E2 & W2 & D2 & O2).
      assert (K : keeps_order (den un_fn rho nl) (den un_fn rho nr)).
      { intros _; rewrite D2; simpl; lia. }
      simpl in M; repeat (destruct M as [<-|M]); try contradiction; simpl in Hb; injection Hb as <-;
        (split; [simpl; auto|split; [simpl; auto|split; [simpl; rewrite ?D1, ?D2; auto|]]]);
        apply one_bin; simpl; auto 7.
Qed.

Lemma arithmetic_meaning um (env : string -> option (node F)) val e (rho : ctx F) : arithmetic e ->
  (forall p, inside (RPath p) e -> env p <> None) ->
  exists t, meaning um rho env val e = Some t.
Proof.
  induction e as [op l r IHl IHr|x|e IH|p|r m args IHr IHa|pf e IH|cs IHc] using rexpr_ind'; intros A B; try contradiction.
  - destruct A as (U & A1 & A2).
    destruct IHl as [tl Hl]; [auto|intros p J; apply B; apply in_left; auto|].
    destruct IHr as [tr Hr]; [auto|intros p J; apply B; apply in_right; auto|].
    unfold unsupported in U; destruct op; cbn [meaning]; rewrite ?Hl, ?Hr; unfold combine; eauto; tauto.
  - destruct x; simpl in *; eauto; tauto.
  - apply IH; auto; intros p J; apply B; apply in_paren; auto.
  - simpl; destruct (env p) eqn:E; simpl; eauto; destruct (B p (in_self _) E).
  - destruct args as [|a [|? ?]]; [| |contradiction].
    + destruct A as [A M], (unary_names m M) as [u U]; cbn [meaning]; rewrite U.
      destruct IHr as [t ->]; [auto|intros p J; apply B; apply in_recv; auto|]; simpl; eauto.
    + destruct A as (A & Aa & M), (binary_names m M) as [f U]; cbn [meaning]; rewrite U.
      inversion IHa as [|? ? IHa' _]; subst.
      destruct IHr as [t ->]; [auto|intros p J; apply B; apply in_recv; auto|].
      destruct IHa' as [t' ->]; [auto|intros p J; apply B; apply (in_arg _ _ _ _ a); simpl; auto|]; simpl; eauto.
Qed.

Lemma scope_paths (env : string -> option (node F)) num e p :
  arithmetic e -> in_scope env num e -> inside (RPath p) e -> env p <> None.
Proof.
  induction e as [op l r IHl IHr|x|e IH|q|r m args IHr IHa|pf e IH|cs IHc] using rexpr_ind'; intros A B J; try contradiction.
  - destruct A as (U & A1 & A2).
    inversion J as [|? ? ? ? Jl|? ? ? ? Jr| | | | |]; subst; [apply IHl; auto; destruct op; simpl in B; tauto|].
    assert (X : two r \/ in_scope env num r) by (destruct op; simpl in B; tauto).
    destruct X as [[-> | ->]|X]; [inversion Jr|inversion Jr|apply IHr; auto].
  - inversion J.
  - inversion J; subst; apply IH; auto.
  - inversion J; subst; auto.
  - destruct args as [|a [|? ?]]; [| |contradiction].
    + inversion J as [| | | |? ? ? ? Jr|? ? ? ? ? Ja _| |]; subst; [|destruct Ja]; apply IHr; auto; destruct A; auto.
    + inversion IHa as [|? ? IHa' _]; subst; destruct A as (A1 & A2 & _), B as [B1 B2].
      inversion J as [| | | |? ? ? ? Jr|? ? ? ? b Ja Jb| |]; subst; [apply IHr; auto|].
      destruct Ja as [<-|[]]; apply IHa'; auto.
Qed.

Lemma scalar_dims um (env : string -> option (node F)) val e (rho : ctx F) t :
  arithmetic e ->
  (forall p m, env p = Some m -> tdims (den um rho m) = []) ->
  meaning um rho env val e = Some t -> tdims t = [].
Proof.
  intros A He; revert t A; induction e as [op l r IHl IHr|x|e IH|p|r m args IHr IHa|pf e IH|cs IHc] using rexpr_ind';
    intros t A Hm; try contradiction.
  - destruct A as (_ & A1 & A2); destruct op; cbn [meaning] in Hm; try discriminate; unfold combine in Hm;
      (destruct (meaning um rho env val l) as [tl|]; [|discriminate]);
      (destruct (meaning um rho env val r) as [tr|]; [|discriminate]); injection Hm as <-;
      simpl; rewrite (IHl tl A1 eq_refl); apply IHr; auto.
  - destruct x; simpl in Hm; try discriminate; injection Hm as <-; auto.
  - auto.
  - simpl in Hm; destruct (env p) eqn:E; [|discriminate]; injection Hm as <-; apply (He p); auto.
  - destruct args as [|a [|? ?]]; [| |contradiction].
    + destruct A as [A M], (unary_names m M) as [u U]; cbn [meaning] in Hm; rewrite U in Hm.
      destruct (meaning um rho env val r) as [tr|]; [|discriminate]; injection Hm as <-; simpl; auto.
    + destruct A as (A & Aa & M), (binary_names m M) as [f U]; cbn [meaning] in Hm; rewrite U in Hm.
      inversion IHa as [|? ? IHa' _]; subst; unfold combine in Hm.
      destruct (meaning um rho env val r) as [tr|]; [|discriminate].
      destruct (meaning um rho env val a) as [ta|]; [|discriminate]; injection Hm as <-; simpl.
      rewrite (IHr tr A eq_refl); apply IHa'; auto.
Qed.

Lemma scalar_powers_all um (env : string -> option (node F)) val e (rho : ctx F) :
  arithmetic e ->
  (forall p m, env p = Some m -> tdims (den um rho m) = []) -> scalar_powers um rho env val e.
Proof.
  intros A He; revert A; induction e as [op l r IHl IHr|x|e IH|p|r m args IHr IHa|pf e IH|cs IHc] using rexpr_ind'; intro A;
    try exact Logic.I; try contradiction.
  - destruct A as (U & A1 & A2).
    assert (B : scalar_powers um rho env val l /\ scalar_powers um rho env val r) by auto.
    destruct op; try exact B; destruct B; split; auto; split; auto; right; intros a b Ha Hb; split;
      [apply (scalar_dims um env val l rho)|apply (scalar_dims um env val r rho)]; auto.
  - simpl; auto.
  - destruct args as [|a [|? ?]]; [| |contradiction].
    + destruct A as [A M]; simpl; auto.
    + destruct A as (A & Aa & M); inversion IHa as [|? ? IHa' _]; subst; simpl; split; auto; split; auto.
      intros _ x y Hx Hy; split; [apply (scalar_dims um env val r rho)|apply (scalar_dims um env val a rho)]; auto.
Qed.

Lemma converted_scalar (env : string -> option (node F)) num val e (rho : ctx F) :
  (forall l x, num l = Some x -> val l = x) ->
  (forall l, two (RLit l) -> val l = ftwo) ->
  arithmetic e -> in_scope env num e -> ctx_wf rho ->
  (forall p m, env p = Some m -> elementwise rho m /\ node_wf m /\ tdims (den un_fn rho m) = [] /\
                                 exists v, evaluate m rho = (rho, Ok v)) ->
  exists c n t x, fold_expr e = Ok c /\ build env num c = Some n /\ meaning un_fn rho env val e = Some t /\
    evaluate n rho = (rho, Ok (VScal x)) /\ holds (VScal x) t.
Proof.
  intros Hn H2 A I Wc He.
  destruct (build_defined env num e A I) as (c & n & Hf & Hb).
  assert (Hm : exists t, meaning un_fn rho env val e = Some t).
  { apply arithmetic_meaning; auto; intros p; apply (scope_paths env num e); auto. }
  destruct Hm as [t Hm]; exists c, n, t.
  destruct (scalar_elementwise env num e c n rho A Wc He Hf Hb) as (El & W & _ & x & E & _); exists x.
  split; auto; split; auto; split; auto; split; auto.
  destruct (elementwise_claim rho rho n (VScal x) Wc W El E) as [_ H].
  assert (T : teq (den un_fn rho n) t).
  { eapply (meaning_teq un_fn rho env num val); eauto; [intros l y T2; rewrite (H2 l T2); reflexivity|].
    apply scalar_powers_all; auto; intros p m Ep; apply (He p m Ep). }
  exact (holds_teq _ _ _ H T).
Qed.
End Value.
