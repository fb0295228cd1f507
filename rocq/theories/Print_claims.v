(** Proofs about the tokens returned by [aegir!], in the form used by Properties_macros.v. *)
From Coq Require Import List Arith ZArith Bool String Lia.
Import ListNotations.
From Verif Require Import Base Shapes Scalar Buffers Spec Contraction Node Eval Types Instances Vocab Math
  Ids Derive Compile Syntax Macro_math Math_claims Compile_claims Syntax_claims.

Section Ind.
Variable P : cexpr -> Prop.
Hypothesis Hconst : forall l, P (CConst l).
Hypothesis Hlit : forall l, P (CLit l).
Hypothesis Hparen : forall e, P e -> P (CParen e).
Hypothesis Hpath : forall p, P (CPath p).
Hypothesis Hmeth : forall r m args, P r -> Forall P args -> P (CMethod r m args).
Hypothesis Hprefix : forall p e, P e -> P (CPrefix p e).
Hypothesis Hother : forall cs, Forall P cs -> P (COther cs).
Fixpoint cexpr_ind' (e : cexpr) : P e :=
  let all := fix all l : Forall P l :=
    match l with [] => Forall_nil _ | x :: l' => Forall_cons x (cexpr_ind' x) (all l') end in
  match e with
  | CConst l => Hconst l
  | CLit l => Hlit l
  | CParen e => Hparen e (cexpr_ind' e)
  | CPath p => Hpath p
  | CMethod r m args => Hmeth r m args (cexpr_ind' r) (all args)
  | CPrefix p e => Hprefix p e (cexpr_ind' e)
  | COther cs => Hother cs (all cs)
  end.
End Ind.

(** * What the tokens are read as *)
Definition wrap (ps : list prefix) (e : rexpr) : rexpr := fold_right RPrefix e ps.

Lemma under_wrap f ps b : ~ prefixed b -> under_prefixes f (wrap ps b) = wrap ps (f b).
Proof.
  intro N; induction ps as [|p ps IH]; simpl; [|rewrite IH; auto].
  destruct b; auto; destruct N; eexists; eexists; reflexivity.
Qed.

Lemma prefix_printed p e ts : unary e ts -> unary (RPrefix p e) (print_prefix p :: ts).
Proof. destruct p; simpl; [apply unary_neg|apply unary_deref|apply unary_not|apply unary_ref]. Qed.
Lemma wrap_unary ps b tb : operand b tb -> unary (wrap ps b) (map print_prefix ps ++ tb).
Proof. intro O; induction ps as [|p ps IH]; simpl; [constructor; auto|apply prefix_printed; auto]. Qed.

Lemma unary_power e ts : unary e ts -> power e ts.
Proof. intro H; constructor; constructor; constructor; auto. Qed.

Definition spelled (c : cexpr) : Prop := forall ts, print c = Some ts ->
  exists ps b tb, reread (as_expr c) = wrap ps b /\ ts = map print_prefix ps ++ tb /\ operand b tb /\ ~ prefixed b.

Lemma spelled_power c ts : spelled c -> print c = Some ts -> power (reread (as_expr c)) ts.
Proof.
  intros H E; destruct (H ts E) as (ps & b & tb & -> & -> & O & _); apply unary_power; apply wrap_unary; auto.
Qed.

Lemma print_args_one a : print_args [a] = a.
Proof. destruct a; reflexivity. Qed.

Lemma print_args_more a b l : print_args (a :: b :: l) =
  match a with Some x => option_map (fun r => x ++ XComma :: r) (print_args (b :: l)) | None => None end.
Proof. destruct a; reflexivity. Qed.

Lemma spelled_args args ta : Forall spelled args -> print_args (map print args) = Some ta ->
  arguments (map reread (map as_expr args)) ta.
Proof.
  intro H; revert ta; induction H as [|c args Hc H IH]; intros ta E; [injection E as <-; constructor|].
  destruct args as [|d args].
  - cbn [map] in *; rewrite print_args_one in E; apply args_last; exact (spelled_power c ta Hc E).
  - cbn [map] in E; rewrite print_args_more in E; destruct (print c) as [tc|] eqn:Ec; [|discriminate].
    destruct (print_args (print d :: map print args)) as [r|] eqn:Er; [|discriminate].
    injection E as <-; cbn [map]; apply args_more; [apply spelled_power; auto|].
    apply (IH r Er).
Qed.

Lemma print_spelled c : spelled c.
Proof.
  induction c as [l|l|e IH|p|r m args IHr IHa|p e IH|cs IHc] using cexpr_ind'; intros ts E.
  - injection E as <-; exists [], (block l), [XBlock l]; repeat split; auto; [constructor|].
    intros (p & x & Q); discriminate.
  - injection E as <-; exists [], (RLit l), [XLit l]; repeat split; auto; [constructor|].
    intros (p & x & Q); discriminate.
  - cbn [print] in E; destruct (print e) as [te|] eqn:Ee; [|discriminate]; injection E as <-.
    exists [], (RParen (reread (as_expr e))), [XParen te]; repeat split; auto.
    + constructor; apply spelled_power; auto.
    + intros (p & x & Q); discriminate.
  - injection E as <-; exists [], (RPath p), [XPath p]; repeat split; auto; [constructor|].
    intros (q & x & Q); discriminate.
  - cbn [print] in E; destruct (print r) as [tr|] eqn:Er; [|discriminate].
    destruct (print_args (map print args)) as [ta|] eqn:Ea; [|discriminate]; injection E as <-.
    destruct (IHr tr Er) as (ps & b & tb & Hb & -> & O & N).
    exists ps, (RMethod b m (map reread (map as_expr args))), (tb ++ [XDot; XPath m; XParen ta]).
    cbn [as_expr reread]; rewrite Hb, under_wrap by auto; split; auto; split; [rewrite app_assoc; auto|].
    split; [constructor; auto; apply spelled_args; auto|intros (q & x & Q); discriminate].
  - cbn [print] in E; destruct (print e) as [te|] eqn:Ee; [|discriminate]; injection E as <-.
    destruct (IH te Ee) as (ps & b & tb & Hb & -> & O & N).
    exists (p :: ps), b, tb; cbn [as_expr reread]; rewrite Hb; auto.
  - discriminate.
Qed.

Lemma print_reread c ts : print c = Some ts -> parse_tokens ts = Some (reread (as_expr c)).
Proof. intro E; apply parse_grammar; apply spelled_power; auto; apply print_spelled. Qed.

(** * When that is the converted expression *)
Definition calls_plain (e : rexpr) : Prop := forall r m args, inside (RMethod r m args) e -> ~ prefixed r.

Lemma reread_prefix e : prefixed e -> prefixed (reread e).
Proof. intros (p & x & ->); eexists; eexists; reflexivity. Qed.
Lemma under_not f e : ~ prefixed e -> under_prefixes f e = f e.
Proof. destruct e; auto; intro N; destruct N; eexists; eexists; reflexivity. Qed.
Lemma under_yes f e : prefixed e -> prefixed (under_prefixes f e).
Proof. intros (p & x & ->); eexists; eexists; reflexivity. Qed.
Lemma prefixed_dec e : prefixed e \/ ~ prefixed e.
Proof.
  destruct e; try (right; intros (q & x & H); discriminate); left; eexists; eexists; reflexivity.
Qed.

(** Expressions as the converter returns them: no operators, and the only other kind of
    expression is the block around a constant. *)
Fixpoint converted (e : rexpr) : Prop :=
  match e with
  | RBin _ _ _ => False
  | RLit _ | RPath _ => True
  | RParen e | RPrefix _ e => converted e
  | RMethod r _ args => converted r /\ fold_right (fun a P => converted a /\ P) True args
  | ROther _ => exists l, e = block l
  end.

Lemma map_id_iff {A} (f : A -> A) l : map f l = l <-> Forall (fun x => f x = x) l.
Proof.
  induction l as [|x l IH]; simpl; split; intro H; auto.
  - injection H as H1 H2; constructor; auto; apply IH; auto.
  - inversion H; subst; f_equal; auto; apply IH; auto.
Qed.

Lemma block_plain l r m args : ~ inside (RMethod r m args) (block l).
Proof.
  intro I; unfold block in I.
  inversion I as [| | | | | | |? ? ? J I']; subst; destruct J as [<-|[]].
  inversion I' as [| | | | | | |? ? ? J I'']; subst; destruct J as [<-|[<-|[]]]; inversion I''.
Qed.

Lemma reread_same e : converted e -> (reread e = e <-> calls_plain e).
Proof.
  induction e as [op l r IHl IHr|x|e IH|p|r m args IHr IHa|pf e IH|cs IHc] using rexpr_ind'; intro C; try contradiction.
  - split; auto; intros _ r m args I; inversion I.
  - cbn [reread]; split.
    + intros H r m args I; assert (reread e = e) by congruence.
      inversion I; subst; apply (proj1 (IH C) H0 r m args); auto.
    + intro H; rewrite (proj2 (IH C)); auto; intros r m args I; apply (H r m args); apply in_paren; auto.
  - split; auto; intros _ r m args I; inversion I.
  - destruct C as [Cr Ca]; cbn [reread].
    assert (Ca' : forall a, In a args -> converted a).
    { clear -Ca; induction args as [|b args IH]; simpl in *; [tauto|]; intros a [<-|I]; [tauto|apply IH; tauto]. }
    rewrite Forall_forall in IHa; split.
    + intros H.
      assert (N : ~ prefixed (reread r)).
      { intro N; apply (under_yes (fun b => RMethod b m (map reread args))) in N; rewrite H in N.
        destruct N as (p & x & Q); discriminate. }
      rewrite under_not in H by auto; injection H as Hr Ha; apply map_id_iff in Ha; rewrite Forall_forall in Ha.
      intros r' m' args' I; inversion I as [| | | |? ? ? ? Ir|? ? ? ? a Ja Ia| |]; subst.
      * intro Q; apply N; rewrite Hr; auto.
      * apply (proj1 (IHr Cr) Hr r' m' args'); auto.
      * apply (proj1 (IHa a Ja (Ca' a Ja)) (Ha a Ja) r' m' args'); auto.
    + intro H.
      assert (Hr : reread r = r).
      { apply IHr; auto; intros r' m' args' I; apply (H r' m' args'); apply in_recv; auto. }
      assert (Ha : map reread args = args).
      { apply map_id_iff, Forall_forall; intros a J; apply (IHa a J); auto.
        intros r' m' args' I; apply (H r' m' args'); apply (in_arg _ _ _ _ a); auto. }
      rewrite Hr, Ha, under_not; auto; apply (H r m args); constructor.
  - cbn [reread]; split.
    + intros H r m args I; assert (reread e = e) by congruence.
      inversion I; subst; apply (proj1 (IH C) H0 r m args); auto.
    + intro H; rewrite (proj2 (IH C)); auto; intros r m args I; apply (H r m args); apply in_prefix; auto.
  - split; auto; intros _ r m args I; destruct C as [l C]; rewrite C in I; apply block_plain in I; auto.
Qed.

Lemma printed_converted c ts : print c = Some ts -> converted (as_expr c).
Proof.
  revert ts; induction c as [l|l|e IH|p|r m args IHr IHa|p e IH|cs IHc] using cexpr_ind'; intros ts E; simpl; auto.
  - eexists; reflexivity.
  - cbn [print] in E; destruct (print e) as [te|] eqn:Ee; [|discriminate]; apply (IH te eq_refl).
  - cbn [print] in E; destruct (print r) as [tr|] eqn:Er; [|discriminate]; split; [apply (IHr tr eq_refl)|].
    destruct (print_args (map print args)) as [ta|] eqn:Ea; [|discriminate]; clear -IHa Ea.
    revert ta Ea; induction IHa as [|c args Hc H IH]; intros ta Ea; simpl; auto.
    destruct args as [|d args].
    + cbn [map] in Ea; rewrite print_args_one in Ea; split; [apply (Hc ta Ea)|exact Logic.I].
    + cbn [map] in Ea; rewrite print_args_more in Ea; destruct (print c) as [tc|] eqn:Ec; [|discriminate].
      destruct (print_args (print d :: map print args)) as [r|] eqn:Er; [|discriminate].
      split; [apply (Hc tc eq_refl)|apply (IH r Er)].
  - cbn [print] in E; destruct (print e) as [te|] eqn:Ee; [|discriminate]; apply (IH te eq_refl).
  - discriminate.
Qed.

Lemma print_kept c ts : print c = Some ts ->
  (parse_tokens ts = Some (as_expr c) <->
   forall r m args, inside (RMethod r m args) (as_expr c) -> ~ prefixed r).
Proof.
  intro E; rewrite (print_reread c ts E); rewrite <- (reread_same (as_expr c)).
  - split; congruence.
  - apply (printed_converted c ts); auto.
Qed.

(** * In terms of the source *)
Lemma fold_prefixed e c : fold_expr e = Ok c -> (prefixed e <-> prefixed (as_expr c)).
Proof.
  destruct e as [op l r|x|e|p|r m args|pf e|cs]; intro H.
  - apply fold_bin in H as [(_ & _ & l' & _ & ->)|(_ & m & l' & r' & _ & _ & _ & ->)];
      split; intros (q & x & Q); discriminate.
  - destruct x; injection H as <-; split; intros (q & y & Q); discriminate.
  - cbn [fold_expr] in H; destruct (fold_expr e); try discriminate; injection H as <-; split; intros (q & y & Q); discriminate.
  - injection H as <-; split; intros (q & y & Q); discriminate.
  - apply fold_method in H as (r' & args' & _ & _ & ->); split; intros (q & y & Q); discriminate.
  - cbn [fold_expr] in H; destruct (fold_expr e); try discriminate; injection H as <-; split; intros _;
      eexists; eexists; reflexivity.
  - cbn [fold_expr] in H; destruct (sequence _); try discriminate; injection H as <-; split; intros (q & y & Q); discriminate.
Qed.

Lemma sequence_in l cs : sequence (map fold_expr l) = Ok cs ->
  (forall c, In c cs -> exists e, In e l /\ fold_expr e = Ok c) /\
  (forall e, In e l -> exists c, In c cs /\ fold_expr e = Ok c).
Proof.
  revert cs; induction l as [|e l IH]; intros cs H; cbn [map sequence] in H.
  - injection H as <-; split; intros x [].
  - destruct (fold_expr e) as [c| | |] eqn:Ec; try discriminate; cbn [res_bind] in H.
    destruct (sequence (map fold_expr l)) as [ds| | |]; try discriminate; injection H as <-.
    destruct (IH ds eq_refl) as [H1 H2]; split.
    + intros x [<-|I]; [exists e; simpl; auto|destruct (H1 x I) as (y & J & Q); exists y; simpl; auto].
    + intros x [<-|I]; [exists c; simpl; auto|destruct (H2 x I) as (y & J & Q); exists y; simpl; auto].
Qed.

(** No left operand and no receiver is prefixed. *)
Definition sources_plain (e : rexpr) : Prop :=
  (forall op l r, inside (RBin op l r) e -> ~ prefixed l) /\
  (forall r m args, inside (RMethod r m args) e -> ~ prefixed r).

Lemma sources_bin op l r : ~ (op = BXor /\ two r) ->
  (sources_plain (RBin op l r) <-> ~ prefixed l /\ sources_plain l /\ sources_plain r).
Proof.
  intros _; split.
  - intros [H1 H2]; split; [apply (H1 op l r); constructor|].
    split; split; intros; [apply (H1 op0 l0 r0)|apply (H2 r0 m args)|apply (H1 op0 l0 r0)|apply (H2 r0 m args)];
      auto using in_left, in_right.
  - intros (N & [L1 L2] & [R1 R2]); split; intros a b c' I; inversion I; subst; eauto.
Qed.
Lemma sources_two l r op : two r -> (sources_plain (RBin op l r) <-> ~ prefixed l /\ sources_plain l).
Proof.
  intro T; split.
  - intros [H1 H2]; split; [apply (H1 op l r); constructor|].
    split; intros; [apply (H1 op0 l0 r0)|apply (H2 r0 m args)]; auto using in_left.
  - intros (N & [L1 L2]); split; intros a b c' I; inversion I; subst; eauto;
      destruct T as [-> | ->]; match goal with H : inside _ (RLit _) |- _ => inversion H end.
Qed.

Lemma calls_method r m args : calls_plain (RMethod r m args) <->
  ~ prefixed r /\ calls_plain r /\ forall a, In a args -> calls_plain a.
Proof.
  split.
  - intro H; split; [apply (H r m args); constructor|split].
    + intros r' m' args' I; apply (H r' m' args'); apply in_recv; auto.
    + intros a J r' m' args' I; apply (H r' m' args'); apply (in_arg _ _ _ _ a); auto.
  - intros (N & Hr & Ha) r' m' args' I; inversion I as [| | | |? ? ? ? Ir|? ? ? ? a Ja Ia| |]; subst; auto.
    + apply (Hr r' m' args'); auto.
    + apply (Ha a Ja r' m' args'); auto.
Qed.
Lemma calls_block l : calls_plain (block l).
Proof. intros r m args I; apply block_plain in I; destruct I. Qed.
Lemma calls_leaf e : (forall s, inside s e -> s = e) -> (forall r m args, e <> RMethod r m args) -> calls_plain e.
Proof. intros L N r m args I; apply L in I; exfalso; apply (N r m args); auto. Qed.

Lemma sources_calls e c ts : fold_expr e = Ok c -> print c = Some ts ->
  (sources_plain e <-> calls_plain (as_expr c)).
Proof.
  revert c ts; induction e as [op l r IHl IHr|x|e IH|p|r m args IHr IHa|pf e IH|cs IHc] using rexpr_ind'; intros c ts H P.
  - apply fold_bin in H as [(-> & T & l' & Fl & ->)|(NT & m & l' & r' & M & Fl & Fr & ->)].
    + rewrite (sources_two l r BXor T); cbn [as_expr map]; rewrite calls_method.
      cbn [print map print_args] in P; destruct (print l') as [tl|] eqn:El; [|discriminate].
      rewrite (IHl l' tl Fl El), (fold_prefixed l l' Fl); split; [intros [N Q]|intros (N & Q & _)]; auto.
      split; auto; split; auto; intros a [].
    + rewrite (sources_bin op l r NT); cbn [as_expr map]; rewrite calls_method.
      cbn [print map] in P; rewrite print_args_one in P; destruct (print l') as [tl|] eqn:El; [|discriminate].
      destruct (print r') as [tr|] eqn:Er; [|discriminate].
      rewrite (IHl l' tl Fl El), (IHr r' tr Fr Er), (fold_prefixed l l' Fl).
      split; intros (N & Q & R0); split; auto; split; auto; [intros a [<-|[]]; auto|].
      apply R0; simpl; auto.
  - assert (A : sources_plain (RLit x)) by (split; intros ? ? ? I; inversion I).
    split; auto; intros _; destruct x; injection H as <-; cbn [as_expr]; try apply calls_block.
    apply calls_leaf; [intros s I; inversion I; auto|discriminate].
  - cbn [fold_expr] in H; destruct (fold_expr e) as [e'| | |] eqn:Fe; try discriminate; injection H as <-.
    cbn [print] in P; destruct (print e') as [te|] eqn:Ee; [|discriminate].
    assert (A : sources_plain (RParen e) <-> sources_plain e).
    { split; intros [H1 H2]; split; intros a b d I;
        [apply (H1 a b d)|apply (H2 a b d)|inversion I; subst; apply (H1 a b d)|inversion I; subst; apply (H2 a b d)];
        auto using in_paren. }
    rewrite A, (IH e' te eq_refl Ee); cbn [as_expr]; split; intros Q a b d I;
      [inversion I; subst; apply (Q a b d); auto|apply (Q a b d); apply in_paren; auto].
  - injection H as <-; split; intros _.
    + apply calls_leaf; [intros s I; inversion I; auto|discriminate].
    + split; intros ? ? ? I; inversion I.
  - apply fold_method in H as (r' & args' & Fr & Fa & ->); cbn [as_expr]; rewrite calls_method.
    destruct (sequence_in args args' Fa) as [S1 S2].
    cbn [print] in P; destruct (print r') as [tr|] eqn:Er; [|discriminate].
    destruct (print_args (map print args')) as [ta|] eqn:Ea; [|discriminate].
    assert (Pa : forall d, In d args' -> exists td, print d = Some td).
    { clear -Ea; revert ta Ea; induction args' as [|d args' IH]; intros ta Ea x I; [destruct I|].
      destruct args' as [|d' args'].
      - cbn [map] in Ea; rewrite print_args_one in Ea; destruct I as [<-|[]]; eauto.
      - cbn [map] in Ea; rewrite print_args_more in Ea; destruct (print d) as [td|] eqn:Ed; [|discriminate].
        destruct (print_args (print d' :: map print args')) as [rr|] eqn:Err; [|discriminate].
        destruct I as [<-|I]; [eauto|apply (IH rr Err x I)]. }
    rewrite Forall_forall in IHa.
    assert (A : sources_plain (RMethod r m args) <->
                ~ prefixed r /\ sources_plain r /\ forall a, In a args -> sources_plain a).
    { split.
      - intros [H1 H2]; split; [apply (H2 r m args); constructor|split].
        + split; intros a b d I; [apply (H1 a b d)|apply (H2 a b d)]; apply in_recv; auto.
        + intros a J; split; intros x y d I; [apply (H1 x y d)|apply (H2 x y d)]; apply (in_arg _ _ _ _ a); auto.
      - intros (N & [R1 R2] & Q); split; intros x y d I.
        + inversion I as [| | | |? ? ? ? Ir|? ? ? ? a Ja Ia| |]; subst; [apply (R1 x y d); auto|].
          destruct (Q a Ja) as [Q1 _]; apply (Q1 x y d); auto.
        + inversion I as [| | | |? ? ? ? Ir|? ? ? ? a Ja Ia| |]; subst; [auto|apply (R2 x y d); auto|].
          destruct (Q a Ja) as [_ Q2]; apply (Q2 x y d); auto. }
    rewrite A, (IHr r' tr Fr Er), (fold_prefixed r r' Fr); split; intros (N & Q1 & Q2); split; auto; split; auto.
    + intros a J; apply in_map_iff in J as (d & <- & J); destruct (S1 d J) as (e & Je & Fe), (Pa d J) as (td & Ed).
      apply (IHa e Je d td Fe Ed); auto.
    + intros e Je; destruct (S2 e Je) as (d & J & Fe), (Pa d J) as (td & Ed).
      apply (IHa e Je d td Fe Ed); apply Q2; apply in_map; auto.
  - cbn [fold_expr] in H; destruct (fold_expr e) as [e'| | |] eqn:Fe; try discriminate; injection H as <-.
    cbn [print] in P; destruct (print e') as [te|] eqn:Ee; [|discriminate].
    assert (A : sources_plain (RPrefix pf e) <-> sources_plain e).
    { split; intros [H1 H2]; split; intros a b d I;
        [apply (H1 a b d)|apply (H2 a b d)|inversion I; subst; apply (H1 a b d)|inversion I; subst; apply (H2 a b d)];
        auto using in_prefix. }
    rewrite A, (IH e' te eq_refl Ee); cbn [as_expr]; split; intros Q a b d I;
      [inversion I; subst; apply (Q a b d); auto|apply (Q a b d); apply in_prefix; auto].
  - cbn [fold_expr] in H; destruct (sequence _); try discriminate; injection H as <-; discriminate.
Qed.

(** Receivers are never prefixed in expressions that were read. *)
Lemma operand_plain e ts : operand e ts -> ~ prefixed e.
Proof. intros O (p & x & ->); inversion O. Qed.
Lemma read_plain :
  (forall e ts, power e ts -> forall r m args, inside (RMethod r m args) e -> ~ prefixed r) /\
  (forall e ts, sum_of e ts -> forall r m args, inside (RMethod r m args) e -> ~ prefixed r) /\
  (forall e ts, product e ts -> forall r m args, inside (RMethod r m args) e -> ~ prefixed r) /\
  (forall e ts, unary e ts -> forall r m args, inside (RMethod r m args) e -> ~ prefixed r) /\
  (forall e ts, operand e ts -> forall r m args, inside (RMethod r m args) e -> ~ prefixed r) /\
  (forall es ts, arguments es ts -> forall e, In e es -> forall r m args, inside (RMethod r m args) e -> ~ prefixed r).
Proof.
  apply syntax_ind; intros; eauto 3;
    try (match goal with H : inside _ (RBin _ _ _) |- _ => inversion H; subst end; eauto);
    try (match goal with H : inside _ (RPrefix _ _) |- _ => inversion H; subst end; eauto).
  - inversion H.
  - inversion H.
  - apply block_plain in H; destruct H.
  - inversion H0; subst; eauto.
  - inversion H1 as [| | | |? ? ? ? Ir|? ? ? ? a0 Ja Ia| |]; subst; eauto.
    apply (operand_plain _ ts); auto.
  - destruct H0 as [<-|[]]; eauto.
  - destruct H1 as [<-|J]; eauto.
Qed.

Lemma macro_kept ts e c out : power e ts -> aegir_macro ts = Ok c -> print c = Some out ->
  (parse_tokens out = Some (as_expr c) <-> forall op l r, inside (RBin op l r) e -> ~ prefixed l).
Proof.
  intros P H E; rewrite (print_kept c out E).
  assert (F : fold_expr e = Ok c).
  { unfold aegir_macro in H; apply parse_grammar in P; rewrite P in H; auto. }
  assert (S := sources_calls e c out F E); unfold sources_plain, calls_plain in S; rewrite <- S.
  split; [tauto|]; intro Q; split; auto; apply (proj1 read_plain e ts P).
Qed.

(** * Everything converted is printed *)
Definition blocks_free (e : rexpr) : Prop := forall cs, ~ inside (ROther cs) e.

Lemma fold_printed e c : blocks_free e -> fold_expr e = Ok c -> exists ts, print c = Some ts.
Proof.
  revert c; induction e as [op l r IHl IHr|x|e IH|p|r m args IHr IHa|pf e IH|cs IHc] using rexpr_ind'; intros c B H.
  - assert (Bl : blocks_free l) by (intros cs I; apply (B cs); apply in_left; auto).
    assert (Br : blocks_free r) by (intros cs I; apply (B cs); apply in_right; auto).
    apply fold_bin in H as [(_ & _ & l' & Fl & ->)|(_ & m & l' & r' & _ & Fl & Fr & ->)].
    + destruct (IHl l' Bl Fl) as [tl El]; cbn [print map print_args]; rewrite El; eauto.
    + destruct (IHl l' Bl Fl) as [tl El], (IHr r' Br Fr) as [tr Er]; cbn [print map]; rewrite print_args_one, El, Er; eauto.
  - destruct x; injection H as <-; simpl; eauto.
  - cbn [fold_expr] in H; destruct (fold_expr e) as [e'| | |]; try discriminate; injection H as <-.
    destruct (IH e') as [t E]; auto; [intros cs I; apply (B cs); apply in_paren; auto|]; cbn [print]; rewrite E; simpl; eauto.
  - injection H as <-; simpl; eauto.
  - apply fold_method in H as (r' & args' & Fr & Fa & ->).
    destruct (IHr r') as [tr Er]; auto; [intros cs I; apply (B cs); apply in_recv; auto|].
    assert (Q : exists ta, print_args (map print args') = Some ta).
    { assert (Q : forall d, In d args' -> exists td, print d = Some td).
      { intros d J; destruct (sequence_in args args' Fa) as [S1 _]; destruct (S1 d J) as (e & Je & Fe).
        rewrite Forall_forall in IHa; apply (IHa e Je d); auto.
        intros cs I; apply (B cs); apply (in_arg _ _ _ _ e); auto. }
      clear -Q; induction args' as [|d args' IH]; [simpl; eauto|].
      destruct (Q d (or_introl eq_refl)) as [td Ed]; destruct IH as [ta Ea]; [intros; apply Q; simpl; auto|].
      destruct args' as [|d' args']; [cbn [map]; rewrite print_args_one; eauto|]; cbn [map] in *; rewrite print_args_more, Ed, Ea; simpl; eauto. }
    destruct Q as [ta Ea]; cbn [print]; rewrite Er, Ea; eauto.
  - cbn [fold_expr] in H; destruct (fold_expr e) as [e'| | |]; try discriminate; injection H as <-.
    destruct (IH e') as [t E]; auto; [intros cs I; apply (B cs); apply in_prefix; auto|]; cbn [print]; rewrite E; simpl; eauto.
  - exfalso; apply (B cs); constructor.
Qed.

Lemma read_blocks :
  (forall e ts, power e ts -> forall cs, inside (ROther cs) e -> exists l, occurs (XBlock l) ts) /\
  (forall e ts, sum_of e ts -> forall cs, inside (ROther cs) e -> exists l, occurs (XBlock l) ts) /\
  (forall e ts, product e ts -> forall cs, inside (ROther cs) e -> exists l, occurs (XBlock l) ts) /\
  (forall e ts, unary e ts -> forall cs, inside (ROther cs) e -> exists l, occurs (XBlock l) ts) /\
  (forall e ts, operand e ts -> forall cs, inside (ROther cs) e -> exists l, occurs (XBlock l) ts) /\
  (forall es ts, arguments es ts -> forall e, In e es -> forall cs, inside (ROther cs) e -> exists l, occurs (XBlock l) ts).
Proof.
  assert (L : forall ts t, (exists l, occurs (XBlock l) ts) -> exists l, occurs (XBlock l) (ts ++ t)).
  { intros ts t [l O]; exists l; apply occurs_app; auto. }
  assert (R0 : forall ts t, (exists l, occurs (XBlock l) t) -> exists l, occurs (XBlock l) (ts ++ t)).
  { intros ts t [l O]; exists l; apply occurs_app; auto. }
  assert (C : forall t ts, (exists l, occurs (XBlock l) ts) -> exists l, occurs (XBlock l) (t :: ts)).
  { intros t ts [l O]; exists l; apply occurs_cons; auto. }
  assert (N : forall l g, XBlock l <> XParen g) by discriminate.
  apply syntax_ind; intros; eauto 3;
    try (match goal with H : inside _ (RBin _ _ _) |- _ => inversion H; subst end; eauto);
    try (match goal with H : inside _ (RPrefix _ _) |- _ => inversion H; subst end; eauto).
  - inversion H.
  - inversion H.
  - exists l; apply occurs_here; simpl; auto.
  - inversion H0; subst; destruct (H cs) as [l O]; auto; exists l; apply occurs_paren; auto.
  - inversion H1 as [| | | |? ? ? ? Ir|? ? ? ? a0 Ja Ia| |]; subst; eauto.
    destruct (H0 a0 Ja cs Ia) as [l O]; apply R0, C, C; exists l; apply occurs_paren; auto.
  - destruct H.
  - destruct H0 as [<-|[]]; eauto.
  - destruct H1 as [<-|J]; eauto.
Qed.

Lemma macro_printed ts c : aegir_macro ts = Ok c -> (forall l, ~ occurs (XBlock l) ts) ->
  exists out, print c = Some out.
Proof.
  unfold aegir_macro; destruct (parse_tokens ts) as [e|] eqn:E; [|discriminate]; intros H N.
  apply parse_grammar in E; apply (fold_printed e); auto; intros cs I.
  destruct (proj1 read_blocks e ts E cs I) as [l O]; apply (N l O).
Qed.

(** * Prefix operators do not build nodes *)
Lemma all_some_in {A B} (f : A -> option B) l bs x : all_some (map f l) = Some bs -> In x l -> exists b, f x = Some b.
Proof.
  revert bs; induction l as [|a l IH]; intros bs E I; [destruct I|]; cbn [map all_some] in E.
  destruct (f a) as [b|] eqn:Fa; [|discriminate]; destruct (all_some (map f l)) as [cs|]; [|discriminate].
  destruct I as [<-|I]; eauto.
Qed.
Lemma build_plain F (env : string -> option (node F)) num c n p x :
  build env num c = Some n -> ~ inside (RPrefix p x) (as_expr c).
Proof.
  revert n; induction c as [l|l|e IH|q|r m args IHr IHa|q e IH|cs IHc] using cexpr_ind'; intros n B I;
    try discriminate.
  - cbn [as_expr] in I; unfold block in I.
    inversion I as [| | | | | | |? ? ? J I']; subst; destruct J as [<-|[]].
    inversion I' as [| | | | | | |? ? ? J I'']; subst; destruct J as [<-|[<-|[]]]; inversion I''.
  - inversion I; subst; apply (IH n); auto.
  - inversion I.
  - cbn [build] in B; destruct (build env num r) as [nr|] eqn:Er; [|discriminate].
    destruct (all_some (map (build env num) args)) as [ns|] eqn:Ea; [|discriminate].
    cbn [as_expr] in I; inversion I as [| | | |? ? ? ? Ir|? ? ? ? a Ja Ia| |]; subst; [apply (IHr nr); auto|].
    apply in_map_iff in Ja as (d & <- & Jd); destruct (all_some_in _ _ _ _ Ea Jd) as [nd Ed].
    rewrite Forall_forall in IHa; apply (IHa d Jd nd); auto.
Qed.

(** * Expressions that are nodes *)
Lemma macro_node F (env : string -> option (node F)) num ts c n :
  (forall l, ~ occurs (XBlock l) ts) -> aegir_macro ts = Ok c -> build env num c = Some n ->
  exists out, print c = Some out /\ parse_tokens out = Some (as_expr c).
Proof.
  intros N H B; destruct (macro_printed ts c H N) as [out E]; exists out; split; auto.
  apply (print_kept c out E); intros r m args I (p & x & ->).
  apply (build_plain F env num c n p x B).
  clear -I; remember (RMethod (RPrefix p x) m args) as s; revert Heqs.
  induction I; intros ->; auto using in_left, in_right, in_paren, in_recv, in_prefix.
  - apply in_recv; constructor.
  - apply (in_arg _ _ _ _ a); auto.
  - apply (in_child _ _ a); auto.
Qed.
