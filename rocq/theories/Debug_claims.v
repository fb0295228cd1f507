(** What [Debug] output says (properties C89 and C90). *)
From Coq Require Import List Arith Bool String Ascii Lia.
Import ListNotations.
From Verif Require Import Base Shapes Scalar Buffers Buffers_facts Spec Contraction Node Eval Dual Fmt Fmt_math
  Fmt_claims Debug Debug_math.
Local Open Scope string_scope.

(** * Words *)

(** A text that does not go on with the word before it. *)
Definition stops (s : string) : Prop := match s with String c _ => bare c = false | _ => True end.

Lemma word_split a b x y : all_bare a = true -> all_bare b = true -> stops x -> stops y ->
  a ++ x = b ++ y -> a = b /\ x = y.
Proof.
  revert b; induction a as [|p a IH]; intros [|q b] Wa Wb Sx Sy H; simpl in *; auto.
  - subst x; simpl in Sx; apply andb_true_iff in Wb as [Wb _]; congruence.
  - subst y; simpl in Sy; apply andb_true_iff in Wa as [Wa _]; congruence.
  - injection H as -> H; apply andb_true_iff in Wa as [_ Wa], Wb as [_ Wb].
    destruct (IH b Wa Wb Sx Sy H) as [-> ->]; auto.
Qed.

Lemma all_bare_app a b : all_bare (a ++ b) = all_bare a && all_bare b.
Proof. induction a; simpl; auto; rewrite IHa, andb_assoc; auto. Qed.
Lemma digs_bare s : digs s = true -> all_bare s = true.
Proof.
  induction s as [|a s IH]; auto; simpl; intro H; apply andb_true_iff in H as [H1 H2].
  rewrite IH by auto; rewrite andb_true_r.
  unfold bare; repeat match goal with |- context [Ascii.eqb a ?c] => destruct (Ascii.eqb_spec a c); [subst; discriminate|] end.
  reflexivity.
Qed.
Lemma show_nat_word n : word (show_nat n).
Proof. split; [apply show_nat_nonempty|apply digs_bare, show_nat_digs]. Qed.

(** * Lists *)

(** A text that is not a closing bracket. *)
Definition opens (s : string) : Prop := match s with String c _ => c <> "]"%char | _ => False end.
Lemma word_opens s t : word s -> opens (s ++ t).
Proof.
  intros [N W]; destruct s as [|c s]; [congruence|]; simpl in *; apply andb_true_iff in W as [W _].
  intros ->; discriminate.
Qed.

Lemma commas_split {A} (f : A -> string) (P : A -> A -> Prop) :
  (forall a s, opens (f a ++ s)) ->
  forall l, Forall (fun a => forall b r s, stops r -> stops s -> f a ++ r = f b ++ s -> P a b /\ r = s) l ->
  forall m r s, commas (map f l) ++ "]" ++ r = commas (map f m) ++ "]" ++ s -> Forall2 P l m /\ r = s.
Proof.
  intros Op l Fl; induction Fl as [|a l Ha Fl IH]; intros m r s H.
  - destruct m as [|b m]; [injection H as ->; auto|].
    assert (O : opens (commas (map f (b :: m)) ++ "]" ++ s)).
    { destruct m; cbn [map commas]; [|rewrite app_assoc_s]; apply Op. }
    rewrite <- H in O; destruct O; reflexivity.
  - destruct m as [|b m].
    { assert (O : opens (commas (map f (a :: l)) ++ "]" ++ r)).
      { destruct l; cbn [map commas]; [|rewrite app_assoc_s]; apply Op. }
      rewrite H in O; destruct O; reflexivity. }
    assert (St : forall k t, stops (match k with [] => "" | _ => ", " ++ commas (map f k) end ++ "]" ++ t)).
    { intros [|? k] t; reflexivity. }
    assert (Sh : forall c k t, commas (map f (c :: k)) ++ t =
      f c ++ (match k with [] => "" | _ => ", " ++ commas (map f k) end ++ t)).
    { intros c [|? k] t; cbn [map commas]; rewrite ?app_assoc_s; reflexivity. }
    rewrite !Sh in H; destruct (Ha _ _ _ (St _ _) (St _ _) H) as [Hp H1].
    destruct l as [|a' l], m as [|b' m]; try discriminate H1.
    + injection H1 as ->; auto.
    + rewrite !app_assoc_s in H1; apply app_inj_l in H1; destruct (IH _ _ _ H1) as [K ->]; auto.
Qed.

Lemma commas_same {A} (f : A -> string) l m : Forall2 (fun a b => f a = f b) l m -> commas (map f l) = commas (map f m).
Proof. intro H; f_equal; induction H; simpl; congruence. Qed.

(** * Buffers *)
Section Values.
Context {F : Type}.
Variable show : F -> string.
Hypothesis Sw : forall x, word (show x).

Lemma arr_opens (a : arr F) s : opens (arr_debug show a ++ s).
Proof. destruct a; [apply word_opens, Sw|cbn; intro H; discriminate H]. Qed.

Lemma word_not_bracket s t u : word s -> s ++ t = "[" ++ u -> False.
Proof.
  intros [N W] H; destruct s as [|c s]; [congruence|]; injection H as -> _; discriminate.
Qed.

Lemma arr_split (a : arr F) : forall b r s, stops r -> stops s ->
  arr_debug show a ++ r = arr_debug show b ++ s -> arr_reads show a b /\ r = s.
Proof.
  induction a as [x|l IH] using arr_ind2; intros b r s Sr Ss H; destruct b as [y|m]; cbn [arr_debug] in H.
  - apply word_split in H as [H ->]; auto; try apply Sw; split; auto; constructor; auto.
  - rewrite app_assoc_s in H; destruct (word_not_bracket _ _ _ (Sw x) H).
  - rewrite app_assoc_s in H; symmetry in H; destruct (word_not_bracket _ _ _ (Sw y) H).
  - rewrite !app_assoc_s in H; apply app_inj_l in H.
    apply (commas_split (arr_debug show) (arr_reads show) arr_opens l IH) in H as [H ->].
    split; auto; constructor; auto.
Qed.

Lemma arr_same (a b : arr F) : arr_reads show a b -> arr_debug show a = arr_debug show b.
Proof.
  revert b; induction a as [x|l IH] using arr_ind2; intros b H; inversion H; subst; simpl; auto.
  do 2 f_equal; apply commas_same.
  clear H; revert IH; induction H1; intro IH; inversion IH; subst; constructor; auto.
Qed.

Lemma map_AF l : map (arr_debug show) (map AF l) = map show l.
Proof. rewrite map_map; reflexivity. Qed.
Lemma value_text (v : value F) :
  value_debug show v = match contents v with
                       | inl (x, y) => "(" ++ show x ++ ", " ++ show y ++ ")"
                       | inr a => arr_debug show a
                       end.
Proof. destruct v; simpl; auto; rewrite map_AF; auto. Qed.

Lemma arr_not_pair (a : arr F) s t : arr_debug show a ++ s <> "(" ++ t.
Proof.
  destruct a; [|discriminate].
  intro H; destruct (Sw x) as [N W]; cbn [arr_debug] in H; destruct (show x); [congruence|].
  injection H as -> _; discriminate.
Qed.

Lemma value_split (v w : value F) r s : stops r -> stops s ->
  value_debug show v ++ r = value_debug show w ++ s -> value_reads show v w /\ r = s.
Proof.
  intros Sr Ss; rewrite !value_text; unfold value_reads.
  destruct (contents v) as [[x y]|a], (contents w) as [[x' y']|b]; intro H.
  - rewrite !app_assoc_s in H; apply app_inj_l in H.
    apply word_split in H as [E H]; try reflexivity; try apply Sw.
    apply app_inj_l in H.
    apply word_split in H as [E' H]; try reflexivity; try apply Sw.
    apply app_inj_l in H; auto.
  - rewrite app_assoc_s in H; symmetry in H; apply arr_not_pair in H as [].
  - rewrite (app_assoc_s "(") in H; apply arr_not_pair in H as [].
  - apply arr_split in H as [H ->]; auto.
Qed.

Lemma value_same (v w : value F) : value_reads show v w -> value_debug show v = value_debug show w.
Proof.
  rewrite !value_text; unfold value_reads.
  destruct (contents v) as [[x y]|a], (contents w) as [[x' y']|b]; try tauto.
  - intros [-> ->]; auto.
  - apply arr_same.
Qed.

(** With distinct texts, equal contents. *)
Hypothesis Si : forall x y, show x = show y -> x = y.
Lemma arr_reads_eq (a b : arr F) : arr_reads show a b -> a = b.
Proof.
  revert b; induction a as [x|l IH] using arr_ind2; intros b H; inversion H; subst.
  - f_equal; auto.
  - f_equal; clear H; revert IH; induction H1; intro IH; inversion IH; subst; auto; f_equal; auto.
Qed.
Lemma value_reads_eq (v w : value F) : same_buffer (bty_of v) (bty_of w) -> value_reads show v w -> v = w.
Proof.
  destruct v, w; simpl; try tauto; unfold value_reads; simpl; intros B H.
  - apply arr_reads_eq in H; congruence.
  - destruct H; f_equal; auto.
  - apply arr_reads_eq in H; injection H as H; f_equal; revert H.
    clear B; revert l0; induction l; intros [|? ?]; simpl; intro; try congruence; f_equal; try congruence; apply IHl; congruence.
  - apply arr_reads_eq in H; congruence.
Qed.
Lemma arr_reads_refl (a : arr F) : arr_reads show a a.
Proof.
  induction a as [x|l IH] using arr_ind2; constructor; auto.
  induction IH; constructor; auto.
Qed.
Lemma value_reads_refl (v : value F) : value_reads show v v.
Proof.
  unfold value_reads; destruct (contents v) as [[x y]|a]; auto using arr_reads_refl.
Qed.
End Values.

(** * Expressions *)
Section Nodes.
Context {F : Type}.
Variable name : ident -> string.
Variable show : F -> string.
Hypothesis Nw : forall i, word (name i).
Hypothesis Ni : forall i j, name i = name j -> i = j.
Hypothesis Sw : forall x, word (show x).

(** What follows an expression: nothing, a comma or a closing bracket. *)
Definition ends (s : string) : Prop :=
  match s with String c _ => c = ","%char \/ c = ")"%char | _ => True end.
Lemma ends_stops s : ends s -> stops s.
Proof. destruct s; simpl; auto; intros [->| ->]; reflexivity. Qed.

(** The words that operators begin with, and what follows. *)
Definition head (n : node F) : string :=
  match n with
  | Var _ => "Variable" | VarAdj _ _ => "VariableAdjoint" | Const _ | ConstSpec _ => ""
  | ConstAdj _ _ => "ConstantAdjoint" | Cached _ _ => "Cached" | Un u _ => un_name u | Sum _ => "Sum"
  | Power _ _ => "Power" | Add _ _ => "Add" | Sub _ _ => "Sub" | Mul _ _ => "Mul" | Div _ _ => "Div"
  | Contract a _ _ => "Contract<" ++ show_nat a ++ ">"
  end.
Fixpoint text (n : node F) : string :=
  match n with
  | Var i => debug_tuple "Variable" [name i]
  | VarAdj i t => debug_struct "VariableAdjoint" "value" (name i) "target" (name t)
  | Const v => value_debug show v
  | ConstSpec _ => ""
  | ConstAdj m t => debug_struct "ConstantAdjoint" "node" (text m) "target" (name t)
  | Cached m k => debug_struct "Cached" "node" (text m) "ident" (name k)
  | Un u m => debug_tuple (un_name u) [text m]
  | Sum m => debug_tuple "Sum" [text m]
  | Power l r => debug_tuple "Power" [text l; text r]
  | Add l r => debug_tuple "Add" [text l; text r]
  | Sub l r => debug_tuple "Sub" [text l; text r]
  | Mul l r => debug_tuple "Mul" [text l; text r]
  | Div l r => debug_tuple "Div" [text l; text r]
  | Contract axes l r => debug_tuple ("Contract<" ++ show_nat axes ++ ">") [text l; text r]
  end.
Definition body (n : node F) : string :=
  match n with
  | Var i => "(" ++ name i ++ ")"
  | VarAdj i t => " { value: " ++ name i ++ ", target: " ++ name t ++ " }"
  | Const _ | ConstSpec _ => ""
  | ConstAdj m t => " { node: " ++ text m ++ ", target: " ++ name t ++ " }"
  | Cached m k => " { node: " ++ text m ++ ", ident: " ++ name k ++ " }"
  | Un _ m | Sum m => "(" ++ text m ++ ")"
  | Power l r | Add l r | Sub l r | Mul l r | Div l r | Contract _ l r =>
      "(" ++ text l ++ ", " ++ text r ++ ")"
  end.
Definition constant (n : node F) : bool := match n with Const _ | ConstSpec _ => true | _ => false end.

Lemma debug_text n : node_debug name show n = if has_specs n then None else Some (text n).
Proof.
  induction n; cbn [node_debug has_specs text]; unfold debug_pair;
    rewrite ?IHn, ?IHn1, ?IHn2; auto;
    try (destruct (has_specs n); reflexivity);
    destruct (has_specs n1), (has_specs n2); reflexivity.
Qed.

Lemma text_shape n : constant n = false -> text n = head n ++ body n.
Proof.
  destruct n; cbn [constant text head body]; try discriminate; intros _;
    unfold debug_tuple, debug_struct; cbn [commas]; rewrite ?app_assoc_s; reflexivity.
Qed.
Lemma head_bare n : constant n = false -> all_bare (head n) = true.
Proof.
  destruct n; try reflexivity; intros _; cbn [head]; [destruct u; reflexivity|].
  rewrite !all_bare_app; rewrite (proj2 (show_nat_word axes)); reflexivity.
Qed.
Lemma body_stops n r : constant n = false -> stops (body n ++ r) /\ ~ ends (body n ++ r).
Proof. destruct n; try discriminate; intros _; split; try reflexivity; intros [H|H]; discriminate. Qed.
Lemma head_nonempty n : constant n = false -> head n <> "".
Proof. destruct n; try discriminate; intros _; cbn [head]; try discriminate; destruct u; discriminate. Qed.

Lemma un_name_inj u u' : un_name u = un_name u' -> u = u'.
Proof. destruct u, u'; try reflexivity; discriminate. Qed.

(** A constant is not read as an operator. *)
Lemma const_operator v n r s : constant n = false -> ends r -> value_debug show v ++ r = text n ++ s -> False.
Proof.
  intros C E H; rewrite (text_shape n C), app_assoc_s in H.
  destruct (body_stops n s C) as [B1 B2].
  assert (HW : word (head n)) by (split; [apply head_nonempty|apply head_bare]; auto).
  rewrite value_text in H; destruct (contents v) as [[x y]|[x|l]].
  - rewrite app_assoc_s in H; destruct HW as [N W]; destruct (head n); [congruence|].
    injection H as <- _; discriminate.
  - cbn [arr_debug] in H; apply word_split in H as [_ H]; auto using ends_stops; try exact (proj2 (Sw _)); try exact (proj2 HW).
    apply B2; rewrite <- H; exact E.
  - cbn [arr_debug] in H; rewrite app_assoc_s in H; symmetry in H.
    apply (word_not_bracket _ _ _ HW) in H as [].
Qed.

Ltac strip := repeat match goal with
  | H : _ ++ _ = _ |- _ => first [apply app_inj_l in H | progress rewrite ?app_assoc_s in H]
  end.

Lemma text_split n : forall m r s, has_specs n = false -> has_specs m = false -> ends r -> ends s ->
  text n ++ r = text m ++ s -> reads_as show n m /\ r = s.
Proof.
  assert (P : forall l r l' r' x y,
    (forall m a b, has_specs l = false -> has_specs m = false -> ends a -> ends b ->
       text l ++ a = text m ++ b -> reads_as show l m /\ a = b) ->
    (forall m a b, has_specs r = false -> has_specs m = false -> ends a -> ends b ->
       text r ++ a = text m ++ b -> reads_as show r m /\ a = b) ->
    has_specs l || has_specs r = false -> has_specs l' || has_specs r' = false ->
    ("(" ++ text l ++ ", " ++ text r ++ ")") ++ x = ("(" ++ text l' ++ ", " ++ text r' ++ ")") ++ y ->
    (reads_as show l l' /\ reads_as show r r') /\ x = y).
  { intros l r l' r' x y Hl Hr S S' H.
    apply orb_false_iff in S as [Sl Sr], S' as [Sl' Sr'].
    rewrite !app_assoc_s in H; apply app_inj_l in H.
    apply Hl in H as [R1 H]; auto; try (left; reflexivity).
    apply app_inj_l in H.
    apply Hr in H as [R2 H]; auto; try (right; reflexivity).
    apply app_inj_l in H; auto. }
  induction n; intros m x y Sn Sm Ex Ey H; try discriminate Sn.
  3:{ destruct (constant m) eqn:C; [|exfalso; exact (const_operator v m x y C Ex H)].
      destruct m; try discriminate C; try discriminate Sm.
      apply value_split in H as [H ->]; auto using ends_stops; split; auto; constructor; auto. }
  all: (destruct (constant m) eqn:C;
        [destruct m; try discriminate C; try discriminate Sm; exfalso; symmetry in H;
         refine (const_operator _ _ _ _ _ Ey H); reflexivity|]).
  all: rewrite (text_shape m C), text_shape, !(app_assoc_s (head _)) in H by reflexivity.
  all: apply word_split in H as [Hh H];
    [|apply head_bare; reflexivity|apply head_bare; auto|apply body_stops; reflexivity|apply body_stops; auto].
  all: destruct m; try discriminate C; try discriminate Hh;
    try (exfalso; cbn [head] in Hh; destruct u; discriminate Hh); cbn [body] in H; cbn [has_specs] in Sn, Sm.
  all: try (apply P in H as [[R1 R2] ->]; auto; split; auto; constructor; auto; fail).
  7:{ cbn [head] in Hh; apply app_inj_l, app_inj_r, show_nat_inj in Hh; subst.
      apply P in H as [[R1 R2] ->]; auto; split; auto; constructor; auto. }
  all: rewrite !app_assoc_s in H; apply app_inj_l in H.
  - apply word_split in H as [Hi H]; try apply Nw; try reflexivity.
    apply app_inj_l in H; apply Ni in Hi; subst; split; auto; constructor.
  - apply word_split in H as [Hi H]; try apply Nw; try reflexivity.
    apply app_inj_l in H; apply word_split in H as [Ht H]; try apply Nw; try reflexivity.
    apply app_inj_l in H; apply Ni in Hi, Ht; subst; split; auto; constructor.
  - apply IHn in H as [R H]; auto; try (left; reflexivity).
    apply app_inj_l in H; apply word_split in H as [Ht H]; try apply Nw; try reflexivity.
    apply app_inj_l in H; apply Ni in Ht; subst; split; auto; constructor; auto.
  - apply IHn in H as [R H]; auto; try (left; reflexivity).
    apply app_inj_l in H; apply word_split in H as [Ht H]; try apply Nw; try reflexivity.
    apply app_inj_l in H; apply Ni in Ht; subst; split; auto; constructor; auto.
  - apply IHn in H as [R H]; auto; try (right; reflexivity).
    apply app_inj_l in H; apply un_name_inj in Hh; subst; split; auto; constructor; auto.
  - apply IHn in H as [R H]; auto; try (right; reflexivity).
    apply app_inj_l in H; subst; split; auto; constructor; auto.
Qed.

Lemma text_same n m : reads_as show n m -> text n = text m.
Proof. induction 1; cbn [text]; try congruence; apply value_same; auto. Qed.
Lemma reads_specs n m : reads_as show n m -> has_specs n = has_specs m.
Proof. induction 1; cbn [has_specs]; congruence. Qed.

Lemma app_empty (s : string) : s ++ "" = s.
Proof. induction s; simpl; congruence. Qed.

Lemma debug_reads n m s t : node_debug name show n = Some s -> node_debug name show m = Some t ->
  (s = t <-> reads_as show n m).
Proof.
  rewrite !debug_text; destruct (has_specs n) eqn:Sn, (has_specs m) eqn:Sm; try discriminate.
  intros E E'; injection E as <-; injection E' as <-; split; [|apply text_same].
  intro H; apply (text_split n m "" ""); auto; try exact I; rewrite !app_empty; auto.
Qed.

Lemma debug_some n : node_debug name show n = None <-> has_specs n = true.
Proof. rewrite debug_text; destruct (has_specs n); split; congruence. Qed.

Lemma reads_plain n m : reads_as show n m -> has_constants n = false -> n = m.
Proof.
  induction 1; cbn [has_constants]; intro C; try discriminate;
    try (apply orb_false_iff in C as [C1 C2]); f_equal; auto.
Qed.
Lemma plain_specs (n : node F) : has_constants n = false -> has_specs n = false.
Proof.
  induction n; cbn [has_constants has_specs]; auto; intro H; apply orb_false_iff in H as [H1 H2];
    rewrite IHn1, IHn2; auto.
Qed.
Lemma debug_plain n m : has_constants n = false -> (node_debug name show n = node_debug name show m <-> n = m).
Proof.
  intro C; split; [|congruence].
  destruct (node_debug name show n) as [s|] eqn:En.
  - destruct (node_debug name show m) as [t|] eqn:Em; [|discriminate].
    intro H; injection H as ->; apply reads_plain; auto.
    apply (debug_reads _ _ _ _ En Em); auto.
  - apply debug_some in En; rewrite plain_specs in En by auto; discriminate.
Qed.

Lemma debug_typed n m : (forall x y, show x = show y -> x = y) -> same_type n m -> has_specs n = false ->
  (node_debug name show n = node_debug name show m <-> n = m).
Proof.
  intros Si T Sn; split; [|congruence].
  destruct (node_debug name show n) as [s|] eqn:En; [|apply debug_some in En; congruence].
  destruct (node_debug name show m) as [t|] eqn:Em; [|discriminate].
  intro H; injection H as ->.
  assert (R : reads_as show n m) by (apply (debug_reads _ _ _ _ En Em); auto).
  clear En Em Sn; induction R; inversion T; subst; f_equal; auto.
  eapply value_reads_eq; eauto.
Qed.
End Nodes.

(** * Shapes and errors *)
Lemma shape_split s t x y : stops x -> stops y -> shape_debug s ++ x = shape_debug t ++ y ->
  shape_reads s t /\ x = y.
Proof.
  intros Sx Sy; destruct s as [ds|ds], t as [es|es]; cbn [shape_debug shape_reads]; intro H.
  - rewrite !app_assoc_s in H; apply app_inj_l in H.
    apply word_split in H as [H ->]; auto; try apply show_nat_word.
    apply show_nat_inj in H; auto.
  - exfalso; unfold debug_tuple in H; rewrite !app_assoc_s in H; cbn in H; injection H as H.
    pose proof (show_nat_digs (List.length ds)) as D; pose proof (show_nat_nonempty (List.length ds)) as N.
    destruct (show_nat (List.length ds)); [congruence|]; injection H as H0 H1; subst; discriminate D.
  - exfalso; unfold debug_tuple in H; rewrite !app_assoc_s in H; cbn in H; injection H as H.
    pose proof (show_nat_digs (List.length es)) as D; pose proof (show_nat_nonempty (List.length es)) as N.
    destruct (show_nat (List.length es)); [congruence|]; injection H as H0 H1; subst; discriminate D.
  - unfold debug_tuple in H; cbn [commas] in H; rewrite !app_assoc_s in H; do 3 apply app_inj_l in H.
    apply (commas_split show_nat eq) in H as [H K].
    + split; [|apply app_inj_l in K; auto]. clear K; induction H; congruence.
    + intros; apply word_opens, show_nat_word.
    + apply Forall_forall; intros a _ b r s Sr Ss E.
      apply word_split in E as [E ->]; auto; try apply show_nat_word.
      apply show_nat_inj in E; auto.
Qed.
Lemma shape_same s t : shape_reads s t -> shape_debug s = shape_debug t.
Proof. destruct s, t; simpl; try tauto; intros ->; auto. Qed.

Section Errors.
Variable name : ident -> string.
Hypothesis Nw : forall i, word (name i).
Hypothesis Ni : forall i j, name i = name j -> i = j.

Lemma incompat_split a b x y : incompat_debug a ++ x = incompat_debug b ++ y ->
  (shape_reads (inc_left a) (inc_left b) /\ shape_reads (inc_right a) (inc_right b)) /\ x = y.
Proof.
  unfold incompat_debug, debug_struct; rewrite !app_assoc_s; intro H.
  do 4 apply app_inj_l in H; apply shape_split in H as [L H]; try reflexivity.
  do 3 apply app_inj_l in H; apply shape_split in H as [R H]; try reflexivity.
  apply app_inj_l in H; auto.
Qed.

Lemma err_split e : forall e' x y, err_debug name e ++ x = err_debug name e' ++ y ->
  (err_path e = err_path e' /\ cause_reads (root_cause e) (root_cause e')) /\ x = y.
Proof.
  induction e; intros e' x y; destruct e'; cbn [err_debug err_path root_cause cause_reads];
    unfold debug_tuple; cbn [commas]; rewrite !app_assoc_s; intro H; try discriminate H;
    do 2 apply app_inj_l in H.
  - apply word_split in H as [H K]; try apply Nw; try reflexivity; apply app_inj_l in K; auto.
  - apply IHe in H as [[-> C] H]; apply app_inj_l in H; auto.
  - apply IHe in H as [[-> C] H]; apply app_inj_l in H; auto.
  - apply incompat_split in H as [C H]; apply app_inj_l in H; auto.
Qed.
Lemma err_same e : forall e', err_path e = err_path e' -> cause_reads (root_cause e) (root_cause e') ->
  err_debug name e = err_debug name e'.
Proof.
  induction e; intros e' P C; destruct e'; try discriminate P; cbn in C, P; try tauto; cbn [err_debug]; try congruence.
  - rewrite (IHe e'); auto; congruence.
  - rewrite (IHe e'); auto; congruence.
  - destruct C as [C D]; unfold incompat_debug; rewrite (shape_same _ _ C), (shape_same _ _ D); auto.
Qed.

Lemma error_debug e e' : err_debug name e = err_debug name e' <->
  err_path e = err_path e' /\ cause_reads (root_cause e) (root_cause e').
Proof.
  split; [|intros []; apply err_same; auto].
  intro H; apply (err_split e e' "" ""); rewrite !app_empty; auto.
Qed.

Lemma path_cause e e' : err_path e = err_path e' -> root_cause e = root_cause e' -> e = e'.
Proof.
  revert e'; induction e; intros e' P C; destruct e'; simpl in *; try discriminate; try congruence;
    f_equal; apply IHe; congruence.
Qed.
Lemma error_both e e' : err_debug name e = err_debug name e' /\ err_display name e = err_display name e' <-> e = e'.
Proof.
  split; [|intros ->; auto]; intros [D M]; apply error_debug in D as [P _].
  apply path_cause; auto; eapply message_cause; eauto.
Qed.
End Errors.

(** * Specs and dual numbers *)
Section Specs.
Context {F : Type}.
Variable show : F -> string.
Hypothesis Sw : forall x, word (show x).
Hypothesis Si : forall x y, show x = show y -> x = y.

Lemma same_buffer_shape t u : same_buffer t u -> shape_reads (bty_shape t) (bty_shape u) -> t = u.
Proof. destruct t, u; simpl; try tauto; congruence. Qed.

Lemma spec_typed (s t : spec F) : same_buffer (spec_bty s) (spec_bty t) ->
  (spec_debug show s = spec_debug show t <-> s = t).
Proof.
  intro B; split; [|congruence].
  destruct s, t; cbn [spec_debug spec_bty] in *; unfold debug_tuple; cbn [commas]; intro H;
    try discriminate H; do 2 apply app_inj_l in H.
  - apply value_split in H as [H _]; auto; try reflexivity; f_equal; eapply value_reads_eq; eauto.
  - rewrite !app_assoc_s in H; apply shape_split in H as [H K]; try reflexivity.
    apply app_inj_l, app_inj_r in K; apply same_buffer_shape in H; auto; f_equal; auto.
  - rewrite !app_assoc_s in H; apply shape_split in H as [H K]; try reflexivity.
    apply app_inj_l, app_inj_r in K; apply same_buffer_shape in H; auto; f_equal; auto.
Qed.

Lemma dual_typed (d e : dual (value F) (value F)) :
  same_buffer (bty_of (d_value d)) (bty_of (d_value e)) ->
  same_buffer (bty_of (d_adjoint d)) (bty_of (d_adjoint e)) ->
  (dual_debug show d = dual_debug show e <-> d = e).
Proof.
  intros B1 B2; split; [|congruence].
  unfold dual_debug, debug_struct; intro H; do 4 apply app_inj_l in H.
  apply value_split in H as [V H]; auto; try reflexivity.
  do 3 apply app_inj_l in H.
  apply value_split in H as [A _]; auto; try reflexivity.
  destruct d, e; cbn in *; f_equal; eapply value_reads_eq; eauto.
Qed.

Lemma value_typed (v w : value F) : same_buffer (bty_of v) (bty_of w) ->
  (value_debug show v = value_debug show w <-> v = w).
Proof.
  intro B; split; [|congruence]; intro H.
  apply (value_reads_eq show Si _ _ B).
  apply (value_split show Sw v w "" ""); try exact I; rewrite !app_empty; auto.
Qed.
End Specs.
