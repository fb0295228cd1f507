(** Proofs about the syntax accepted by [aegir!], in the form used by Properties_macros.v. *)
From Coq Require Import List Arith ZArith Bool String Lia.
Import ListNotations.
From Verif Require Import Base Shapes Scalar Buffers Spec Contraction Node Eval Types Instances Vocab Math
  Ids Derive Compile Syntax Macro_math Math_claims Compile_claims.

Scheme power_mut := Induction for power Sort Prop
with sum_mut := Induction for sum_of Sort Prop
with product_mut := Induction for product Sort Prop
with unary_mut := Induction for unary Sort Prop
with operand_mut := Induction for operand Sort Prop
with arguments_mut := Induction for arguments Sort Prop.
Combined Scheme syntax_ind from power_mut, sum_mut, product_mut, unary_mut, operand_mut, arguments_mut.

Definition size (ts : list tok) : nat := list_sum (map tok_size ts).
Lemma size_cons t ts : size (t :: ts) = tok_size t + size ts.
Proof. reflexivity. Qed.
Lemma size_paren g : tok_size (XParen g) = S (size g).
Proof. reflexivity. Qed.
Lemma tok_pos t : 1 <= tok_size t.
Proof. destruct t; simpl; lia. Qed.

(** * More fuel does not change a result *)
Ltac popt H := repeat match type of H with
  | context [match ?x with _ => _ end] => let E := fresh "E" in destruct x eqn:E; try discriminate H
  end.

(** What is read after a prefix operator. *)
Definition prefixed_by (k : nat) (t : tok) (r : list tok) : option (rexpr * list tok) :=
  match prefix_of t with
  | Some p => match p_unary k r with Some (e, r1) => Some (RPrefix p e, r1) | None => None end
  | None => None
  end.

Lemma mono k :
  (forall ts x, p_expr k ts = Some x -> p_expr (S k) ts = Some x) /\
  (forall ts x, p_unary k ts = Some x -> p_unary (S k) ts = Some x) /\
  (forall e ts x, p_trailer k e ts = Some x -> p_trailer (S k) e ts = Some x) /\
  (forall ts x, p_args k ts = Some x -> p_args (S k) ts = Some x) /\
  (forall e b ts x, p_ops k e b ts = Some x -> p_ops (S k) e b ts = Some x).
Proof.
  induction k as [|k (IHe & IHu & IHt & IHa & IHo)]; [repeat split; discriminate|].
  split; [|split; [|split; [|split]]].
  - intros ts x H; cbn [p_expr] in H.
    change (match p_unary (S k) ts with Some (l, r) => p_ops (S k) l 0 r | None => None end = Some x).
    destruct (p_unary k ts) as [[l r]|] eqn:E; [|discriminate]; rewrite (IHu _ _ E); auto.
  - intros ts x H; cbn [p_unary] in H.
    assert (Pre : forall t r, prefixed_by k t r = Some x -> prefixed_by (S k) t r = Some x).
    { intros t r; unfold prefixed_by; destruct (prefix_of t) as [p|]; auto.
      destruct (p_unary k r) as [[e r1]|] eqn:E; [|discriminate]; rewrite (IHu _ _ E); auto. }
    destruct ts as [|[p|l|op| | | | |bl|g] r]; try discriminate; try (apply (IHt _ _ _ H));
      try (match goal with |- p_unary _ (?t :: _) = _ => exact (Pre t r H) end).
    destruct (p_expr k g) as [[e [|]]|] eqn:E; try discriminate.
    cbn [p_unary] in *; change (match p_expr (S k) g with Some (e, []) => p_trailer (S k) (RParen e) r | _ => None end = Some x).
    rewrite (IHe _ _ E); auto.
  - intros e ts x H.
    destruct ts as [|[p|l|op| | | | |bl|g] r]; try exact H.
    destruct r as [|[m|l|op| | | | |bl|g] r]; try exact H.
    destruct r as [|[p|l|op| | | | |bl|g] r]; try exact H.
    cbn [p_trailer] in H.
    change (match p_args (S k) g with Some args => p_trailer (S k) (RMethod e m args) r | None => None end = Some x).
    destruct (p_args k g) as [args|] eqn:E; [|discriminate]; rewrite (IHa _ _ E); auto.
  - intros ts x H; destruct ts as [|t ts]; [exact H|]; cbn [p_args] in H.
    change (match p_expr (S k) (t :: ts) with
          | Some (e, []) => Some [e]
          | Some (e, XComma :: r) => option_map (cons e) (p_args (S k) r)
          | _ => None end = Some x).
    destruct (p_expr k (t :: ts)) as [[e r]|] eqn:E; [|discriminate]; rewrite (IHe _ _ E).
    destruct r as [|[| | | | | | | |] r]; try discriminate; auto.
    destruct (p_args k r) as [es|] eqn:E2; [|discriminate]; rewrite (IHa _ _ E2); auto.
  - intros e b ts x H; destruct ts as [|[p|l|op| | | | |bl|g] r]; try exact H; cbn [p_ops] in H.
    change ((if b <=? prec op then
            match p_unary (S k) r with
            | Some (u, r1) =>
                match p_ops (S k) u (S (prec op)) r1 with
                | Some (rhs, r2) => p_ops (S k) (RBin op e rhs) b r2
                | None => None
                end
            | None => None
            end
          else Some (e, XOp op :: r)) = Some x).
    destruct (b <=? prec op); auto.
    destruct (p_unary k r) as [[u r1]|] eqn:E; [|discriminate]; rewrite (IHu _ _ E).
    destruct (p_ops k u (S (prec op)) r1) as [[rhs r2]|] eqn:E2; [|discriminate]; rewrite (IHo _ _ _ _ E2); auto.
Qed.

Lemma mono_expr k k' ts x : k <= k' -> p_expr k ts = Some x -> p_expr k' ts = Some x.
Proof. induction 1; auto; intro H'; apply mono; auto. Qed.
Lemma mono_unary k k' ts x : k <= k' -> p_unary k ts = Some x -> p_unary k' ts = Some x.
Proof. induction 1; auto; intro H'; apply mono; auto. Qed.
Lemma mono_trailer k k' e ts x : k <= k' -> p_trailer k e ts = Some x -> p_trailer k' e ts = Some x.
Proof. induction 1; auto; intro H'; apply mono; auto. Qed.
Lemma mono_args k k' ts x : k <= k' -> p_args k ts = Some x -> p_args k' ts = Some x.
Proof. induction 1; auto; intro H'; apply mono; auto. Qed.
Lemma mono_ops k k' e b ts x : k <= k' -> p_ops k e b ts = Some x -> p_ops k' e b ts = Some x.
Proof. induction 1; auto; intro H'; apply mono; auto. Qed.

(** * What is left over is smaller *)
Lemma rest_size k :
  (forall ts e r, p_expr k ts = Some (e, r) -> size r < size ts) /\
  (forall ts e r, p_unary k ts = Some (e, r) -> size r < size ts) /\
  (forall a ts e r, p_trailer k a ts = Some (e, r) -> size r <= size ts) /\
  (forall a b ts e r, p_ops k a b ts = Some (e, r) -> size r <= size ts).
Proof.
  induction k as [|k (IHe & IHu & IHt & IHo)]; [repeat split; discriminate|].
  split; [|split; [|split]].
  - intros ts e r H; cbn [p_expr] in H; destruct (p_unary k ts) as [[l r']|] eqn:E; [|discriminate].
    apply IHu in E; apply IHo in H; lia.
  - intros ts e r H; cbn [p_unary] in H.
    assert (Pre : forall a t, prefixed_by k a t = Some (e, r) -> size r < size (a :: t)).
    { intros a t; unfold prefixed_by; destruct (prefix_of a) as [p|]; [|discriminate].
      destruct (p_unary k t) as [[e1 r1]|] eqn:E; [|discriminate]; intro Q.
      assert (r1 = r) by congruence; subst r1; apply IHu in E; rewrite size_cons; lia. }
    destruct ts as [|[p|l|op| | | | |bl|g] t]; try discriminate;
      try (match goal with |- _ < size (?a :: _) => exact (Pre a t H) end).
    + apply IHt in H; rewrite size_cons; simpl tok_size; lia.
    + apply IHt in H; rewrite size_cons; simpl tok_size; lia.
    + apply IHt in H; rewrite size_cons; simpl tok_size; lia.
    + destruct (p_expr k g) as [[e' [|]]|] eqn:E; try discriminate.
      apply IHt in H; rewrite size_cons, size_paren; lia.
  - intros a ts e r H; cbn [p_trailer] in H.
    assert (D : forall t : list tok, Some (a, t) = Some (e, r) -> size r <= size t)
      by (intros t Q; assert (t = r) by congruence; subst; lia).
    destruct ts as [|[p|l|op| | | | |bl|g] t]; try (apply D; exact H); try discriminate.
    destruct t as [|[m|l|op| | | | |bl|g] t]; try discriminate.
    destruct t as [|[p|l|op| | | | |bl|g] t]; try discriminate.
    destruct (p_args k g) as [args|] eqn:E; [|discriminate].
    apply IHt in H; rewrite !size_cons, size_paren; simpl tok_size; lia.
  - intros a b ts e r H; cbn [p_ops] in H.
    assert (D : forall t : list tok, Some (a, t) = Some (e, r) -> size r <= size t)
      by (intros t Q; assert (t = r) by congruence; subst; lia).
    destruct ts as [|[p|l|op| | | | |bl|g] t]; try (apply D; exact H).
    destruct (b <=? prec op); [|apply D; exact H].
    destruct (p_unary k t) as [[u r1]|] eqn:E; [|discriminate].
    destruct (p_ops k u (S (prec op)) r1) as [[rhs r2]|] eqn:E2; [|discriminate].
    apply IHu in E; apply IHo in E2; apply IHo in H; rewrite size_cons; simpl tok_size; lia.
Qed.

(** * The fuel is enough *)
Lemma enough k :
  (forall ts, 4 * size ts + 3 <= k -> p_expr (S k) ts = p_expr k ts) /\
  (forall ts, 4 * size ts + 1 <= k -> p_unary (S k) ts = p_unary k ts) /\
  (forall e ts, 4 * size ts + 2 <= k -> p_trailer (S k) e ts = p_trailer k e ts) /\
  (forall ts, 4 * size ts + 4 <= k -> p_args (S k) ts = p_args k ts) /\
  (forall e b ts, 4 * size ts + 2 <= k -> p_ops (S k) e b ts = p_ops k e b ts).
Proof.
  induction k as [|k (IHe & IHu & IHt & IHa & IHo)]; [repeat split; intros; lia|].
  split; [|split; [|split; [|split]]].
  - intros ts L.
    change (match p_unary (S k) ts with Some (l, r) => p_ops (S k) l 0 r | None => None end =
            match p_unary k ts with Some (l, r) => p_ops k l 0 r | None => None end).
    rewrite IHu by lia; destruct (p_unary k ts) as [[l r]|] eqn:E; auto.
    apply rest_size in E; apply IHo; lia.
  - intros ts L.
    assert (Pre : forall a t, ts = a :: t -> prefixed_by (S k) a t = prefixed_by k a t).
    { intros a t ->; rewrite size_cons in L; pose proof (tok_pos a).
      unfold prefixed_by; destruct (prefix_of a); auto; rewrite IHu by lia; auto. }
    destruct ts as [|[p|l|op| | | | |bl|g] r]; try reflexivity;
      try (match goal with |- p_unary _ (?a :: _) = _ => exact (Pre a r eq_refl) end); rewrite size_cons in L.
    + apply (IHt (RPath p) r); simpl in L; lia.
    + apply (IHt (RLit l) r); simpl in L; lia.
    + apply (IHt (block bl) r); simpl in L; lia.
    + rewrite size_paren in L.
      change (match p_expr (S k) g with Some (e, []) => p_trailer (S k) (RParen e) r | _ => None end =
              match p_expr k g with Some (e, []) => p_trailer k (RParen e) r | _ => None end).
      rewrite IHe by lia; destruct (p_expr k g) as [[e [|]]|]; auto; apply IHt; lia.
  - intros e ts L; destruct ts as [|[p|l|op| | | | |bl|g] r]; try reflexivity.
    destruct r as [|[m|l|op| | | | |bl|g] r]; try reflexivity.
    destruct r as [|[p|l|op| | | | |bl|g] r]; try reflexivity.
    rewrite !size_cons, size_paren in L; simpl tok_size in L.
    change (match p_args (S k) g with Some args => p_trailer (S k) (RMethod e m args) r | None => None end =
            match p_args k g with Some args => p_trailer k (RMethod e m args) r | None => None end).
    rewrite IHa by lia; destruct (p_args k g); auto; apply IHt; lia.
  - intros ts L; destruct ts as [|t ts]; [reflexivity|].
    change (match p_expr (S k) (t :: ts) with
          | Some (e, []) => Some [e]
          | Some (e, XComma :: r) => option_map (cons e) (p_args (S k) r)
          | _ => None end =
          match p_expr k (t :: ts) with
          | Some (e, []) => Some [e]
          | Some (e, XComma :: r) => option_map (cons e) (p_args k r)
          | _ => None end).
    rewrite IHe by lia; destruct (p_expr k (t :: ts)) as [[e r]|] eqn:E; auto.
    destruct r as [|[| | | | | | | |] r]; auto; apply rest_size in E; rewrite (size_cons XComma) in E; simpl (tok_size XComma) in E.
    rewrite IHa by lia; auto.
  - intros e b ts L; destruct ts as [|[p|l|op| | | | |bl|g] r]; try reflexivity.
    rewrite size_cons in L; simpl tok_size in L.
    change ((if b <=? prec op then
            match p_unary (S k) r with
            | Some (u, r1) =>
                match p_ops (S k) u (S (prec op)) r1 with
                | Some (rhs, r2) => p_ops (S k) (RBin op e rhs) b r2
                | None => None
                end
            | None => None
            end
          else Some (e, XOp op :: r)) =
          (if b <=? prec op then
            match p_unary k r with
            | Some (u, r1) =>
                match p_ops k u (S (prec op)) r1 with
                | Some (rhs, r2) => p_ops k (RBin op e rhs) b r2
                | None => None
                end
            | None => None
            end
          else Some (e, XOp op :: r))).
    destruct (b <=? prec op); auto.
    rewrite IHu by lia; destruct (p_unary k r) as [[u r1]|] eqn:E; auto; apply rest_size in E.
    rewrite IHo by lia; destruct (p_ops k u (S (prec op)) r1) as [[rhs r2]|] eqn:E2; auto; apply rest_size in E2.
    apply IHo; lia.
Qed.

Lemma fuel_enough k ts x : p_expr k ts = Some x -> p_expr (fuel_of ts) ts = Some x.
Proof.
  intro H.
  assert (D : forall d, p_expr (d + fuel_of ts) ts = p_expr (fuel_of ts) ts).
  { induction d as [|d IH]; auto; rewrite <- IH; apply enough; unfold fuel_of, size; lia. }
  rewrite <- (D k); apply (mono_expr k); auto; lia.
Qed.

(** * Everything in the grammar is read *)
(** Leftovers that end an operand, and a category whose operators bind at least as tight as [b]. *)
Definition ends (r : list tok) : Prop :=
  match r with XDot :: _ | XParen _ :: _ => False | _ => True end.
Definition below (b : nat) (r : list tok) : Prop :=
  match r with XOp op :: _ => prec op < b | XDot :: _ | XParen _ :: _ => False | _ => True end.
Lemma below_ends b r : below b r -> ends r.
Proof. destruct r as [|[]]; simpl; auto. Qed.
Lemma below_mono b c r : b <= c -> below b r -> below c r.
Proof. destruct r as [|[]]; simpl; intros; auto; lia. Qed.

(** Operators of a category starting at [ts] are collected into [e]: the same as continuing with [e]. *)
Definition collects (lo : nat) (e : rexpr) (ts : list tok) : Prop :=
  forall b r k x, b <= lo -> below (S lo) r -> p_ops k e b r = Some x ->
  exists k' u r1, p_unary k' (ts ++ r) = Some (u, r1) /\ p_ops k' u b r1 = Some x.
Definition begins (e : rexpr) (ts : list tok) : Prop :=
  forall r, ends r -> exists k, p_unary k (ts ++ r) = Some (e, r).
Definition takes (e : rexpr) (ts : list tok) : Prop :=
  forall r k x, p_trailer k e r = Some x -> exists k', p_unary k' (ts ++ r) = Some x.

Lemma ops_stop k e b r : below b r -> p_ops (S k) e b r = Some (e, r).
Proof.
  destruct r as [|[p|l|op| | | | |bl|g] r]; cbn; auto; try tauto.
  intro H; destruct (Nat.leb_spec b (prec op)); auto; lia.
Qed.
Lemma trailer_stop k e r : ends r -> p_trailer (S k) e r = Some (e, r).
Proof. destruct r as [|[p|l|op| | | | |bl|g] r]; cbn; auto; tauto. Qed.

Lemma collects_expr e ts r : collects 7 e ts -> below 0 r -> exists k, p_expr k (ts ++ r) = Some (e, r).
Proof.
  intros H B.
  destruct (H 0 r 1 (e, r) ltac:(lia) (below_mono 0 8 r ltac:(lia) B) (ops_stop 0 e 0 r B)) as (k & u & r1 & E1 & E2).
  exists (S k); cbn [p_expr]; rewrite E1; exact E2.
Qed.

Lemma collects_up lo hi e ts : lo <= hi -> collects hi e ts -> collects lo e ts.
Proof. intros L H b r k x B Br E; apply (H b r k x); auto; [lia|]; apply (below_mono (S lo)); auto; lia. Qed.
Lemma takes_begins e ts : takes e ts -> begins e ts.
Proof. intros H r Er; apply (H r 1 (e, r)); apply trailer_stop; auto. Qed.
Lemma begins_prefix t p e ts : prefix_of t = Some p -> begins e ts -> begins (RPrefix p e) (t :: ts).
Proof.
  intros P H r Er; destruct (H r Er) as (k & E); exists (S k).
  assert (Q : p_unary (S k) ((t :: ts) ++ r) = prefixed_by k t (ts ++ r)).
  { destruct t as [q|l|op| | | | |bl|g]; try discriminate; reflexivity. }
  rewrite Q; unfold prefixed_by; rewrite P, E; reflexivity.
Qed.
Lemma begins_collects lo e ts : begins e ts -> collects lo e ts.
Proof.
  intros H b r k x B Br E; apply below_ends in Br.
  destruct (H r Br) as (k' & E').
  exists (Nat.max k k'), e, r; split; [apply (mono_unary k'); auto; lia|apply (mono_ops k); auto; lia].
Qed.
(** One more operator on the right. *)
Lemma collects_op op l r tl tr :
  collects (prec op) l tl -> collects (S (prec op)) r tr -> collects (prec op) (RBin op l r) (tl ++ XOp op :: tr).
Proof.
  intros Hl Hr b t k x B Bt E.
  destruct (Hr (S (prec op)) t 1 (r, t) ltac:(lia) (below_mono (S (prec op)) (S (S (prec op))) t ltac:(lia) Bt) (ops_stop 0 r _ t Bt))
    as (k1 & u & r1 & E1 & E2).
  assert (E3 : p_ops (S (Nat.max k k1)) l b (XOp op :: tr ++ t) = Some x).
  { cbn [p_ops]; destruct (Nat.leb_spec b (prec op)); [|lia].
    rewrite (mono_unary k1 (Nat.max k k1) _ (u, r1)) by (auto; lia).
    rewrite (mono_ops k1 (Nat.max k k1) _ _ _ (r, t)) by (auto; lia).
    apply (mono_ops k); auto; lia. }
  rewrite <- app_assoc; simpl.
  apply (Hl b (XOp op :: tr ++ t) (S (Nat.max k k1)) x B); [simpl; lia|exact E3].
Qed.

Lemma reads_all :
  (forall e ts, power e ts -> collects 7 e ts) /\
  (forall e ts, sum_of e ts -> collects 10 e ts) /\
  (forall e ts, product e ts -> collects 11 e ts) /\
  (forall e ts, unary e ts -> begins e ts) /\
  (forall e ts, operand e ts -> takes e ts) /\
  (forall es ts, arguments es ts -> exists k, p_args k ts = Some es).
Proof.
  apply syntax_ind.
  - intros e ts _ H; apply (collects_up 7 10); auto; lia.
  - intros l r tl tr _ Hl _ Hr; apply (collects_op BXor); auto; apply (collects_up 8 10); auto; lia.
  - intros e ts _ H; apply (collects_up 10 11); auto; lia.
  - intros l r tl tr _ Hl _ Hr; apply (collects_op BAdd); auto.
  - intros l r tl tr _ Hl _ Hr; apply (collects_op BSub); auto.
  - intros e ts _ H; apply begins_collects; auto.
  - intros l r tl tr _ Hl _ Hr; apply (collects_op BMul); auto; apply begins_collects; auto.
  - intros l r tl tr _ Hl _ Hr; apply (collects_op BDiv); auto; apply begins_collects; auto.
  - intros l r tl tr _ Hl _ Hr; apply (collects_op BOther); auto; apply begins_collects; auto.
  - intros e ts _ H; apply takes_begins; auto.
  - intros e ts _ H; apply begins_prefix; auto.
  - intros e ts _ H; apply begins_prefix; auto.
  - intros e ts _ H; apply begins_prefix; auto.
  - intros e ts _ H; apply begins_prefix; auto.
  - intros p r k x E; exists (S k); exact E.
  - intros l r k x E; exists (S k); exact E.
  - intros l r k x E; exists (S k); exact E.
  - intros e ts _ H r k x E.
    destruct (collects_expr e ts [] H Logic.I) as (k1 & E1); rewrite app_nil_r in E1.
    exists (S (Nat.max k k1)); cbn [p_unary app].
    rewrite (mono_expr k1 (Nat.max k k1) _ (e, [])) by (auto; lia).
    apply (mono_trailer k); auto; lia.
  - intros e m args ts ta _ He _ (k1 & Ea) r k x E.
    rewrite <- app_assoc; simpl.
    apply (He (XDot :: XPath m :: XParen ta :: r) (S (Nat.max k k1)) x).
    cbn [p_trailer]; rewrite (mono_args k1 (Nat.max k k1) _ args) by (auto; lia).
    apply (mono_trailer k); auto; lia.
  - exists 1; reflexivity.
  - intros e ts _ H; destruct (collects_expr e ts [] H Logic.I) as (k & E); rewrite app_nil_r in E.
    exists (S k); cbn [p_args]; rewrite E; destruct ts as [|t ts]; auto.
    destruct (rest_size k) as [Q _]; apply Q in E; unfold size in E; simpl in E; lia.
  - intros e ts es r _ H _ (k1 & Er).
    destruct (collects_expr e ts (XComma :: r) H Logic.I) as (k & E).
    exists (S (Nat.max k k1)); cbn [p_args].
    rewrite (mono_expr k (Nat.max k k1) _ (e, XComma :: r)) by (auto; lia).
    rewrite (mono_args k1 (Nat.max k k1) _ es) by (auto; lia).
    destruct ts; reflexivity.
Qed.

(** * Everything read is in the grammar *)
(** The category read with base [b]. *)
Definition category (b : nat) (e : rexpr) (ts : list tok) : Prop :=
  if b <=? 7 then power e ts else if b <=? 10 then sum_of e ts else if b <=? 11 then product e ts else unary e ts.

Lemma category_up b c e ts : b <= c -> category c e ts -> category b e ts.
Proof.
  unfold category; intros L H.
  destruct (Nat.leb_spec c 7), (Nat.leb_spec b 7), (Nat.leb_spec c 10), (Nat.leb_spec b 10),
    (Nat.leb_spec c 11), (Nat.leb_spec b 11); try lia; auto using power_sum, sum_product, product_unary.
Qed.
Lemma category_op op l r tl tr :
  category (prec op) l tl -> category (S (prec op)) r tr -> category (prec op) (RBin op l r) (tl ++ XOp op :: tr).
Proof. destruct op; unfold category; simpl; auto using power_xor, sum_add, sum_sub, product_mul, product_div, product_rem. Qed.

Lemma read_in_grammar k :
  (forall ts e r, p_expr k ts = Some (e, r) -> exists t, ts = t ++ r /\ power e t) /\
  (forall ts e r, p_unary k ts = Some (e, r) -> exists t, ts = t ++ r /\ unary e t /\ ends r) /\
  (forall a ta ts e r, operand a ta -> p_trailer k a ts = Some (e, r) ->
     exists t, ts = t ++ r /\ operand e (ta ++ t) /\ ends r) /\
  (forall ts es, p_args k ts = Some es -> arguments es ts) /\
  (forall a ta c b ts e r, category c a ta -> b <= c -> below (S c) ts -> p_ops k a b ts = Some (e, r) ->
     exists t, ts = t ++ r /\ category b e (ta ++ t) /\ below b r).
Proof.
  induction k as [|k (IHe & IHu & IHt & IHa & IHo)]; [repeat split; discriminate|].
  assert (Pair : forall (a e : rexpr) (t r : list tok), Some (a, t) = Some (e, r) -> a = e /\ t = r)
    by (intros; split; congruence).
  split; [|split; [|split; [|split]]].
  - intros ts e r H; cbn [p_expr] in H; destruct (p_unary k ts) as [[l r']|] eqn:E; [|discriminate].
    apply IHu in E; destruct E as (t & -> & Ho & He).
    apply (IHo l t 12) in H; [|exact Ho|lia|].
    + destruct H as (t2 & -> & Hc & _); exists (t ++ t2); rewrite app_assoc; auto.
    + destruct r' as [|[p|x|op| | | | |bl|g] r']; simpl in *; auto; destruct op; simpl; lia.
  - intros ts e r H; cbn [p_unary] in H.
    assert (Pre : forall a t, prefixed_by k a t = Some (e, r) -> exists t', a :: t = t' ++ r /\ unary e t' /\ ends r).
    { intros a t; unfold prefixed_by; destruct (prefix_of a) as [p|] eqn:P; [|discriminate].
      destruct (p_unary k t) as [[e1 r1]|] eqn:E; [|discriminate]; intro Q.
      destruct (Pair _ _ _ _ Q) as [<- <-]; apply IHu in E; destruct E as (t' & -> & Hu & He).
      exists (a :: t'); split; auto; split; auto.
      destruct a as [q|l|[]| | | | |bl|g]; try discriminate; injection P as <-;
        first [apply unary_neg|apply unary_deref|apply unary_not|apply unary_ref]; auto. }
    destruct ts as [|[p|l|op| | | | |bl|g] t]; try discriminate;
      try (match goal with |- exists t0, ?a :: _ = _ /\ _ => exact (Pre a t H) end).
    + apply (IHt (RPath p) [XPath p]) in H; [|constructor]; destruct H as (t' & -> & Ho & He).
      exists (XPath p :: t'); split; auto; split; auto; constructor; auto.
    + apply (IHt (RLit l) [XLit l]) in H; [|constructor]; destruct H as (t' & -> & Ho & He).
      exists (XLit l :: t'); split; auto; split; auto; constructor; auto.
    + apply (IHt (block bl) [XBlock bl]) in H; [|constructor]; destruct H as (t' & -> & Ho & He).
      exists (XBlock bl :: t'); split; auto; split; auto; constructor; auto.
    + destruct (p_expr k g) as [[e' [|]]|] eqn:E; try discriminate.
      apply IHe in E; destruct E as (tg & Eg & Pg); rewrite app_nil_r in Eg; subst tg.
      apply (IHt (RParen e') [XParen g]) in H; [|constructor; auto]; destruct H as (t' & -> & Ho & He).
      exists (XParen g :: t'); split; auto; split; auto; constructor; auto.
  - intros a ta ts e r Ha H; cbn [p_trailer] in H.
    assert (D : ends ts -> Some (a, ts) = Some (e, r) -> exists t, ts = t ++ r /\ operand e (ta ++ t) /\ ends r).
    { intros He Q; destruct (Pair _ _ _ _ Q) as [-> ->]; exists []; rewrite app_nil_r; auto. }
    destruct ts as [|[p|l|op| | | | |bl|g] t]; try (apply D; [exact Logic.I|exact H]); try discriminate.
    destruct t as [|[m|l|op| | | | |bl|g] t]; try discriminate.
    destruct t as [|[p|l|op| | | | |bl|g] t]; try discriminate.
    destruct (p_args k g) as [args|] eqn:E; [|discriminate].
    apply IHa in E; apply (IHt _ (ta ++ [XDot; XPath m; XParen g])) in H; [|constructor; auto].
    destruct H as (t' & -> & Ho & He); exists (XDot :: XPath m :: XParen g :: t').
    rewrite <- app_assoc in Ho; auto.
  - intros ts es H; cbn [p_args] in H; destruct ts as [|t ts]; [injection H as <-; constructor|].
    destruct (p_expr k (t :: ts)) as [[e r]|] eqn:E; [|discriminate].
    apply IHe in E; destruct E as (t' & Et & Pe).
    destruct r as [|[| | | | | | | |] r]; try discriminate.
    + injection H as <-; rewrite app_nil_r in Et; rewrite Et; constructor; auto.
    + destruct (p_args k r) as [es'|] eqn:E2; [|discriminate]; injection H as <-.
      rewrite Et; constructor; auto.
  - intros a ta c b ts e r Ha L B H; cbn [p_ops] in H.
    assert (D : below b ts -> Some (a, ts) = Some (e, r) ->
                exists t, ts = t ++ r /\ category b e (ta ++ t) /\ below b r).
    { intros Bt Q; destruct (Pair _ _ _ _ Q) as [<- <-]; exists []; rewrite app_nil_r.
      split; auto; split; auto; apply (category_up b c); auto. }
    destruct ts as [|[p|l|op| | | | |bl|g] t]; try (apply D; [exact Logic.I|exact H]); try (destruct B; fail).
    destruct (Nat.leb_spec b (prec op)); [|apply D; auto].
    destruct (p_unary k t) as [[u r1]|] eqn:E; [|discriminate].
    destruct (p_ops k u (S (prec op)) r1) as [[rhs r2]|] eqn:E2; [|discriminate].
    apply IHu in E; destruct E as (t1 & -> & Ho & He1).
    apply (IHo u t1 12) in E2; [|exact Ho|destruct op; simpl; lia|].
    2: { destruct r1 as [|[p|x|op1| | | | |bl|g] r1]; simpl in *; auto; destruct op1; simpl; lia. }
    destruct E2 as (t2 & -> & Hr & B2).
    apply (IHo _ (ta ++ XOp op :: t1 ++ t2) (prec op)) in H; auto.
    + destruct H as (t3 & -> & Hc & B3); exists (XOp op :: t1 ++ t2 ++ t3); split; [simpl; rewrite !app_assoc; auto|].
      split; auto; rewrite <- app_assoc in Hc; simpl in Hc; rewrite <- app_assoc in Hc; auto.
    + apply category_op; auto; apply (category_up (prec op) c); auto; simpl in B; lia.
Qed.

(** * The claims *)
Lemma parse_grammar ts e : parse_tokens ts = Some e <-> power e ts.
Proof.
  unfold parse_tokens; split.
  - destruct (p_expr (fuel_of ts) ts) as [[e' [|]]|] eqn:E; try discriminate; intro H; injection H as ->.
    apply read_in_grammar in E; destruct E as (t & -> & P); rewrite app_nil_r; auto.
  - intro P; apply reads_all in P.
    destruct (collects_expr e ts [] P Logic.I) as (k & E); rewrite app_nil_r in E.
    rewrite (fuel_enough _ _ _ E); reflexivity.
Qed.

Lemma grammar_unique ts e e' : power e ts -> power e' ts -> e = e'.
Proof. intros H H'; apply parse_grammar in H; apply parse_grammar in H'; congruence. Qed.

Lemma occurs_app t a b : occurs t (a ++ b) <-> occurs t a \/ occurs t b.
Proof.
  split.
  - intro H; inversion H as [ts I|g ts I O]; subst; apply in_app_or in I; destruct I;
      [left; apply occurs_here|right; apply occurs_here|left; apply (occurs_group t g)|right; apply (occurs_group t g)]; auto.
  - intros [H|H]; inversion H as [ts I|g ts I O]; subst;
      [apply occurs_here|apply (occurs_group t g)|apply occurs_here|apply (occurs_group t g)]; auto; apply in_or_app; auto.
Qed.
Lemma occurs_cons t a b : occurs t (a :: b) <-> occurs t [a] \/ occurs t b.
Proof. apply (occurs_app t [a] b). Qed.
Lemma occurs_nil t : occurs t [] <-> False.
Proof. split; [|tauto]; intro H; inversion H; auto. Qed.
Lemma occurs_one t a : (forall g, a <> XParen g) -> occurs t [a] <-> t = a.
Proof.
  intro N; split.
  - intro H; inversion H as [ts I|g ts I O]; subst; destruct I as [I|[]]; subst; auto; exfalso; apply (N g); auto.
  - intros ->; apply occurs_here; simpl; auto.
Qed.
Lemma occurs_paren t g : (forall g, t <> XParen g) -> occurs t [XParen g] <-> occurs t g.
Proof.
  intro N; split.
  - intro H; inversion H as [ts I|h ts I O]; subst; destruct I as [I|[]]; [exfalso; apply (N g); auto|].
    injection I as ->; auto.
  - intro H; apply (occurs_group t g); simpl; auto.
Qed.

Definition op_inside (op : binop) (e : rexpr) : Prop := exists l r, inside (RBin op l r) e.
Lemma op_inside_bin op o l r : op_inside op (RBin o l r) <-> op = o \/ op_inside op l \/ op_inside op r.
Proof.
  split.
  - intros (a & b & I); inversion I; subst; auto; right; [left|right]; exists a, b; auto.
  - intros [->|[(a & b & I)|(a & b & I)]]; [exists l, r; constructor|exists a, b; apply in_left; auto|
      exists a, b; apply in_right; auto].
Qed.

Lemma op_inside_leaf op e : (forall l r, e <> RBin op l r) -> (forall s, inside s e -> s = e) -> op_inside op e <-> False.
Proof. intros N L; split; [|tauto]; intros (l & r & I); apply L in I; apply (N l r); auto. Qed.
Lemma op_inside_paren op e : op_inside op (RParen e) <-> op_inside op e.
Proof.
  split; intros (l & r & I); exists l, r; [inversion I; auto|apply in_paren; auto].
Qed.
Lemma op_inside_method op e m args :
  op_inside op (RMethod e m args) <-> op_inside op e \/ exists a, In a args /\ op_inside op a.
Proof.
  split.
  - intros (l & r & I); inversion I; subst; [left; exists l, r; auto|right]; eexists; split; eauto; exists l, r; auto.
  - intros [(l & r & I)|(a & Ia & l & r & I)]; exists l, r; [apply in_recv; auto|apply (in_arg _ _ _ _ a); auto].
Qed.

Lemma op_inside_prefix op p e : op_inside op (RPrefix p e) <-> op_inside op e.
Proof.
  split; intros (l & r & I); exists l, r; [inversion I; auto|apply in_prefix; auto].
Qed.
Lemma op_inside_block op l : op_inside op (block l) <-> False.
Proof.
  split; [|tauto]; intros (a & b & I); unfold block in I.
  inversion I as [| | | | | | |? ? ? J I']; subst; destruct J as [<-|[]].
  inversion I' as [| | | | | | |? ? ? J I'']; subst; destruct J as [<-|[<-|[]]]; inversion I''.
Qed.

Lemma operators_kept op : unsupported op ->
  (forall e ts, power e ts -> occurs (XOp op) ts <-> op_inside op e) /\
  (forall e ts, sum_of e ts -> occurs (XOp op) ts <-> op_inside op e) /\
  (forall e ts, product e ts -> occurs (XOp op) ts <-> op_inside op e) /\
  (forall e ts, unary e ts -> occurs (XOp op) ts <-> op_inside op e) /\
  (forall e ts, operand e ts -> occurs (XOp op) ts <-> op_inside op e) /\
  (forall es ts, arguments es ts -> occurs (XOp op) ts <-> exists a, In a es /\ op_inside op a).
Proof.
  intro U; assert (N : forall g, XOp op <> XParen g) by discriminate.
  assert (Pre : forall t p e ts, (forall g, t <> XParen g) -> XOp op <> t -> (occurs (XOp op) ts <-> op_inside op e) ->
                occurs (XOp op) (t :: ts) <-> op_inside op (RPrefix p e)).
  { intros t p e ts Nt Ne H; rewrite op_inside_prefix, occurs_cons, occurs_one by auto; tauto. }
  assert (B : forall o l r tl tr, (occurs (XOp op) tl <-> op_inside op l) -> (occurs (XOp op) tr <-> op_inside op r) ->
              occurs (XOp op) (tl ++ XOp o :: tr) <-> op_inside op (RBin o l r)).
  { intros o l r tl tr Hl Hr; rewrite op_inside_bin, occurs_app, occurs_cons, Hl, Hr, occurs_one by discriminate.
    split; intros H; repeat (destruct H as [H|H]); auto; try (injection H as ->); auto; subst; auto. }
  apply syntax_ind; intros; auto.
  - apply Pre; auto; [discriminate|destruct U; subst; discriminate].
  - apply Pre; auto; [discriminate|destruct U; subst; discriminate].
  - apply Pre; auto; discriminate.
  - apply Pre; auto; discriminate.
  - rewrite occurs_one by discriminate; rewrite op_inside_leaf; [split; [discriminate|tauto]|discriminate|].
    intros s I; inversion I; auto.
  - rewrite occurs_one by discriminate; rewrite op_inside_leaf; [split; [discriminate|tauto]|discriminate|].
    intros s I; inversion I; auto.
  - rewrite occurs_one by discriminate; rewrite op_inside_block; split; [discriminate|tauto].
  - rewrite occurs_paren, op_inside_paren; auto.
  - rewrite op_inside_method, occurs_app, occurs_cons, (occurs_cons _ (XPath m)), occurs_paren by auto.
    rewrite H, H0, !occurs_one by discriminate.
    split; intros Q; repeat (destruct Q as [Q|Q]); auto; discriminate.
  - rewrite occurs_nil; split; [tauto|intros (x & [] & _)].
  - rewrite H; split; [intro Q; exists e; simpl; auto|intros (x & [<-|[]] & Q); auto].
  - rewrite occurs_app, occurs_cons, occurs_one, H, H0 by discriminate; split.
    + intros [Q|[Q|(x & Ix & Q)]]; [exists e; simpl; auto|discriminate|exists x; simpl; auto].
    + intros (x & [<-|Ix] & Q); auto; right; right; exists x; auto.
Qed.

Lemma macro_panics ts :
  aegir_macro ts = Panic <->
  (exists e, power e ts) /\ exists op, unsupported op /\ occurs (XOp op) ts.
Proof.
  unfold aegir_macro; split.
  - destruct (parse_tokens ts) as [e|] eqn:E; [|discriminate]; intro H; apply parse_grammar in E.
    split; [eauto|]; apply fold_panics in H; destruct H as (op & l & r & I & U).
    exists op; split; auto; apply (operators_kept op U) in E; apply E; exists l, r; auto.
  - intros ((e & P) & op & U & O); pose proof P as P'; apply parse_grammar in P'; rewrite P'.
    apply fold_panics; apply (operators_kept op U) in P; apply P in O; destruct O as (l & r & I); exists op, l, r; auto.
Qed.

Lemma macro_error ts : aegir_macro ts = Err tt <-> forall e, ~ power e ts.
Proof.
  unfold aegir_macro; destruct (parse_tokens ts) as [e|] eqn:E.
  - apply parse_grammar in E; split; [|intro H; exfalso; apply (H e); auto].
    intro H; exfalso; destruct (fold_split e) as [[Q _]|[[c Q] _]]; congruence.
  - split; auto; intros _ e P; apply parse_grammar in P; congruence.
Qed.

Lemma macro_xor l r tl tr : power l tl -> sum_of r tr ->
  aegir_macro (tl ++ XOp BXor :: tr) = fold_expr (RBin BXor l r).
Proof.
  intros Hl Hr; unfold aegir_macro.
  assert (P : power (RBin BXor l r) (tl ++ XOp BXor :: tr)) by (constructor; auto).
  apply parse_grammar in P; rewrite P; reflexivity.
Qed.

Lemma macro_scalar F (S : Scalar F) (env : string -> option (node F)) num val ts e (rho : ctx F) :
  (forall l x, num l = Some x -> val l = x) ->
  (forall l, two (RLit l) -> val l = ftwo) ->
  power e ts -> arithmetic e -> in_scope env num e -> ctx_wf rho ->
  (forall p m, env p = Some m -> elementwise rho m /\ node_wf m /\ tdims (den un_fn rho m) = [] /\
                                 exists v, evaluate m rho = (rho, Ok v)) ->
  exists c n t x, aegir_macro ts = Ok c /\ build env num c = Some n /\ meaning un_fn rho env val e = Some t /\
    evaluate n rho = (rho, Ok (VScal x)) /\ holds (VScal x) t.
Proof.
  intros Hn H2 P A I W He; apply parse_grammar in P; unfold aegir_macro; rewrite P.
  apply converted_scalar; auto.
Qed.
