(** Which gradients type-check. *)
From Coq Require Import List Arith Bool Lia.
Import ListNotations.
From Verif Require Import Base Shapes Scalar Buffers Spec Contraction Node Eval Types Vocab
  Shapes_facts Buffers_facts Index_facts Diff_math Diff_claims.

Definition zdims (a b : list nat) : option (list nat) :=
  match a, b with
  | [], _ => Some b
  | _, [] => Some a
  | _, _ => if dims_eqb a b then Some a else None
  end.

Lemma zip_array a b : zip_sty (array_type a) (array_type b) = option_map array_type (zdims a b).
Proof.
  destruct a as [|x a], b as [|y b]; try reflexivity; cbn [array_type zip_sty zdims].
  destruct (dims_eqb (x :: a) (y :: b)); reflexivity.
Qed.

Lemma dims_refl a : dims_eqb a a = true.
Proof. apply dims_eqb_eq; reflexivity. Qed.
Lemma dims_neq a b : a <> b -> dims_eqb a b = false.
Proof. intro H; destruct (dims_eqb a b) eqn:E; [apply dims_eqb_eq in E; contradiction|reflexivity]. Qed.
Lemma zdims_same a : zdims a a = Some a.
Proof. destruct a; cbn [zdims]; [reflexivity|]; rewrite dims_refl; reflexivity. Qed.
Lemma zdims_nil a : zdims a [] = Some a.
Proof. destruct a; reflexivity. Qed.
Lemma zdims_none a b : a <> [] -> b <> [] -> a <> b -> zdims a b = None.
Proof. intros A B N; destruct a; [congruence|]; destruct b; [congruence|]; cbn [zdims]; rewrite dims_neq by exact N; reflexivity. Qed.

Lemma array_inj a b : array_type a = array_type b -> a = b.
Proof. destruct a, b; cbn; congruence. Qed.
Lemma array_scalar a : array_type a = KS -> a = [].
Proof. destruct a; cbn; congruence. Qed.

Lemma adj_array a b : adj_sty (array_type a) (array_type b) =
  if length a + length b <=? 5 then Some (array_type (a ++ b)) else None.
Proof.
  unfold adj_sty.
  assert (D : forall c, sty_dims (array_type c) = Some c) by (intros [|? ?]; reflexivity).
  rewrite !D; cbn [shape_concat].
  assert (P : forall c, c <> [] -> option_map sty_of (mk_bty CArrays (St c)) = if length c <=? 5 then Some (array_type c) else None).
  { intros [|x c] N; [congruence|]; cbn [mk_bty]; cbn [length Nat.leb andb].
    destruct (length c <=? 4); reflexivity. }
  destruct (Nat.leb_spec (length a + length b) 5) as [L|L].
  - assert (E : (length a <=? 5) && (length b <=? 5) && (length a + length b <=? 6) = true)
      by (rewrite !andb_true_iff, !Nat.leb_le; lia).
    rewrite E. destruct a as [|x a]; [destruct b as [|y b]; [reflexivity|]|].
    + cbn [array_type sty_cls precedence app]; rewrite P by discriminate.
      destruct (Nat.leb_spec (length (y :: b)) 5); [reflexivity|cbn [length] in *; lia].
    + assert (Q : precedence (sty_cls (array_type (x :: a))) (sty_cls (array_type b)) = CArrays) by reflexivity.
      rewrite Q, P by discriminate; rewrite app_length.
      destruct (Nat.leb_spec (length (x :: a) + length b) 5); [reflexivity|lia].
  - destruct ((length a <=? 5) && (length b <=? 5) && (length a + length b <=? 6)) eqn:E; [|reflexivity].
    rewrite !andb_true_iff, !Nat.leb_le in E.
    assert (Q : precedence (sty_cls (array_type a)) (sty_cls (array_type b)) = CArrays).
    { destruct a; [|reflexivity]; destruct b; [cbn in L; lia|reflexivity]. }
    rewrite Q, P by (destruct a, b; cbn in *; try discriminate; lia).
    rewrite app_length; destruct (Nat.leb_spec (length a + length b) 5); [lia|reflexivity].
Qed.

Lemma self_array a : self_concat (array_type a) = (length a <=? 3).
Proof.
  unfold self_concat.
  assert (D : sty_dims (array_type a) = Some a) by (destruct a; reflexivity).
  rewrite D; cbn [shape_concat].
  destruct (Nat.leb_spec (length a) 3);
  destruct ((length a <=? 5) && (length a <=? 5) && (length a + length a <=? 6)) eqn:E; auto.
  - apply not_true_iff_false in E; exfalso; apply E; rewrite !andb_true_iff, !Nat.leb_le; lia.
  - rewrite !andb_true_iff, !Nat.leb_le in E; lia.
Qed.

Lemma contract_array axes a b k : contract_sty axes (array_type a) (array_type b) = Some k ->
  exists s, k = array_type s.
Proof.
  destruct axes as [|[|?]];
    destruct a as [|a0 [|a1 [|? ?]]], b as [|b0 [|b1 [|? ?]]]; cbn [array_type contract_sty]; try discriminate;
    try (destruct (Nat.eqb _ _); [|discriminate]); intro H; injection H as <-.
  all: solve [exists []; reflexivity|eexists [_]; reflexivity|eexists [_; _]; reflexivity].
Qed.

Lemma typed_array {F} G (n : node F) t k : array_types G n -> adjoint n t <> None -> typeof G n = Some k ->
  exists s, k = array_type s.
Proof.
  intros [Hg Hc] Ad0; pose proof (proj1 (differentiable_iff F n t) Ad0) as Ad; revert k.
  enough (Gn : forall m, (forall x, part x m -> part x n) -> forall k, typeof G m = Some k -> exists s, k = array_type s)
    by (apply Gn; auto).
  assert (Zip : forall l r : node F, (forall k, typeof G l = Some k -> exists s, k = array_type s) ->
    (forall k, typeof G r = Some k -> exists s, k = array_type s) -> forall f k,
    (forall a b k, f (array_type a) (array_type b) = Some k -> exists s, k = array_type s) ->
    obind (typeof G l) (fun kl => obind (typeof G r) (fun kr => f kl kr)) = Some k -> exists s, k = array_type s).
  { intros l r Hl Hr f k Hf H; destruct (typeof G l) as [kl|]; [|discriminate]; destruct (typeof G r) as [kr|]; [|discriminate].
    cbn [obind] in H; destruct (Hl _ eq_refl) as [a ->], (Hr _ eq_refl) as [b ->]; eauto. }
  assert (Z : forall a b k, zip_sty (array_type a) (array_type b) = Some k -> exists s, k = array_type s).
  { intros a b k; rewrite zip_array; destruct (zdims a b); [|discriminate]; intro H; injection H as <-; eauto. }
  induction m; intros P k' H; cbn [typeof] in H;
    try (eapply Zip; [apply IHm1|apply IHm2| |exact H]; solve [exact Z|intros x Px; apply P; constructor; exact Px]).
  - eauto.
  - destruct (G i) as [ki|] eqn:Ei; [|discriminate]; destruct (G t0) as [kt|] eqn:Et; [|discriminate]; cbn [obind] in H.
    destruct (Hg _ _ Ei) as [a ->], (Hg _ _ Et) as [b ->]; destruct (self_concat _); [|discriminate].
    rewrite adj_array in H; destruct (_ <=? _); [|discriminate]; injection H as <-; eauto.
  - injection H as <-; apply Hc; apply P; constructor.
  - destruct (Ad _ (P _ (part_self _))).
  - destruct (Ad _ (P _ (part_self _))).
  - destruct (typeof G m) as [km|] eqn:Em; [|discriminate]; destruct (G k) as [kc|] eqn:Ek; [|discriminate]; cbn [obind] in H.
    destruct (Hg _ _ Ek) as [b ->]; destruct km, b; try discriminate; cbn [array_type] in H.
    + injection H as <-; exists []; reflexivity.
    + destruct (dims_eqb ds (n0 :: b)) eqn:E; [|discriminate]; apply dims_eqb_eq in E; subst.
      injection H as <-; exists (n0 :: b); reflexivity.
  - apply (IHm (fun x Px => P x (part_un _ _ _ Px)) _ H).
  - destruct (typeof G m); [|discriminate]; injection H as <-; exists []; reflexivity.
  - destruct (typeof G m1) as [[]|]; try discriminate; destruct (typeof G m2) as [[]|]; try discriminate.
    injection H as <-; exists []; reflexivity.
  - eapply Zip; [apply IHm1|apply IHm2| |exact H]; try (intros x Px; apply P; constructor; exact Px).
    intros a b k0; apply contract_array.
Qed.

Lemma all_types F (C : node F -> Prop) (n : node F) (l : list (node F)) :
  (forall m, part m n <-> m = n \/ Exists (part m) l) ->
  ((forall m, part m n -> C m) <-> C n /\ Forall (fun x => forall m, part m x -> C m) l).
Proof.
  intro E; split.
  - intro H; split; [apply H; constructor|]. apply Forall_forall; intros x I m P; apply H, E; right.
    apply Exists_exists; eauto.
  - intros [A Fa] m P; apply E in P as [->|P]; [exact A|].
    apply Exists_exists in P as (x & I & P). rewrite Forall_forall in Fa; eapply Fa; eauto.
Qed.

(** A gradient that type-checks has the concatenated dimensions. *)
Definition decided {F} (G : tenv) (T : list nat) (n n' : node F) (s : list nat) : Prop :=
  (forall m, part m n -> gradient_types G T m) /\ typeof G n' = Some (array_type (s ++ T)) \/
  ~ (forall m, part m n -> gradient_types G T m) /\ typeof G n' = None.

Lemma app_longer (s T : list nat) : T <> [] -> s ++ T <> s.
Proof. intros N E; apply (f_equal (@length nat)) in E; rewrite app_length in E; destruct T; [congruence|cbn in E; lia]. Qed.
Lemma app_nonempty (s T : list nat) : T <> [] -> s ++ T <> [].
Proof. destruct s; [auto|discriminate]. Qed.
Lemma longer_app (s T : list nat) : T <> [] -> s <> s ++ T.
Proof. intros N E; symmetry in E; revert E; apply app_longer; exact N. Qed.

Lemma zip_grow s T : zip_sty (array_type s) (array_type (s ++ T)) =
  match T, s with [], _ | _, [] => Some (array_type (s ++ T)) | _, _ => None end.
Proof.
  rewrite zip_array; destruct T as [|d T]; [rewrite app_nil_r, zdims_same; reflexivity|].
  destruct s as [|x s]; [reflexivity|].
  rewrite zdims_none; [reflexivity|discriminate|discriminate|apply longer_app; discriminate].
Qed.
Lemma zip_comm a b : zip_sty (array_type a) (array_type b) = zip_sty (array_type b) (array_type a).
Proof.
  rewrite !zip_array; f_equal; destruct a as [|x a], b as [|y b]; try reflexivity; cbn [zdims].
  destruct (dims_eqb (x :: a) (y :: b)) eqn:E.
  - apply dims_eqb_eq in E; rewrite <- E, dims_refl; reflexivity.
  - rewrite dims_neq; [reflexivity|]; intro Q; rewrite Q, dims_refl in E; discriminate.
Qed.
Lemma zip_grow_r s T : zip_sty (array_type (s ++ T)) (array_type s) =
  match T, s with [], _ | _, [] => Some (array_type (s ++ T)) | _, _ => None end.
Proof. rewrite zip_comm; apply zip_grow. Qed.
Lemma zip_scalar a : zip_sty KS (array_type a) = Some (array_type a).
Proof. destruct a; reflexivity. Qed.
Lemma zip_scalar_r a : zip_sty (array_type a) KS = Some (array_type a).
Proof. destruct a; reflexivity. Qed.
Lemma zip_same a : zip_sty (array_type a) (array_type a) = Some (array_type a).
Proof. rewrite zip_array, zdims_same; reflexivity. Qed.

Ltac nones := repeat match goal with
  | |- context [obind ?o _] => destruct o; cbn [obind]
  end; try reflexivity.

Section Decide.
Context {F : Type} (G : tenv) (t : ident) (T : list nat).
Hypothesis target : G t = Some (array_type T).

Lemma types_un u (m : node F) : (forall x, part x (Un u m) -> gradient_types G T x) <->
  gradient_types G T (Un u m) /\ forall x, part x m -> gradient_types G T x.
Proof.
  rewrite (all_types F (gradient_types G T) (Un u m) [m]); [|parts].
  rewrite Forall_cons_iff; intuition auto.
Qed.

Lemma un_decided u (m m' n' : node F) s :
  typeof G m = Some (array_type s) -> decided G T m m' s -> un_adjoint u m m' = Some n' ->
  decided G T (Un u m) n' s.
Proof.
  intros Tm D E; unfold decided; rewrite types_un; cbn [gradient_types]; rewrite Tm.
  destruct D as [[Y D]|[N D]].
  2:{ right; split; [tauto|]. destruct u; cbn [un_adjoint] in E; try discriminate; injection E as <-;
      cbn [typeof]; rewrite ?Tm, D; cbn [obind]; reflexivity. }
  assert (Q : affine u \/ ~ affine u).
  { destruct u; unfold affine; cbn [In]; (left; tauto) || (right; intuition discriminate). }
  destruct Q as [Q|Q].
  - left; split; [tauto|]; unfold affine in Q; cbn [In] in Q.
    repeat (destruct Q as [<-|Q]); try (destruct Q; fail); cbn [un_adjoint] in E; injection E as <-; cbn [typeof]; exact D.
  - assert (R : typeof G n' = match T, s with [], _ | _, [] => Some (array_type (s ++ T)) | _, _ => None end).
    { destruct u; cbn [un_adjoint] in E; try discriminate; try (exfalso; apply Q; unfold affine; cbn [In]; tauto);
        injection E as <-; cbn [typeof]; rewrite ?Tm, ?D; cbn [obind];
        rewrite ?zip_grow, ?zip_grow_r; try reflexivity.
      destruct T as [|d T0]; [|destruct s as [|x s0]]; cbn [obind]; rewrite ?zip_grow_r; reflexivity. }
    rewrite R; destruct T as [|d T0].
    + left; split; [split; [left; reflexivity|exact Y]|reflexivity].
    + destruct s as [|x s0].
      * left; split; [split; [right; right; reflexivity|exact Y]|reflexivity].
      * right; split; [|reflexivity]. intros [[K|[K|K]] _]; [discriminate|tauto|discriminate].
Qed.

Lemma bin_decided (n l r n' l' r' : node F) a b s :
  (forall m, part m n <-> m = n \/ Exists (part m) [l; r]) ->
  decided G T l l' a -> decided G T r r' b ->
  (typeof G l' = None -> typeof G n' = None) -> (typeof G r' = None -> typeof G n' = None) ->
  (typeof G l' = Some (array_type (a ++ T)) -> typeof G r' = Some (array_type (b ++ T)) ->
   gradient_types G T n /\ typeof G n' = Some (array_type (s ++ T)) \/
   ~ gradient_types G T n /\ typeof G n' = None) ->
  decided G T n n' s.
Proof.
  intros P Dl Dr Nl Nr K; unfold decided; rewrite (all_types F (gradient_types G T) n [l; r] P), !Forall_cons_iff.
  destruct Dl as [[Yl Dl]|[Yl Dl]]; [|right; split; [tauto|auto]].
  destruct Dr as [[Yr Dr]|[Yr Dr]]; [|right; split; [tauto|auto]].
  destruct (K Dl Dr) as [[Q H]|[Q H]]; [left|right]; (split; [|exact H]); [|tauto].
  split; [exact Q|split; [exact Yl|split; [exact Yr|constructor]]].
Qed.

Lemma zip_cases a b s : zip_sty (array_type a) (array_type b) = Some (array_type s) ->
  a = b /\ s = a \/ a = [] /\ b <> [] /\ s = b \/ a <> [] /\ b = [] /\ s = a.
Proof.
  rewrite zip_array; destruct a as [|x a], b as [|y b]; cbn [zdims option_map].
  - intro H; injection H as H; left; split; [reflexivity|symmetry; apply array_inj; exact H].
  - intro H; injection H as H; right; left; split; [reflexivity|split; [discriminate|symmetry; apply (array_inj (y :: b)); exact H]].
  - intro H; injection H as H; right; right; split; [discriminate|split; [reflexivity|symmetry; apply (array_inj (x :: a)); exact H]].
  - destruct (dims_eqb (x :: a) (y :: b)) eqn:E; [|discriminate]; apply dims_eqb_eq in E; rewrite <- E.
    intro H; injection H as H; left; split; [reflexivity|symmetry; apply (array_inj (x :: a)); exact H].
Qed.

Definition is_nil_dec (l : list nat) : {l = []} + {l <> []}.
Proof. destruct l; [left; reflexivity|right; discriminate]. Defined.

Lemma mul_local a b s : zip_sty (array_type a) (array_type b) = Some (array_type s) ->
  let x := obind (zip_sty (array_type (a ++ T)) (array_type b)) (fun k1 =>
           obind (zip_sty (array_type (b ++ T)) (array_type a)) (fun k2 => zip_sty k1 k2)) in
  (T = [] \/ a = [] /\ b = []) /\ x = Some (array_type (s ++ T)) \/
  ~ (T = [] \/ a = [] /\ b = []) /\ x = None.
Proof.
  intros Z x; subst x; destruct (is_nil_dec T) as [Et|Nt].
  - left; split; [left; exact Et|]; rewrite Et, !app_nil_r, Z; rewrite zip_comm in Z; rewrite Z; cbn [obind].
    apply zip_same.
  - destruct (zip_cases a b s Z) as [[E1 E2]|[(E1 & N & E2)|(N & E1 & E2)]]; subst.
    + rewrite zip_grow_r; destruct T as [|d T0]; [congruence|]; destruct b as [|y b].
      * left; split; [right; split; reflexivity|]; cbn [obind app]; apply zip_same.
      * right; split; [intros [K|[K _]]; discriminate|reflexivity].
    + right; split; [tauto|]; change (array_type []) with KS; cbn [app]; rewrite zip_scalar_r.
      rewrite zip_array; destruct (zdims T b) as [c|] eqn:Q; [|reflexivity]; cbn [option_map obind].
      assert (T = b /\ c = b) as [-> ->].
      { destruct T as [|d T0]; [congruence|]; destruct b as [|y b]; [congruence|]; cbn [zdims] in Q.
        destruct (dims_eqb (d :: T0) (y :: b)) eqn:E; [|discriminate]; apply dims_eqb_eq in E; split; congruence. }
      rewrite zip_grow; destruct b; [congruence|reflexivity].
    + right; split; [tauto|]; change (array_type []) with KS; cbn [app]; rewrite zip_scalar_r; cbn [obind].
      rewrite zip_array; destruct (zdims T a) as [c|] eqn:Q; [|reflexivity]; cbn [option_map obind].
      assert (T = a /\ c = a) as [-> ->].
      { destruct T as [|d T0]; [congruence|]; destruct a as [|y a]; [congruence|]; cbn [zdims] in Q.
        destruct (dims_eqb (d :: T0) (y :: a)) eqn:E; [|discriminate]; apply dims_eqb_eq in E; split; congruence. }
      rewrite zip_grow_r; destruct a; [congruence|reflexivity].
Qed.

Lemma div_local a b s : zip_sty (array_type a) (array_type b) = Some (array_type s) ->
  let x := obind (obind (zip_sty (array_type b) (array_type (a ++ T))) (fun k1 =>
           obind (zip_sty (array_type a) (array_type (b ++ T))) (fun k2 => zip_sty k1 k2)))
           (fun k => zip_sty k (array_type b)) in
  (T = [] \/ a = [] /\ b = []) /\ x = Some (array_type (s ++ T)) \/
  ~ (T = [] \/ a = [] /\ b = []) /\ x = None.
Proof.
  intros Z x; subst x; destruct (mul_local a b s Z) as [[Y M]|[N M]].
  - left; split; [exact Y|]. rewrite (zip_comm b), (zip_comm a), M; cbn [obind].
    destruct Y as [Y|[-> ->]].
    + rewrite Y, app_nil_r; destruct (zip_cases a b s Z) as [[E1 E2]|[(E1 & N & E2)|(N & E1 & E2)]]; subst.
      * apply zip_same.
      * apply zip_same.
      * apply zip_scalar_r.
    + apply zip_scalar_r.
  - right; split; [exact N|]. rewrite (zip_comm b), (zip_comm a), M; reflexivity.
Qed.

Lemma add_local a b s : zip_sty (array_type a) (array_type b) = Some (array_type s) ->
  (T = [] \/ Some (array_type a) = Some (array_type b)) /\
    zip_sty (array_type (a ++ T)) (array_type (b ++ T)) = Some (array_type (s ++ T)) \/
  ~ (T = [] \/ Some (array_type a) = Some (array_type b)) /\
    zip_sty (array_type (a ++ T)) (array_type (b ++ T)) = None.
Proof.
  intro Z; destruct (is_nil_dec T) as [Et|Nt].
  - left; split; [left; exact Et|]; rewrite Et, !app_nil_r; exact Z.
  - destruct (zip_cases a b s Z) as [[E1 E2]|[(E1 & N & E2)|(N & E1 & E2)]]; subst.
    + left; split; [right; reflexivity|apply zip_same].
    + right; split; [intros [K|K]; [tauto|]; destruct b; [tauto|discriminate]|].
      rewrite zip_array, zdims_none; [reflexivity|exact Nt|apply app_nonempty; exact Nt|].
      cbn [app]; intro K; apply N, (app_inv_tail T b []); symmetry; exact K.
    + right; split; [intros [K|K]; [tauto|]; destruct a; [tauto|discriminate]|].
      rewrite zip_array, zdims_none; [reflexivity|apply app_nonempty; exact Nt|exact Nt|].
      cbn [app]; intro K; apply N, (app_inv_tail T a []); exact K.
Qed.

Lemma contract_local axes a b s (l r : node F) :
  typeof G l = Some (array_type a) -> typeof G r = Some (array_type b) ->
  contract_sty axes (array_type a) (array_type b) = Some (array_type s) ->
  let x := obind (contract_sty axes (array_type a) (array_type (b ++ T))) (fun k1 =>
           obind (contract_sty axes (array_type (a ++ T)) (array_type b)) (fun k2 => zip_sty k1 k2)) in
  gradient_types G T (Contract axes l r) /\ x = Some (array_type (s ++ T)) \/
  ~ gradient_types G T (Contract axes l r) /\ x = None.
Proof.
  intros Tl Tr C x; subst x; destruct (is_nil_dec T) as [Et|Nt].
  { left; split; [destruct axes; left; exact Et|]; rewrite Et, !app_nil_r, C; cbn [obind]; apply zip_same. }
  destruct T as [|d T0]; [congruence|]; clear Nt.
  destruct axes as [|[|axes]]; cbn [gradient_types]; rewrite ?Tl, ?Tr.
  - destruct a as [|n [|m [|? ?]]], b as [|n' [|m' [|? ?]]]; cbn [array_type contract_sty] in C; try discriminate;
      injection C as C; try (apply (array_inj [] s) in C); try (apply (array_inj [_] s) in C);
      try (apply (array_inj [_; _] s) in C); subst s.
    + destruct T0 as [|e [|f T0]].
      * left; split; [right; left; cbn; auto|]. cbn. rewrite Nat.eqb_refl; reflexivity.
      * left; split; [right; left; cbn; auto|]. cbn; repeat (rewrite Nat.eqb_refl; cbn); reflexivity.
      * right; split; [|reflexivity].
        intros [K|[[K _]|[(? & ? & K & _)|(? & K & _)]]]; try discriminate; cbn in K; lia.
    + destruct T0 as [|e T0].
      * destruct (Nat.eq_dec n' d) as [->|N].
        -- left; split; [right; right; right; exists d; auto|]. cbn; rewrite Nat.eqb_refl; reflexivity.
        -- right; split.
           ++ intros [K|[[_ [_ K]]|[(? & ? & _ & K & _)|(? & K1 & _ & K2)]]]; try discriminate.
              injection K1 as <-; injection K2 as ->; congruence.
           ++ cbn. destruct (Nat.eqb_spec n' d); [congruence|reflexivity].
      * right; split; [|destruct T0; reflexivity].
        intros [K|[[_ [_ K]]|[(? & ? & K & _)|(? & K & _)]]]; discriminate.
    + right; split; [|reflexivity].
      intros [K|[[_ [_ K]]|[(? & ? & _ & K & _)|(? & _ & _ & K)]]]; discriminate.
    + destruct T0 as [|e T0].
      * left; split; [right; right; left; exists d, n; auto|]. cbn; repeat (rewrite Nat.eqb_refl; cbn); reflexivity.
      * right; split; [|destruct T0; reflexivity].
        intros [K|[[_ [K _]]|[(? & ? & K & _)|(? & K & _)]]]; discriminate.
    + right; split; [|reflexivity].
      intros [K|[[_ [_ K]]|[(? & ? & _ & _ & K)|(? & _ & K & _)]]]; discriminate.
    + right; split; [|reflexivity].
      intros [K|[[_ [K _]]|[(? & ? & _ & K & _)|(? & _ & K & _)]]]; discriminate.
  - destruct a as [|n [|m [|? ?]]], b as [|n' [|m' [|? ?]]]; cbn [array_type contract_sty] in C; try discriminate;
      try (match type of C with context [Nat.eqb ?p ?q] => destruct (Nat.eqb_spec p q) as [->|]; [|discriminate] end);
      injection C as C; try (apply (array_inj [] s) in C); try (apply (array_inj [_] s) in C);
      try (apply (array_inj [_; _] s) in C); subst s.
    + right; split; [|reflexivity]. intros [K|(? & ? & _ & K & _)]; discriminate.
    + destruct T0 as [|e T0].
      * left; split; [right; exists d, n'; auto|]. cbn. rewrite !Nat.eqb_refl; cbn; repeat (rewrite Nat.eqb_refl; cbn); reflexivity.
      * right; split; [|reflexivity]. intros [K|(? & ? & K & _)]; discriminate.
    + right; split; [|reflexivity]. intros [K|(? & ? & _ & _ & K)]; discriminate.
    + right; split; [intros [K|(? & ? & _ & K & _)]; discriminate|]. cbn [app array_type contract_sty obind].
      destruct T0; try (destruct (Nat.eqb _ _)); reflexivity.
    + right; split; [intros [K|(? & ? & _ & K & _)]; discriminate|]. cbn [app array_type contract_sty obind].
      destruct T0; try (destruct (Nat.eqb _ _)); reflexivity.
  - destruct a, b; discriminate.
Qed.

Lemma target_leaf (k : option sty) s : k = Some (array_type s) ->
  obind k (fun a => obind (G t) (fun b => adj_sty a b)) =
    if length s + length T <=? 5 then Some (array_type (s ++ T)) else None.
Proof. intros ->; rewrite target; cbn [obind]; apply adj_array. Qed.

Lemma leaf_decided (n n' : node F) s (c : bool) :
  (forall m, part m n <-> m = n \/ Exists (part m) []) ->
  (gradient_types G T n <-> c = true) ->
  typeof G n' = (if c then Some (array_type (s ++ T)) else None) -> decided G T n n' s.
Proof.
  intros P C E; unfold decided; rewrite (all_types F (gradient_types G T) n [] P), E, C.
  destruct c; [left|right]; split; auto. intros [K _]; discriminate.
Qed.

Lemma gradient_decided (n : node F) : forall n' s,
  array_types G n -> scalar_sums G n -> adjoint n t = Some n' -> typeof G n = Some (array_type s) ->
  decided G T n n' s.
Proof.
  assert (Split : forall (l r : node F) f s, (forall m : node F, array_types G m -> adjoint m t <> None -> forall k, typeof G m = Some k -> exists s, k = array_type s) ->
    array_types G l -> array_types G r -> adjoint l t <> None -> adjoint r t <> None ->
    obind (typeof G l) (fun kl => obind (typeof G r) (fun kr => f kl kr)) = Some (array_type s) ->
    exists a b, typeof G l = Some (array_type a) /\ typeof G r = Some (array_type b) /\ f (array_type a) (array_type b) = Some (array_type s)).
  { intros l r f s Ty Gl Gr Al Ar H; destruct (typeof G l) as [kl|] eqn:El; [|discriminate].
    destruct (typeof G r) as [kr|] eqn:Er; [|discriminate]; cbn [obind] in H.
    destruct (Ty l Gl Al kl El) as [a ->], (Ty r Gr Ar kr Er) as [b ->]; exists a, b; auto. }
  assert (Ty : forall m : node F, array_types G m -> adjoint m t <> None -> forall k, typeof G m = Some k -> exists s, k = array_type s)
    by (intros m Gm Am k; apply (typed_array G m t k Gm Am)).
  assert (Below : forall m x : node F, part m x -> array_types G x -> array_types G m).
  { intros m x P [A B]; split; [exact A|]; intros v Q; apply B; clear -P Q; induction P; try (constructor; assumption); assumption. }
  induction n; intros n' sh Gn Sc A Tn; cbn [adjoint] in A; cbn [scalar_sums] in Sc; cbn [typeof] in Tn.
  - injection A as <-. apply leaf_decided with (c := (length sh <=? 3) && (length sh + length T <=? 5)); [parts| |].
    + cbn [gradient_types]; rewrite andb_true_iff, !Nat.leb_le; split.
      * intro H; apply H; exact Tn.
      * intros H sh' E; rewrite Tn in E; injection E as E; apply array_inj in E; subst; exact H.
    + cbn [typeof]; rewrite Tn, target; cbn [obind]; rewrite self_array, adj_array.
      destruct (length sh <=? 3); reflexivity.
  - injection A as <-. apply leaf_decided with (c := length sh + length T <=? 5); [parts| |].
    + cbn [gradient_types]; rewrite Nat.leb_le; split.
      * intro H; apply H; exact Tn.
      * intros H sh' E; cbn [typeof] in E; rewrite Tn in E; injection E as E; apply array_inj in E; subst; exact H.
    + cbn [typeof]; apply target_leaf; exact Tn.
  - injection A as <-. apply leaf_decided with (c := length sh + length T <=? 5); [parts| |].
    + cbn [gradient_types]; rewrite Nat.leb_le; split.
      * intro H; apply H; exact Tn.
      * intros H sh' E; cbn [typeof] in E; rewrite Tn in E; injection E as E; apply array_inj in E; subst; exact H.
    + cbn [typeof]; apply target_leaf; exact Tn.
  - discriminate.
  - discriminate.
  - destruct (ident_eqb k t) eqn:E; [|discriminate].
    assert (Tm : typeof G n = Some (array_type sh)).
    { destruct (typeof G n) as [km|] eqn:Em; [|discriminate]; destruct (G k) as [kc|]; [|discriminate]; cbn [obind] in Tn.
      destruct km, kc; try discriminate; try exact Tn. destruct (dims_eqb ds ds0); [exact Tn|discriminate]. }
    specialize (IHn n' sh (Below _ _ (part_cached n n k (part_self n)) Gn) Sc A Tm).
    unfold decided in *; rewrite (all_types F (gradient_types G T) (Cached n k) [n]) by parts.
    cbn [gradient_types]; rewrite Forall_cons_iff; destruct IHn as [[Y D]|[N D]]; [left|right]; (split; [|exact D]).
    + auto.
    + tauto.
  - destruct (adjoint n t) as [m'|] eqn:Am; [|discriminate]; cbn [obind] in A.
    apply (un_decided u n m' n' sh Tn); [|exact A].
    exact (IHn m' sh (Below _ _ (part_un n u n (part_self n)) Gn) Sc eq_refl Tn).
  - destruct Sc as [Tm Sc]. rewrite Tm in Tn; injection Tn as Tn; symmetry in Tn; apply array_scalar in Tn; subst sh.
    specialize (IHn n' [] (Below _ _ (part_sum n n (part_self n)) Gn) Sc A Tm).
    unfold decided in *; rewrite (all_types F (gradient_types G T) (Sum n) [n]) by parts.
    cbn [gradient_types]; rewrite Forall_cons_iff; destruct IHn as [[Y D]|[N D]]; [left|right]; (split; [|exact D]).
    + auto.
    + tauto.
  - destruct (adjoint n1 t) as [l'|] eqn:Al; [|discriminate]; destruct (adjoint n2 t) as [r'|] eqn:Ar; [|discriminate].
    cbn [obind] in A; injection A as <-; destruct Sc as [Sl Sr].
    assert (Tl : typeof G n1 = Some (array_type [])) by (clear IHn1 IHn2; destruct (typeof G n1) as [[]|], (typeof G n2) as [[]|]; try discriminate; reflexivity).
    assert (Tr : typeof G n2 = Some (array_type [])) by (clear IHn1 IHn2; destruct (typeof G n1) as [[]|], (typeof G n2) as [[]|]; try discriminate; reflexivity).
    rewrite Tl, Tr in Tn; cbn in Tn; injection Tn as Tn; symmetry in Tn; apply array_scalar in Tn; subst sh.
    apply (bin_decided (Power n1 n2) n1 n2 _ l' r' [] []); [parts| | | | |].
    + exact (IHn1 l' [] (Below _ _ (part_power_l n1 n1 n2 (part_self n1)) Gn) Sl eq_refl Tl).
    + exact (IHn2 r' [] (Below _ _ (part_power_r n2 n1 n2 (part_self n2)) Gn) Sr eq_refl Tr).
    + intro E; cbn [typeof]; rewrite Tl, Tr, E; reflexivity.
    + intro E; cbn [typeof]; rewrite Tl, Tr, E; cbn [obind array_type]; destruct (obind (typeof G l') _); reflexivity.
    + intros El Er; left; split; [exact Logic.I|]. cbn [typeof]; rewrite Tl, Tr, El, Er; cbn [obind array_type app].
      rewrite !zip_scalar; cbn [obind]; rewrite zip_same; cbn [obind]; apply zip_scalar.
  - destruct (adjoint n1 t) as [l'|] eqn:Al; [|discriminate]; destruct (adjoint n2 t) as [r'|] eqn:Ar; [|discriminate].
    cbn [obind] in A; injection A as <-; destruct Sc as [Sl Sr].
    pose proof (Below _ _ (part_add_l n1 n1 n2 (part_self n1)) Gn) as Gl; pose proof (Below _ _ (part_add_r n2 n1 n2 (part_self n2)) Gn) as Gr.
    destruct (Split n1 n2 _ sh Ty Gl Gr ltac:(congruence) ltac:(congruence) Tn) as (a & b & Tl & Tr & Z).
    apply (bin_decided (Add n1 n2) n1 n2 _ l' r' a b); [parts|eauto|eauto| | |].
    + intro E; cbn [typeof]; rewrite E; reflexivity.
    + intro E; cbn [typeof]; rewrite E; destruct (typeof G l'); reflexivity.
    + intros El Er; cbn [typeof gradient_types]; rewrite Tl, Tr, El, Er; cbn [obind]; apply add_local; exact Z.
  - destruct (adjoint n1 t) as [l'|] eqn:Al; [|discriminate]; destruct (adjoint n2 t) as [r'|] eqn:Ar; [|discriminate].
    cbn [obind] in A; injection A as <-; destruct Sc as [Sl Sr].
    pose proof (Below _ _ (part_sub_l n1 n1 n2 (part_self n1)) Gn) as Gl; pose proof (Below _ _ (part_sub_r n2 n1 n2 (part_self n2)) Gn) as Gr.
    destruct (Split n1 n2 _ sh Ty Gl Gr ltac:(congruence) ltac:(congruence) Tn) as (a & b & Tl & Tr & Z).
    apply (bin_decided (Sub n1 n2) n1 n2 _ l' r' a b); [parts|eauto|eauto| | |].
    + intro E; cbn [typeof]; rewrite E; reflexivity.
    + intro E; cbn [typeof]; rewrite E; destruct (typeof G l'); reflexivity.
    + intros El Er; cbn [typeof gradient_types]; rewrite Tl, Tr, El, Er; cbn [obind]; apply add_local; exact Z.
  - destruct (adjoint n1 t) as [l'|] eqn:Al; [|discriminate]; destruct (adjoint n2 t) as [r'|] eqn:Ar; [|discriminate].
    cbn [obind] in A; injection A as <-; destruct Sc as [Sl Sr].
    pose proof (Below _ _ (part_mul_l n1 n1 n2 (part_self n1)) Gn) as Gl; pose proof (Below _ _ (part_mul_r n2 n1 n2 (part_self n2)) Gn) as Gr.
    destruct (Split n1 n2 _ sh Ty Gl Gr ltac:(congruence) ltac:(congruence) Tn) as (a & b & Tl & Tr & Z).
    apply (bin_decided (Mul n1 n2) n1 n2 _ l' r' a b); [parts|eauto|eauto| | |].
    + intro E; cbn [typeof]; rewrite E; reflexivity.
    + intro E; cbn [typeof]; rewrite E; cbn [obind]; nones.
    + intros El Er; cbn [typeof gradient_types]; rewrite Tl, Tr, El, Er; cbn [obind].
      destruct (mul_local a b sh Z) as [[Y X]|[N X]]; [left|right]; (split; [|exact X]).
      * destruct Y as [Y|[-> ->]]; auto.
      * intros [K|[K1 K2]]; apply N; [auto|right]. injection K1 as K1; injection K2 as K2.
        split; apply array_scalar; assumption.
  - destruct (adjoint n1 t) as [l'|] eqn:Al; [|discriminate]; destruct (adjoint n2 t) as [r'|] eqn:Ar; [|discriminate].
    cbn [obind] in A; injection A as <-; destruct Sc as [Sl Sr].
    pose proof (Below _ _ (part_div_l n1 n1 n2 (part_self n1)) Gn) as Gl; pose proof (Below _ _ (part_div_r n2 n1 n2 (part_self n2)) Gn) as Gr.
    destruct (Split n1 n2 _ sh Ty Gl Gr ltac:(congruence) ltac:(congruence) Tn) as (a & b & Tl & Tr & Z).
    apply (bin_decided (Div n1 n2) n1 n2 _ l' r' a b); [parts|eauto|eauto| | |].
    + intro E; cbn [typeof]; rewrite E, Tr; reflexivity.
    + intro E; cbn [typeof]; rewrite E, Tl, Tr; cbn [obind]; destruct (obind (typeof G l') _); reflexivity.
    + intros El Er; cbn [typeof gradient_types]; rewrite Tl, Tr, El, Er; cbn [obind].
      destruct (div_local a b sh Z) as [[Y X]|[N X]]; [left|right]; (split; [|exact X]).
      * destruct Y as [Y|[-> ->]]; auto.
      * intros [K|[K1 K2]]; apply N; [auto|right]. injection K1 as K1; injection K2 as K2.
        split; apply array_scalar; assumption.
  - destruct (adjoint n1 t) as [l'|] eqn:Al; [|discriminate]; destruct (adjoint n2 t) as [r'|] eqn:Ar; [|discriminate].
    cbn [obind] in A; injection A as <-; destruct Sc as [Sl Sr].
    pose proof (Below _ _ (part_contract_l n1 axes n1 n2 (part_self n1)) Gn) as Gl; pose proof (Below _ _ (part_contract_r n2 axes n1 n2 (part_self n2)) Gn) as Gr.
    destruct (Split n1 n2 _ sh Ty Gl Gr ltac:(congruence) ltac:(congruence) Tn) as (a & b & Tl & Tr & Z).
    apply (bin_decided (Contract axes n1 n2) n1 n2 _ l' r' a b); [parts|eauto|eauto| | |].
    + intro E; cbn [typeof]; rewrite E, Tl, Tr; cbn [obind]; destruct (obind (typeof G r') _); reflexivity.
    + intro E; cbn [typeof]; rewrite E, Tl; reflexivity.
    + intros El Er; cbn [typeof]; rewrite Tl, Tr, El, Er; cbn [obind].
      exact (contract_local axes a b sh n1 n2 Tl Tr Z).
Qed.
End Decide.

Lemma gradient_iff F G (n n' : node F) t k T :
  array_types G n -> scalar_sums G n -> typeof G n = Some k -> G t = Some (array_type T) ->
  adjoint n t = Some n' ->
  (typeof G n' <> None <-> forall m, part m n -> gradient_types G T m).
Proof.
  intros Ga Sc Tn Gt A.
  destruct (typed_array G n t k Ga ltac:(congruence) Tn) as [s ->].
  destruct (gradient_decided G t T Gt n n' s Ga Sc A Tn) as [[Y D]|[N D]]; rewrite D; split; auto; congruence.
Qed.

Lemma gradient_scalar F G (n n' : node F) t k :
  array_types G n -> scalar_sums G n -> typeof G n = Some k -> G t = Some KS ->
  adjoint n t = Some n' ->
  (typeof G n' <> None <->
   (forall i s, part (Var i) n -> G i = Some (KA s) -> length s <= 3) /\
   forall m s, part m n -> (exists v, m = Const v) \/ (exists i u, m = VarAdj i u) ->
     typeof G m = Some (KA s) -> length s <= 5).
Proof.
  intros Ga Sc Tn Gt A; rewrite (gradient_iff F G n n' t k [] Ga Sc Tn Gt A); split.
  - intro H; split.
    + intros i s P E; destruct s as [|d s]; [cbn; lia|]. destruct (H _ P (d :: s) E); assumption.
    + intros m s P Q E; specialize (H m P); destruct s as [|d s]; [cbn; lia|].
      destruct Q as [[v ->]|(i & u & ->)]; cbn [gradient_types] in H; specialize (H (d :: s) E);
        rewrite Nat.add_0_r in H; exact H.
  - intros [Hv Hc] m P; destruct m; cbn [gradient_types]; auto.
    + intros s E; rewrite Nat.add_0_r; destruct s as [|d s]; [cbn; lia|]. specialize (Hv _ _ P E); cbn [length] in *; lia.
    + intros s E; rewrite Nat.add_0_r; destruct s as [|d s]; [cbn; lia|]. apply (Hc _ (d :: s) P); eauto.
    + intros s E; rewrite Nat.add_0_r; destruct s as [|d s]; [cbn; lia|]. apply (Hc _ (d :: s) P); eauto.
    + destruct axes; auto.
Qed.
