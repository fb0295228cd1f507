(** The chain rule for expressions of scalars. *)
From Coq Require Import List Arith Bool Reals Lia Lra.
Import ListNotations.
From Verif Require Import Base Shapes Scalar Buffers Spec Contraction Node Eval Types Instances
  Vocab Math Real_math Fmt_math Subst_math Eval_facts Adjoint_facts Zero_facts Math_claims Fmt_claims Subst_claims.
Local Open Scope R_scope.

Section Chain.
Variables (inf : R) (sp : libfn -> R -> R).
#[local] Instance Rs : Scalar R := R_scalar inf sp.
Notation D c n := (den (real_un inf sp) c n).

(** The value of an expression of scalars, directly. *)
Fixpoint sval (c : ctx R) (n : node R) : R :=
  match n with
  | Var i => match c i with Some v => vat 0 v [] | None => 0 end
  | VarAdj i t => if Nat.eqb i t then 1 else 0
  | Const v => vat 0 v []
  | ConstSpec s => tat (tensor_of_spec s) []
  | ConstAdj _ _ => 0
  | Cached m _ => sval c m
  | Un u m => real_un inf sp u (sval c m)
  | Sum m => 0 + sval c m
  | Power l r => R_pow (sval c l) (sval c r)
  | Add l r => sval c l + sval c r
  | Sub l r => sval c l - sval c r
  | Mul l r | Contract _ l r => sval c l * sval c r
  | Div l r => sval c l / sval c r
  end.

Lemma sval_den c n : scalar_ctx c -> scalar_tree n -> tat (D c n) [] = sval c n.
Proof.
  intros Hc; assert (Sd : forall m, scalar_tree m -> tdims (D c m) = []) by exact (fun m => scalar_dims inf sp c m Hc).
  assert (B : forall m, scalar_tree m -> at_bc (D c m) [] = tat (D c m) []) by (intros m H; unfold at_bc; destruct (tdims _); auto).
  induction n; intro H; cbn [den tat sval scalar_tree] in *; auto.
  - unfold var_tensor; destruct (c i); reflexivity.
  - assert (V : forall j, tdims (var_tensor c j) = []) by (intro j; exact (Sd (Var j) Logic.I)).
    rewrite V; cbn [length firstn skipn]; destruct (Nat.eqb i t); reflexivity.
  - rewrite IHn; auto.
  - rewrite (Sd n H); cbn; rewrite IHn; auto.
  - destruct H; rewrite IHn1, IHn2; auto.
  - destruct H; unfold pointwise; cbn [tat]; rewrite !B, IHn1, IHn2; auto.
  - destruct H; unfold pointwise; cbn [tat]; rewrite !B, IHn1, IHn2; auto.
  - destruct H; unfold pointwise; cbn [tat]; rewrite !B, IHn1, IHn2; auto.
  - destruct H; unfold pointwise; cbn [tat]; rewrite !B, IHn1, IHn2; auto.
  - destruct H as [H1 H2]; destruct axes; unfold outer, inner; rewrite (Sd n1 H1), ?(Sd n2 H2); cbn [tat length firstn skipn];
      rewrite IHn1, IHn2; auto.
Qed.

Lemma adjoint_scalar (n n' : node R) t : adjoint n t = Some n' -> scalar_tree n -> scalar_tree n'.
Proof.
  revert n'; induction n; intros n' A H; cbn [adjoint scalar_tree] in *; try discriminate; unfold obind in A.
  - injection A as <-; exact Logic.I.
  - injection A as <-; exact Logic.I.
  - injection A as <-; exact H.
  - destruct (ident_eqb k t); [auto|discriminate].
  - destruct (adjoint n t) as [m'|]; [|discriminate]; specialize (IHn m' eq_refl H).
    destruct u; try discriminate; injection A as <-; cbn [scalar_tree]; auto.
  - auto.
  - destruct (adjoint n1 t) as [l'|], (adjoint n2 t) as [r'|]; try discriminate; destruct H as [H1 H2].
    injection A as <-; cbn [scalar_tree]; specialize (IHn1 l' eq_refl H1); specialize (IHn2 r' eq_refl H2); tauto.
  - destruct (adjoint n1 t) as [l'|], (adjoint n2 t) as [r'|]; try discriminate; destruct H as [H1 H2].
    injection A as <-; cbn [scalar_tree]; specialize (IHn1 l' eq_refl H1); specialize (IHn2 r' eq_refl H2); tauto.
  - destruct (adjoint n1 t) as [l'|], (adjoint n2 t) as [r'|]; try discriminate; destruct H as [H1 H2].
    injection A as <-; cbn [scalar_tree]; specialize (IHn1 l' eq_refl H1); specialize (IHn2 r' eq_refl H2); tauto.
  - destruct (adjoint n1 t) as [l'|], (adjoint n2 t) as [r'|]; try discriminate; destruct H as [H1 H2].
    injection A as <-; cbn [scalar_tree]; specialize (IHn1 l' eq_refl H1); specialize (IHn2 r' eq_refl H2); tauto.
  - destruct (adjoint n1 t) as [l'|], (adjoint n2 t) as [r'|]; try discriminate; destruct H as [H1 H2].
    injection A as <-; cbn [scalar_tree]; specialize (IHn1 l' eq_refl H1); specialize (IHn2 r' eq_refl H2); tauto.
  - destruct (adjoint n1 t) as [l'|], (adjoint n2 t) as [r'|]; try discriminate; destruct H as [H1 H2].
    injection A as <-; cbn [scalar_tree]; specialize (IHn1 l' eq_refl H1); specialize (IHn2 r' eq_refl H2); tauto.
Qed.

Lemma replaced_scalar i (m n : node R) : scalar_tree m -> scalar_tree n -> scalar_tree (replaced i m n).
Proof. induction n; cbn; intuition; destruct (ident_eqb i0 i); auto; exact Logic.I. Qed.

(** ** Substitution and chain rule for [sval] *)
Section Rule.
Variables (i t : ident) (m d : node R) (c c' : ctx R).
Hypothesis others : forall j, j <> i -> c' j = c j.
Hypothesis this : match c' i with Some v => vat 0 v [] | None => 0 end = sval c m.
Hypothesis dm : adjoint m t = Some d.

Lemma sval_replaced n : sval c (replaced i m n) = sval c' n.
Proof.
  induction n; cbn [replaced sval]; rewrite ?IHn, ?IHn1, ?IHn2; auto.
  destruct (ident_eqb i0 i) eqn:E.
  - apply ident_eqb_eq in E; subst; auto.
  - cbn [sval]; rewrite others; auto; intros ->; rewrite ident_eqb_refl in E; discriminate.
Qed.

Lemma adjoint_replaced n a : cache_free n = true -> adjoint n t = Some a -> exists e, adjoint (replaced i m n) t = Some e.
Proof.
  revert a; induction n; intros a Cf A; cbn [replaced adjoint cache_free] in *; try discriminate; eauto.
  - destruct (ident_eqb i0 i); cbn [adjoint]; eauto.
  - unfold obind in *; destruct (adjoint n t) as [n'|]; [|discriminate]; destruct (IHn n' Cf eq_refl) as [e ->].
    destruct u; try discriminate; cbn [un_adjoint]; eauto.
  - apply andb_true_iff in Cf; destruct Cf as [C1 C2]; unfold obind in *; destruct (adjoint n1 t) as [l'|], (adjoint n2 t) as [r'|]; try discriminate.
    destruct (IHn1 l' C1 eq_refl) as [? E1], (IHn2 r' C2 eq_refl) as [? E2]; rewrite E1, E2; eauto.
  - apply andb_true_iff in Cf; destruct Cf as [C1 C2]; unfold obind in *; destruct (adjoint n1 t) as [l'|], (adjoint n2 t) as [r'|]; try discriminate.
    destruct (IHn1 l' C1 eq_refl) as [? E1], (IHn2 r' C2 eq_refl) as [? E2]; rewrite E1, E2; eauto.
  - apply andb_true_iff in Cf; destruct Cf as [C1 C2]; unfold obind in *; destruct (adjoint n1 t) as [l'|], (adjoint n2 t) as [r'|]; try discriminate.
    destruct (IHn1 l' C1 eq_refl) as [? E1], (IHn2 r' C2 eq_refl) as [? E2]; rewrite E1, E2; eauto.
  - apply andb_true_iff in Cf; destruct Cf as [C1 C2]; unfold obind in *; destruct (adjoint n1 t) as [l'|], (adjoint n2 t) as [r'|]; try discriminate.
    destruct (IHn1 l' C1 eq_refl) as [? E1], (IHn2 r' C2 eq_refl) as [? E2]; rewrite E1, E2; eauto.
  - apply andb_true_iff in Cf; destruct Cf as [C1 C2]; unfold obind in *; destruct (adjoint n1 t) as [l'|], (adjoint n2 t) as [r'|]; try discriminate.
    destruct (IHn1 l' C1 eq_refl) as [? E1], (IHn2 r' C2 eq_refl) as [? E2]; rewrite E1, E2; eauto.
  - apply andb_true_iff in Cf; destruct Cf as [C1 C2]; unfold obind in *; destruct (adjoint n1 t) as [l'|], (adjoint n2 t) as [r'|]; try discriminate.
    destruct (IHn1 l' C1 eq_refl) as [? E1], (IHn2 r' C2 eq_refl) as [? E2]; rewrite E1, E2; eauto.
Qed.

Definition direct (x : R) : R := if Nat.eqb t i then 0 else x.
Lemma direct_eq x : direct x = (if Nat.eqb t i then 0 else 1) * x.
Proof. unfold direct; destruct (Nat.eqb t i); ring. Qed.

Lemma sval_chain n : cache_free n = true -> only_variable i n -> forall a b e,
  adjoint n t = Some a -> adjoint n i = Some b -> adjoint (replaced i m n) t = Some e ->
  sval c e = direct (sval c' a) + sval c' b * sval c d.
Proof.
  induction n; intros Cf Ov a b e Ha Hb He; cbn [adjoint replaced cache_free only_variable] in *; try discriminate; unfold obind in *.
  - injection Ha as <-; injection Hb as <-; cbn [sval]; destruct (ident_eqb i0 i) eqn:E.
    + apply ident_eqb_eq in E; subst i0; rewrite dm in He; injection He as <-; unfold direct; rewrite Nat.eqb_refl, (Nat.eqb_sym i t).
      destruct (Nat.eqb t i); ring.
    + injection He as <-; cbn [sval]; unfold direct; change (Nat.eqb i0 i) with (ident_eqb i0 i); rewrite E.
      destruct (Nat.eqb t i) eqn:T; [|ring]; apply Nat.eqb_eq in T; subst t.
      change (Nat.eqb i0 i) with (ident_eqb i0 i); rewrite E; ring.
  - injection Ha as <-; injection Hb as <-; injection He as <-; cbn [sval]; rewrite direct_eq; ring.
  - injection Ha as <-; injection Hb as <-; injection He as <-; cbn [sval]; rewrite direct_eq; ring.
  - destruct (adjoint n t) as [a'|], (adjoint n i) as [b'|], (adjoint (replaced i m n) t) as [e'|]; try discriminate.
    specialize (IHn Cf Ov a' b' e' eq_refl eq_refl eq_refl); rewrite direct_eq in *.
    destruct u; try discriminate; injection Ha as <-; injection Hb as <-; injection He as <-; cbn [sval real_un];
      rewrite ?sval_replaced, IHn; unfold Rdiv; ring.
  - specialize (IHn Cf Ov a b e Ha Hb He); exact IHn.
  - apply andb_true_iff in Cf; destruct Cf as [C1 C2], Ov as [O1 O2].
    destruct (adjoint n1 t) as [a1|], (adjoint n2 t) as [a2|], (adjoint n1 i) as [b1|], (adjoint n2 i) as [b2|],
      (adjoint (replaced i m n1) t) as [e1|], (adjoint (replaced i m n2) t) as [e2|]; try discriminate.
    specialize (IHn1 C1 O1 _ _ _ eq_refl eq_refl eq_refl); specialize (IHn2 C2 O2 _ _ _ eq_refl eq_refl eq_refl); rewrite direct_eq in *.
    injection Ha as <-; injection Hb as <-; injection He as <-; cbn [sval real_un]; rewrite ?sval_replaced, IHn1, IHn2; unfold Rdiv; ring.
  - apply andb_true_iff in Cf; destruct Cf as [C1 C2], Ov as [O1 O2].
    destruct (adjoint n1 t) as [a1|], (adjoint n2 t) as [a2|], (adjoint n1 i) as [b1|], (adjoint n2 i) as [b2|],
      (adjoint (replaced i m n1) t) as [e1|], (adjoint (replaced i m n2) t) as [e2|]; try discriminate.
    specialize (IHn1 C1 O1 _ _ _ eq_refl eq_refl eq_refl); specialize (IHn2 C2 O2 _ _ _ eq_refl eq_refl eq_refl); rewrite direct_eq in *.
    injection Ha as <-; injection Hb as <-; injection He as <-; cbn [sval real_un]; rewrite ?sval_replaced, IHn1, IHn2; unfold Rdiv; ring.
  - apply andb_true_iff in Cf; destruct Cf as [C1 C2], Ov as [O1 O2].
    destruct (adjoint n1 t) as [a1|], (adjoint n2 t) as [a2|], (adjoint n1 i) as [b1|], (adjoint n2 i) as [b2|],
      (adjoint (replaced i m n1) t) as [e1|], (adjoint (replaced i m n2) t) as [e2|]; try discriminate.
    specialize (IHn1 C1 O1 _ _ _ eq_refl eq_refl eq_refl); specialize (IHn2 C2 O2 _ _ _ eq_refl eq_refl eq_refl); rewrite direct_eq in *.
    injection Ha as <-; injection Hb as <-; injection He as <-; cbn [sval real_un]; rewrite ?sval_replaced, IHn1, IHn2; unfold Rdiv; ring.
  - apply andb_true_iff in Cf; destruct Cf as [C1 C2], Ov as [O1 O2].
    destruct (adjoint n1 t) as [a1|], (adjoint n2 t) as [a2|], (adjoint n1 i) as [b1|], (adjoint n2 i) as [b2|],
      (adjoint (replaced i m n1) t) as [e1|], (adjoint (replaced i m n2) t) as [e2|]; try discriminate.
    specialize (IHn1 C1 O1 _ _ _ eq_refl eq_refl eq_refl); specialize (IHn2 C2 O2 _ _ _ eq_refl eq_refl eq_refl); rewrite direct_eq in *.
    injection Ha as <-; injection Hb as <-; injection He as <-; cbn [sval real_un]; rewrite ?sval_replaced, IHn1, IHn2; unfold Rdiv; ring.
  - apply andb_true_iff in Cf; destruct Cf as [C1 C2], Ov as [O1 O2].
    destruct (adjoint n1 t) as [a1|], (adjoint n2 t) as [a2|], (adjoint n1 i) as [b1|], (adjoint n2 i) as [b2|],
      (adjoint (replaced i m n1) t) as [e1|], (adjoint (replaced i m n2) t) as [e2|]; try discriminate.
    specialize (IHn1 C1 O1 _ _ _ eq_refl eq_refl eq_refl); specialize (IHn2 C2 O2 _ _ _ eq_refl eq_refl eq_refl); rewrite direct_eq in *.
    injection Ha as <-; injection Hb as <-; injection He as <-; cbn [sval real_un]; rewrite ?sval_replaced, IHn1, IHn2; unfold Rdiv; ring.
  - apply andb_true_iff in Cf; destruct Cf as [C1 C2], Ov as [O1 O2].
    destruct (adjoint n1 t) as [a1|], (adjoint n2 t) as [a2|], (adjoint n1 i) as [b1|], (adjoint n2 i) as [b2|],
      (adjoint (replaced i m n1) t) as [e1|], (adjoint (replaced i m n2) t) as [e2|]; try discriminate.
    specialize (IHn1 C1 O1 _ _ _ eq_refl eq_refl eq_refl); specialize (IHn2 C2 O2 _ _ _ eq_refl eq_refl eq_refl); rewrite direct_eq in *.
    injection Ha as <-; injection Hb as <-; injection He as <-; cbn [sval real_un]; rewrite ?sval_replaced, IHn1, IHn2; unfold Rdiv; ring.
Qed.
End Rule.
End Chain.

Lemma wf_scalar (inf : R) (sp : libfn -> R -> R) (c c2 : ctx R) (n : node R) x :
  let S := R_scalar inf sp in
  ctx_wf c -> scalar_ctx c -> node_wf n -> scalar_tree n -> cache_free n = true -> regular (real_un inf sp) c n ->
  evaluate n c = (c2, Ok (VScal x)) -> x = sval inf sp c n.
Proof.
  intros S Wc Sc W St Cf Rg Ev; destruct (value_real inf sp n c c2 (VScal x) W Wc Cf Rg Ev) as [_ [Hd Hv]].
  assert (Td : tdims (den (real_un inf sp) c n) = []) by exact (scalar_dims inf sp c n Sc St).
  assert (In : in_box (tdims (den (real_un inf sp) c n)) []) by (rewrite Td; constructor).
  assert (Sv := sval_den inf sp c n Sc St); rewrite <- Sv; exact (Hv [] In).
Qed.

Lemma chain (inf : R) (sp : libfn -> R -> R) (i t : ident) (m n a b d : node R) (c c1 : ctx R) y :
  let S := R_scalar inf sp in
  let regular := regular (real_un inf sp) in
  ctx_wf c -> scalar_ctx c -> node_wf m -> node_wf n -> scalar_tree m -> scalar_tree n ->
  cache_free m = true -> cache_free n = true -> only_variable i n ->
  adjoint n t = Some a -> adjoint n i = Some b -> adjoint m t = Some d ->
  regular c m -> evaluate m c = (c1, Ok (VScal y)) ->
  exists e, adjoint (replaced i m n) t = Some e /\
  forall x p q r, let c' := write c i (VScal y) in
    regular c e -> regular c' a -> regular c' b -> regular c d ->
    snd (evaluate e c) = Ok (VScal x) ->
    snd (evaluate a c') = Ok (VScal p) -> snd (evaluate b c') = Ok (VScal q) -> snd (evaluate d c) = Ok (VScal r) ->
    x = (if Nat.eqb t i then 0 else p) + q * r.
Proof.
  intros S rg Wc Sc Wm Wn Sm Sn Cm Cn Ov Aa Ab Ad Rm Em.
  destruct (adjoint_replaced i t m d Ad n a Cn Aa) as [e Ae]; exists e; split; [exact Ae|].
  intros x p q r c' Re Ra Rb Rd Ee Ea Eb Ed.
  assert (Wc' : ctx_wf c').
  { intros j v; unfold c', write; destruct (ident_eqb i j); [intros [= <-]; exact Logic.I|apply Wc]. }
  assert (Sc' : scalar_ctx c').
  { intros j v; unfold c', write; destruct (ident_eqb i j); [intros [= <-]; reflexivity|apply Sc]. }
  assert (Wr : node_wf (replaced i m n)).
  { clear - Wm Wn; induction n; cbn in *; intuition; destruct (ident_eqb i0 i); auto; exact Logic.I. }
  assert (Cr : cache_free (replaced i m n) = true).
  { clear - Cm Cn; induction n; cbn in *; auto; try (apply andb_true_iff in Cn; destruct Cn; rewrite IHn1, IHn2; auto; fail);
      destruct (ident_eqb i0 i); auto. }
  assert (Ym := wf_scalar inf sp c c1 m y Wc Sc Wm Sm Cm Rm Em).
  assert (Go : forall (k : node R) (g : ctx R) z, ctx_wf g -> scalar_ctx g -> node_wf k -> scalar_tree k -> cache_free k = true ->
    rg g k -> snd (evaluate k g) = Ok (VScal z) -> z = sval inf sp g k).
  { intros k g z W1 W2 W3 W4 W5 W6 W7; destruct (evaluate k g) as [g2 o] eqn:E; cbn [snd] in W7; subst o.
    exact (wf_scalar inf sp g g2 k z W1 W2 W3 W4 W5 W6 E). }
  assert (Ad3 : forall (k k' : node R) s, adjoint k s = Some k' -> node_wf k -> scalar_tree k -> cache_free k = true ->
    node_wf k' /\ scalar_tree k' /\ cache_free k' = true).
  { intros k k' s A1 A2 A3 A4; split; [eapply adjoint_wf|split; [eapply adjoint_scalar|eapply adjoint_cache_free]]; eassumption. }
  destruct (Ad3 _ _ _ Ae Wr (replaced_scalar i m n Sm Sn) Cr) as (E1 & E2 & E3).
  destruct (Ad3 _ _ _ Aa Wn Sn Cn) as (A1 & A2 & A3), (Ad3 _ _ _ Ab Wn Sn Cn) as (B1 & B2 & B3), (Ad3 _ _ _ Ad Wm Sm Cm) as (D1 & D2 & D3).
  rewrite (Go e c x), (Go a c' p), (Go b c' q), (Go d c r) by assumption.
  refine (sval_chain inf sp i t m d c c' _ _ Ad n Cn Ov a b e Aa Ab Ae).
  - intros j J; unfold c', write; destruct (ident_eqb i j) eqn:E; [apply ident_eqb_eq in E; subst; tauto|reflexivity].
  - unfold c', write; rewrite ident_eqb_refl; exact Ym.
Qed.
