(** When an expression can be differentiated, and caches in derivatives. *)
From Coq Require Import List Arith Bool Reals.
Import ListNotations.
From Verif Require Import Base Shapes Scalar Buffers Spec Contraction Node Eval Types Instances
  Vocab Math Real_math Adjoint_claims Diff_math.

Lemma un_adjoint_iff F u (m m' : node F) : un_adjoint u m m' <> None <-> ~ In u no_derivative.
Proof.
  split; intro H; destruct u; cbn in *; try tauto; try discriminate;
    intro I; repeat (destruct I as [I|I]; [discriminate I|]); destruct I.
Qed.

Lemma all_parts F t (n : node F) (l : list (node F)) :
  (forall m, part m n <-> m = n \/ Exists (part m) l) ->
  ((forall m, part m n -> admits t m) <-> admits t n /\ Forall (fun x => forall m, part m x -> admits t m) l).
Proof.
  intro E; split.
  - intro H; split; [apply H; constructor|]. apply Forall_forall; intros x I m P; apply H, E; right.
    apply Exists_exists; eauto.
  - intros [A Fa] m P; apply E in P as [->|P]; [exact A|].
    apply Exists_exists in P as (x & I & P). rewrite Forall_forall in Fa; eapply Fa; eauto.
Qed.

Ltac parts := let m := fresh in intro m; split;
  [intro P; inversion P; subst; auto; right; repeat (solve [constructor; assumption] || apply Exists_cons_tl)
  |intros [->|P]; [constructor|];
   repeat match goal with
   | H : Exists _ [] |- _ => inversion H
   | H : Exists _ (_ :: _) |- _ => apply Exists_cons in H; destruct H as [H|H]
   end; solve [constructor; assumption] || idtac].

Lemma obind_iff A B (o : option A) (f : A -> option B) (P : Prop) :
  (forall x, o = Some x -> (f x <> None <-> P)) -> (obind o f <> None <-> o <> None /\ P).
Proof. intro H; destruct o as [x|]; cbn; [rewrite (H x eq_refl); intuition discriminate|tauto]. Qed.

Lemma differentiable_iff F (n : node F) t : adjoint n t <> None <-> forall m, part m n -> admits t m.
Proof.
  assert (Two : forall (l r : node F) n (f : node F -> node F -> node F),
    (adjoint l t <> None <-> forall m, part m l -> admits t m) ->
    (adjoint r t <> None <-> forall m, part m r -> admits t m) ->
    (forall m, part m n <-> m = n \/ Exists (part m) [l; r]) -> admits t n ->
    (obind (adjoint l t) (fun x => obind (adjoint r t) (fun y => Some (f x y))) <> None <->
     forall m, part m n -> admits t m)).
  { intros l r q f Il Ir E Ad. rewrite (all_parts F t q [l; r] E), !Forall_cons_iff, <- Il, <- Ir.
    destruct (adjoint l t), (adjoint r t); cbn; intuition (try discriminate; auto). }
  induction n; cbn [adjoint].
  - rewrite (all_parts F t _ []); [cbn; intuition (auto; discriminate)|]; parts.
  - rewrite (all_parts F t _ []); [cbn; intuition (auto; discriminate)|]; parts.
  - rewrite (all_parts F t _ []); [cbn; intuition (auto; discriminate)|]; parts.
  - rewrite (all_parts F t _ []); [cbn; intuition (auto; discriminate)|]; parts.
  - split; [congruence|]. intro H; specialize (H _ (part_self _)); destruct H.
  - rewrite (all_parts F t _ [n]); [|parts]. rewrite Forall_cons_iff, <- IHn. cbn [admits].
    unfold ident_eqb; destruct (Nat.eqb_spec k t); intuition (try congruence; auto).
  - rewrite (all_parts F t _ [n]); [|parts]. rewrite Forall_cons_iff, <- IHn. cbn [admits].
    destruct (adjoint n t) as [m'|]; cbn [obind]; [rewrite un_adjoint_iff|]; intuition (try congruence; auto).
  - rewrite (all_parts F t _ [n]); [|parts]. rewrite Forall_cons_iff, <- IHn. cbn [admits]. intuition auto.
  - apply (Two n1 n2 _ (fun b' e' => Mul (Power n1 (Un SubOne n2)) (Add (Mul n2 b') (Mul (Un XLnX n1) e')))); auto; [parts|exact I].
  - apply (Two n1 n2); auto; [parts|exact I].
  - apply (Two n1 n2); auto; [parts|exact I].
  - apply (Two n1 n2 _ (fun l' r' => Add (Mul l' n2) (Mul r' n1))); auto; [parts|exact I].
  - apply (Two n1 n2 _ (fun l' r' => Div (Sub (Mul n2 l') (Mul n1 r')) (Un Square n2))); auto; [parts|exact I].
  - apply (Two n1 n2 _ (fun l' r' => Add (Contract axes n1 r') (Contract axes l' n2))); auto; [parts|exact I].
Qed.

Lemma adjoint_strip F (n n' : node F) t : adjoint n t = Some n' -> adjoint (strip n) t = Some (strip n').
Proof.
  revert n'; induction n; intros n' E; cbn [adjoint strip] in *;
    try (injection E as <-; reflexivity); try discriminate.
  - destruct (ident_eqb k t); [auto|discriminate].
  - destruct (adjoint n t) as [m'|]; [|discriminate]. cbn [obind] in E. rewrite (IHn _ eq_refl); cbn [obind].
    destruct u; cbn [un_adjoint] in *; try discriminate; injection E as <-; reflexivity.
  - auto.
  - destruct (adjoint n1 t) as [l'|]; [|discriminate]; destruct (adjoint n2 t) as [r'|]; [|discriminate].
    cbn [obind] in E; injection E as <-; rewrite (IHn1 _ eq_refl), (IHn2 _ eq_refl); reflexivity.
  - destruct (adjoint n1 t) as [l'|]; [|discriminate]; destruct (adjoint n2 t) as [r'|]; [|discriminate].
    cbn [obind] in E; injection E as <-; rewrite (IHn1 _ eq_refl), (IHn2 _ eq_refl); reflexivity.
  - destruct (adjoint n1 t) as [l'|]; [|discriminate]; destruct (adjoint n2 t) as [r'|]; [|discriminate].
    cbn [obind] in E; injection E as <-; rewrite (IHn1 _ eq_refl), (IHn2 _ eq_refl); reflexivity.
  - destruct (adjoint n1 t) as [l'|]; [|discriminate]; destruct (adjoint n2 t) as [r'|]; [|discriminate].
    cbn [obind] in E; injection E as <-; rewrite (IHn1 _ eq_refl), (IHn2 _ eq_refl); reflexivity.
  - destruct (adjoint n1 t) as [l'|]; [|discriminate]; destruct (adjoint n2 t) as [r'|]; [|discriminate].
    cbn [obind] in E; injection E as <-; rewrite (IHn1 _ eq_refl), (IHn2 _ eq_refl); reflexivity.
  - destruct (adjoint n1 t) as [l'|]; [|discriminate]; destruct (adjoint n2 t) as [r'|]; [|discriminate].
    cbn [obind] in E; injection E as <-; rewrite (IHn1 _ eq_refl), (IHn2 _ eq_refl); reflexivity.
Qed.

Lemma only_key F (n m n' : node F) k t : part (Cached m k) n -> adjoint n t = Some n' -> t = k.
Proof.
  intros P E. symmetry; apply (proj1 (differentiable_iff F n t)) with (m := Cached m k); [congruence|exact P].
Qed.

Lemma by_key_zero inf sp (m : node R) k (c c' : ctx R) w :
  let S := R_scalar inf sp in
  node_wf m -> ctx_wf c -> contains m k = false -> quotients_ok c m ->
  evaluate_adjoint (Cached m k) k c = Some (c', Ok w) ->
  forall ix, in_box (dims (vshape w)) ix -> vat 0%R w ix = 0%R.
Proof.
  intros S Wm Wc Co Q E. apply (absent_zero_real inf sp m k c c' w); auto.
  unfold evaluate_adjoint in *; cbn [adjoint] in E; unfold ident_eqb in E; rewrite Nat.eqb_refl in E; exact E.
Qed.

(** * Twice *)
Lemma all_parts2 F (n : node F) (l : list (node F)) :
  (forall m, part m n <-> m = n \/ Exists (part m) l) ->
  ((forall m, part m n -> admits_twice m) <-> admits_twice n /\ Forall (fun x => forall m, part m x -> admits_twice m) l).
Proof.
  intro E; split.
  - intro H; split; [apply H; constructor|]. apply Forall_forall; intros x I m P; apply H, E; right.
    apply Exists_exists; eauto.
  - intros [A Fa] m P; apply E in P as [->|P]; [exact A|].
    apply Exists_exists in P as (x & I & P). rewrite Forall_forall in Fa; eapply Fa; eauto.
Qed.

Lemma twice_once F (n : node F) t : (forall m, part m n -> admits_twice m) -> exists n', adjoint n t = Some n'.
Proof.
  intro H. assert (adjoint n t <> None) as N.
  { apply differentiable_iff; intros m P; specialize (H m P); destruct m; cbn in *; tauto. }
  destruct (adjoint n t); [eauto|congruence].
Qed.

Ltac somes :=
  repeat match goal with
  | H : Some _ = Some _ |- _ => injection H as H
  | H : None = Some _ |- _ => discriminate H
  | H : obind ?o _ = Some _ |- _ => destruct o eqn:?; cbn [obind] in H
  end.

Lemma twice_iff F (n : node F) t u : cache_free n = true ->
  ((exists n' n'', adjoint n t = Some n' /\ adjoint n' u = Some n'') <-> forall m, part m n -> admits_twice m).
Proof.
  assert (Two : forall (l r : node F) n (f : node F -> node F -> node F),
    ((exists n' n'', adjoint l t = Some n' /\ adjoint n' u = Some n'') <-> forall m, part m l -> admits_twice m) ->
    ((exists n' n'', adjoint r t = Some n' /\ adjoint n' u = Some n'') <-> forall m, part m r -> admits_twice m) ->
    (forall m, part m n <-> m = n \/ Exists (part m) [l; r]) -> admits_twice n ->
    (forall l' r' q, adjoint (f l' r') u = Some q -> adjoint l' u <> None /\ adjoint r' u <> None) ->
    (forall l' r' x y z w, adjoint l u = Some x -> adjoint r u = Some y -> adjoint l' u = Some z ->
       adjoint r' u = Some w -> adjoint (f l' r') u <> None) ->
    ((exists n' n'', obind (adjoint l t) (fun x => obind (adjoint r t) (fun y => Some (f x y))) = Some n' /\
       adjoint n' u = Some n'') <->
     forall m, part m n -> admits_twice m)).
  { intros l r q f Il Ir E Ad F1 F2. rewrite (all_parts2 F q [l; r] E), !Forall_cons_iff.
    split.
    - intros (n' & n'' & E1 & E2). somes; subst. apply F1 in E2 as [X Y].
      split; [exact Ad|]. split; [|split; [|constructor]].
      + apply Il. destruct (adjoint n0 u) eqn:?; [eauto|congruence].
      + apply Ir. destruct (adjoint n1 u) eqn:?; [eauto|congruence].
    - intros (_ & Al & Ar & _).
      destruct (twice_once F l u Al) as [x X], (twice_once F r u Ar) as [y Y].
      apply Il in Al as (l1 & l2 & L1 & L2); apply Ir in Ar as (r1 & r2 & R1 & R2).
      rewrite L1, R1; cbn [obind]. exists (f l1 r1).
      destruct (adjoint (f l1 r1) u) eqn:Q; [eauto|]. exfalso; exact (F2 l1 r1 _ _ _ _ X Y L2 R2 Q). }
  induction n; intro Cf; cbn [adjoint cache_free] in *.
  - rewrite (all_parts2 F _ []); [|parts]. cbn. split; [auto|]. intros _; do 2 eexists; split; reflexivity.
  - split; [intros (n' & n'' & E1 & E2); somes; subst; discriminate|].
    intro H; specialize (H _ (part_self _)); destruct H.
  - split; [intros (n' & n'' & E1 & E2); somes; subst; discriminate|].
    intro H; specialize (H _ (part_self _)); destruct H.
  - split; [intros (n' & n'' & E1 & E2); somes; subst; discriminate|].
    intro H; specialize (H _ (part_self _)); destruct H.
  - split; [intros (n' & n'' & E1 & E2); somes; subst; discriminate|].
    intro H; specialize (H _ (part_self _)); destruct H.
  - discriminate.
  - rewrite (all_parts2 F _ [n]); [|parts]. rewrite Forall_cons_iff, <- IHn by auto. cbn [admits_twice]. split.
    + intros (n' & n'' & E1 & E2); somes.
      assert (adjoint n0 u <> None /\ ~ In u0 (Sign :: Gamma :: LogGamma :: no_derivative)) as [Q1 Q2].
      { destruct u0; cbn [un_adjoint] in E1; try discriminate; somes; subst n'; cbn [adjoint] in E2; somes;
          try discriminate; (split; [congruence|cbn; intuition discriminate]). }
      split; [exact Q2|]. split; [|constructor]. exists n0. destruct (adjoint n0 u) eqn:?; [eauto|congruence].
    + intros (Q & (m' & m'' & E1 & E2) & _). rewrite E1; cbn [obind].
      assert (exists x, adjoint n u = Some x) as [x X].
      { apply twice_once. apply IHn; eauto. }
      destruct u0; try (exfalso; apply Q; cbn; tauto); cbn [un_adjoint];
        (eexists; eexists; split; [reflexivity|]); cbn [adjoint obind un_adjoint]; rewrite ?X, ?E2; cbn [obind un_adjoint];
        rewrite ?X, ?E2; reflexivity.
  - rewrite (all_parts2 F _ [n]); [|parts]. rewrite Forall_cons_iff, <- IHn by auto. cbn [admits_twice].
    intuition auto.
  - apply andb_prop in Cf as [C1 C2].
    apply (Two n1 n2 _ (fun b' e' => Mul (Power n1 (Un SubOne n2)) (Add (Mul n2 b') (Mul (Un XLnX n1) e')))); auto; [parts|exact I| |].
    + intros l' r' q E; cbn [adjoint un_adjoint] in E; somes; split; congruence.
    + intros l' r' x y z w A1 A2 A3 A4; cbn [adjoint un_adjoint]; rewrite A1, A2, A3, A4; cbn; discriminate.
  - apply andb_prop in Cf as [C1 C2]. apply (Two n1 n2); auto; [parts|exact I| |].
    + intros l' r' q E; cbn [adjoint un_adjoint] in E; somes; split; congruence.
    + intros l' r' x y z w A1 A2 A3 A4; cbn [adjoint un_adjoint]; rewrite A3, A4; cbn; discriminate.
  - apply andb_prop in Cf as [C1 C2]. apply (Two n1 n2); auto; [parts|exact I| |].
    + intros l' r' q E; cbn [adjoint un_adjoint] in E; somes; split; congruence.
    + intros l' r' x y z w A1 A2 A3 A4; cbn [adjoint un_adjoint]; rewrite A3, A4; cbn; discriminate.
  - apply andb_prop in Cf as [C1 C2].
    apply (Two n1 n2 _ (fun l' r' => Add (Mul l' n2) (Mul r' n1))); auto; [parts|exact I| |].
    + intros l' r' q E; cbn [adjoint un_adjoint] in E; somes; split; congruence.
    + intros l' r' x y z w A1 A2 A3 A4; cbn [adjoint un_adjoint]; rewrite A1, A2, A3, A4; cbn; discriminate.
  - apply andb_prop in Cf as [C1 C2].
    apply (Two n1 n2 _ (fun l' r' => Div (Sub (Mul n2 l') (Mul n1 r')) (Un Square n2))); auto; [parts|exact I| |].
    + intros l' r' q E; cbn [adjoint un_adjoint] in E; somes; split; congruence.
    + intros l' r' x y z w A1 A2 A3 A4; cbn [adjoint un_adjoint]; rewrite A1, A2, A3, A4; cbn; discriminate.
  - apply andb_prop in Cf as [C1 C2].
    apply (Two n1 n2 _ (fun l' r' => Add (Contract axes n1 r') (Contract axes l' n2))); auto; [parts|exact I| |].
    + intros l' r' q E; cbn [adjoint un_adjoint] in E; somes; split; congruence.
    + intros l' r' x y z w A1 A2 A3 A4; cbn [adjoint un_adjoint]; rewrite A1, A2, A3, A4; cbn; discriminate.
Qed.
