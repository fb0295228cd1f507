(** Which caches an evaluation fills, with what, and evaluation in a context that has them. *)
From Coq Require Import List Arith Bool Lia.
Import ListNotations.
From Verif Require Import Base Shapes Scalar Buffers Spec Contraction Node Eval Types
  Vocab Memo_math Eval_facts Eval_claims.

Section Filled.
Context {F : Type}.
Lemma filled_ext (n : node F) : forall sh B B', (forall j, B j = B' j) -> forall j, filled sh n B j = filled sh n B' j.
Proof.
  induction n; intros sh B B' H j; cbn [filled]; auto.
  - rewrite (H k); destruct (B' k); auto; rewrite (IHn false B B' H j); reflexivity.
  - destruct sh; auto.
  - destruct sh; auto.
Qed.
Lemma filled_more (n : node F) : forall sh B j, B j = true -> filled sh n B j = true.
Proof.
  induction n; intros sh B j H; cbn [filled]; auto.
  - destruct (B k); auto; rewrite (IHn false B j H), orb_true_r; reflexivity.
  - destruct sh; auto.
  - destruct sh; auto.
Qed.
End Filled.

Section Fine.
Context {F : Type} {S : Scalar F}.
Notation env := (ctx F).

Definition fine {A} (Fl : (ident -> bool) -> ident -> bool) (P : Prop) (St : node F -> ident -> Prop)
    (f : env -> env * res err A) : Prop :=
  forall c, extends c (fst (f c)) /\
    (forall j, has (fst (f c)) j = true -> Fl (has c) j = true) /\
    (forall a, snd (f c) = Ok a -> (forall j, has (fst (f c)) j = Fl (has c) j) /\
       forall d, extends (fst (f c)) d -> f d = (d, Ok a)) /\
    (P -> forall k w, c k = None -> fst (f c) k = Some w ->
       exists m, St m k /\ forall d, extends (fst (f c)) d -> f_eval (interp m) d = (d, Ok w)).

Lemma extends_trans (a b c : env) : extends a b -> extends b c -> extends a c.
Proof. intros H1 H2 j x E; auto. Qed.
Lemma extends_refl (a : env) : extends a a.
Proof. intros j x E; auto. Qed.
Lemma extends_has (a b : env) j : extends a b -> has a j = true -> has b j = true.
Proof. unfold has; intros H; destruct (a j) eqn:E; [rewrite (H j _ E); auto|discriminate]. Qed.

Lemma fine_const (A : Type) (P : Prop) St (r : env -> res err A) :
  (forall c d a, extends c d -> r c = Ok a -> r d = Ok a) -> fine (fun B => B) P St (fun c => (c, r c)).
Proof.
  intros H c; cbn; split; [apply extends_refl|split; [auto|split]].
  - intros a E; split; auto; intros d X; rewrite (H c d a X E); reflexivity.
  - intros _ k w E E'; congruence.
Qed.

Lemma fine_bind (A B : Type) Fl (P : Prop) St (f : env -> env * res err A) (g : A -> res err B) :
  fine Fl P St f -> fine Fl P St (fun c => let (c1, r) := f c in (c1, res_bind r g)).
Proof.
  intros H c; destruct (H c) as (H1 & H2 & H3 & H4); destruct (f c) as [c1 r] eqn:E; cbn [fst snd] in *.
  split; [auto|split; [auto|split; [|auto]]].
  intros b Eb; destruct r as [a| | |]; try discriminate; destruct (H3 a eq_refl) as [G1 G2]; split; auto.
  intros d X; rewrite (G2 d X); cbn in *; rewrite Eb; reflexivity.
Qed.
Lemma fine_map (A B : Type) Fl (P : Prop) St (f : env -> env * res err A) (g : A -> B) :
  fine Fl P St f -> fine Fl P St (fun c => let (c1, r) := f c in (c1, res_map g r)).
Proof.
  intros H c; destruct (H c) as (H1 & H2 & H3 & H4); destruct (f c) as [c1 r] eqn:E; cbn [fst snd] in *.
  split; [auto|split; [auto|split; [|auto]]].
  intros b Eb; destruct r as [a| | |]; try discriminate; destruct (H3 a eq_refl) as [G1 G2]; split; auto.
  intros d X; rewrite (G2 d X); cbn in *; rewrite Eb; reflexivity.
Qed.

(** [both], [both_shape] and [both_eval] at once. *)
Definition two {A B C} (l : env -> env * res err A) (r : env -> env * res err B) (k : A -> B -> res err C) : env -> env * res err C :=
  fun c =>
    let (c1, x) := l c in
    match res_map_err ELeft x with
    | Ok a =>
        let (c2, y) := r c1 in
        match res_map_err ERight y with
        | Ok b => (c2, k a b)
        | Err e => (c2, Err e)
        | Panic => (c2, Panic)
        | Stuck => (c2, Stuck)
        end
    | Err e => (c1, Err e)
    | Panic => (c1, Panic)
    | Stuck => (c1, Stuck)
    end.

Lemma fine_two (A B C : Type) Fl Fr (P Pl Pr : Prop) (Sl Sr : node F -> ident -> Prop) (l : env -> env * res err A) (r : env -> env * res err B)
    (k : A -> B -> res err C) :
  (forall X Y, (forall j, X j = Y j) -> forall j, Fr X j = Fr Y j) -> (forall X j, X j = true -> Fr X j = true) ->
  (P -> Pl /\ Pr) -> fine Fl Pl Sl l -> fine Fr Pr Sr r -> fine (fun X => Fr (Fl X)) P (fun m i => Sl m i \/ Sr m i) (two l r k).
Proof.
  intros Ext Mor PP Hl Hr c; destruct (two l r k c) as [c' o] eqn:Et; unfold two in Et; cbn [fst snd].
  destruct (Hl c) as (L1 & L2 & L3 & L4); destruct (l c) as [c1 x] eqn:El; cbn [fst snd] in *.
  destruct x as [a|e| |]; cbn [res_map_err] in Et;
    try (injection Et as <- <-; split; [exact L1|split; [intros j Hj; apply Mor; auto|split; [discriminate|
      intros p i w E1 E2; destruct (L4 (proj1 (PP p)) i w E1 E2) as (m & M1 & M2); eauto]]]).
  destruct (L3 a eq_refl) as [L5 L6].
  destruct (Hr c1) as (R1 & R2 & R3 & R4); destruct (r c1) as [c2 y] eqn:Er; cbn [fst snd] in *.
  assert (Cc : extends c c2) by (eapply extends_trans; eassumption).
  assert (Q : forall j, has c2 j = true -> Fr (Fl (has c)) j = true).
  { intros j Hj; rewrite <- (Ext _ _ L5); auto. }
  assert (T : P -> forall i w, c i = None -> c2 i = Some w ->
    exists m, (Sl m i \/ Sr m i) /\ forall d, extends c2 d -> f_eval (interp m) d = (d, Ok w)).
  { intros p i w E1 E2; destruct (c1 i) as [w'|] eqn:E.
    - rewrite (R1 i w' E) in E2; injection E2 as <-; destruct (L4 (proj1 (PP p)) i w' E1 E) as (m & M1 & M2).
      exists m; split; auto; intros d X; apply M2, (extends_trans _ _ _ R1 X).
    - destruct (R4 (proj2 (PP p)) i w E E2) as (m & M1 & M2); eauto. }
  destruct y as [b|e| |]; cbn [res_map_err] in Et; injection Et as <- <-; split; auto; split; auto; split; auto; try discriminate.
  destruct (R3 b eq_refl) as [R5 R6]; intros z Ez; split.
  - intro j; rewrite R5; apply Ext, L5.
  - intros d X; unfold two; rewrite (L6 d (extends_trans _ _ _ R1 X)); cbn [res_map_err].
    rewrite (R6 d X); cbn [res_map_err]; rewrite Ez; reflexivity.
Qed.

Lemma fine_weaken (A : Type) Fl (P : Prop) (St St' : node F -> ident -> Prop) (f : env -> env * res err A) :
  (forall m k, St m k -> St' m k) -> fine Fl P St f -> fine Fl P St' f.
Proof.
  intros W H c; destruct (H c) as (H1 & H2 & H3 & H4); split; [auto|split; [auto|split; [auto|]]].
  intros p k w E1 E2; destruct (H4 p k w E1 E2) as (m & M1 & M2); eauto.
Qed.

Lemma fine_all n :
  fine (filled false n) (keys_apart n) (fun m k => stores m k n) (f_eval (interp n)) /\
  fine (filled false n) (keys_apart n) (fun m k => stores m k n) (f_spec (interp n)) /\
  fine (filled true n) (keys_apart n) (fun m k => stores m k n) (f_shape (interp n)).
Proof.
  induction n; cbn [interp filled stores keys_apart];
    try (destruct IHn as (He & Hs & Hh)); try (destruct IHn1 as (He1 & Hs1 & Hh1), IHn2 as (He2 & Hs2 & Hh2));
    try (split; [|split]; first [ apply (fine_two _ _ _ _ _ _ _ _ _ _ _ _ _ (filled_ext n2 _) (filled_more n2 _) (fun p => p)); assumption
       | apply (fine_map _ _ _ _ _ _ unwrap), (fine_two _ _ _ _ _ _ _ _ _ _ _ _ _ (filled_ext n2 _) (filled_more n2 _) (fun p => p)); assumption
       | apply (fine_map _ _ _ _ _ _ Raw), (fine_two _ _ _ _ _ _ _ _ _ _ _ _ _ (filled_ext n2 _) (filled_more n2 _) (fun p => p)); assumption
       | apply fine_const; auto; fail
       | apply fine_map; assumption | apply fine_bind; assumption | assumption ]; fail).
  - (* Var *)
    split; [|split]; cbn; apply fine_const; intros c d a X; unfold read, read_spec, read_bty;
      destruct (c i) as [x|] eqn:E; cbn; try discriminate; rewrite (X i x E); auto.
  - (* VarAdj *)
    assert (G : fine (fun B => B) True (fun _ _ => False) (varadj_shape (F := F) i t)).
    { apply (fine_const _ _ _ (fun c => snd (varadj_shape i t c))); intros c d a X; unfold varadj_shape, read_bty; cbn.
      destruct (c i) as [x|] eqn:E; cbn; try discriminate; rewrite (X i x E); cbn.
      destruct (c t) as [y|] eqn:E'; cbn; try discriminate; rewrite (X t y E'); auto. }
    assert (G2 : fine (fun B => B) True (fun _ _ => False) (varadj_spec (S := S) i t)).
    { apply (fine_const _ _ _ (fun c => snd (varadj_spec i t c))); intros c d a X; unfold varadj_spec, read_bty; cbn.
      destruct (c i) as [x|] eqn:E; cbn; try discriminate; rewrite (X i x E); cbn.
      destruct (c t) as [y|] eqn:E'; cbn; try discriminate; rewrite (X t y E'); auto. }
    split; [|split]; auto; apply (fine_map _ _ _ _ _ _ unwrap G2).
  - (* ConstAdj *)
    assert (G : fine (filled true n) (keys_apart n) (fun m k => stores m k n) (constadj_shape (interp n) t)).
    { assert (T := fine_two _ _ _ _ (fun B => B) (keys_apart n) _ True _ (fun _ _ => False) (f_shape (interp n))
        (fun c => (c, ok_or_undef t (option_map bty_of (read c t))))
        (fun sv st => match adj_bty sv st with Some sa => Ok sa | None => Stuck end)
        (fun X Y H => H) (fun X j H => H) (fun p => conj p Logic.I) Hh).
      assert (V : fine (fun B => B) True (fun (_ : node F) (_ : ident) => False) (fun c => (c, ok_or_undef t (option_map bty_of (read c t))))).
      { apply (fine_const _ _ _ (fun c => ok_or_undef t (option_map bty_of (read c t)))); intros c d a X; unfold read.
        destruct (c t) as [y|] eqn:E; cbn; try discriminate; rewrite (X t y E); auto. }
      specialize (T V); apply (fine_weaken _ _ _ _ (fun m k => stores m k n)) in T; [|tauto].
      assert (Q : forall c, two (f_shape (interp n)) (fun c => (c, ok_or_undef t (option_map bty_of (read c t))))
        (fun sv st => match adj_bty sv st with Some sa => Ok sa | None => Stuck end) c = constadj_shape (interp n) t c).
      { intro c; unfold two, constadj_shape; destruct (f_shape (interp n) c) as [c1 [x| | |]]; cbn; auto.
        destruct (ok_or_undef t (option_map bty_of (read c1 t))); cbn; auto. }
      intro c; specialize (T c); rewrite !Q in T; destruct T as (T1 & T2 & T3 & T4).
      split; [auto|split; [auto|split; [|auto]]]; intros a Ea; destruct (T3 a Ea) as [T5 T6]; split; auto.
      intros d X; rewrite <- Q; auto. }
    assert (G2 : fine (filled true n) (keys_apart n) (fun m k => stores m k n) (constadj_spec (interp n) t)) by apply (fine_map _ _ _ _ _ _ _ G).
    split; [|split]; auto; apply (fine_map _ _ _ _ _ _ unwrap G2).
  - (* Cached *)
    assert (G : fine (fun B => if B k then B else fun j => ident_eqb k j || filled false n B j)
      ((forall l, ~ stores l k n) /\ keys_apart n)
      (fun m k0 => (n = m /\ k = k0) \/ stores m k0 n) (cached_eval (interp n) k)).
    { intro c; destruct (cached_eval (interp n) k c) as [c' o] eqn:Et; unfold cached_eval, read in Et; cbn [fst snd].
      assert (Hk : has c k = match c k with Some _ => true | None => false end) by reflexivity.
      destruct (c k) as [v|] eqn:Ck; rewrite Hk.
      - injection Et as <- <-; split; [apply extends_refl|split; [auto|split]].
        + intros a [= <-]; split; auto; intros d X; unfold cached_eval, read; rewrite (X k v Ck); reflexivity.
        + congruence.
      - destruct (He c) as (H1 & H2 & H3 & H4); destruct (f_eval (interp n) c) as [c1 r] eqn:E; cbn [fst snd] in *.
        destruct r as [v|e| |]; injection Et as <- <-;
          try (split; [exact H1|split; [intros j Hj; rewrite (H2 j Hj); apply orb_true_r|split; [discriminate|
            intros [_ p] i w E1 E2; destruct (H4 p i w E1 E2) as (m & M1 & M2); eauto]]]).
        destruct (H3 v eq_refl) as [H5 H6].
        assert (Hw : forall j, has (write c1 k v) j = ident_eqb k j || has c1 j).
        { intro j; unfold has, write; destruct (ident_eqb k j); auto. }
        split; [|split; [|split]].
        + intros j x Ej; unfold write; destruct (ident_eqb k j) eqn:Ek; auto.
          apply ident_eqb_eq in Ek; subst; congruence.
        + intros j; rewrite Hw, H5; auto.
        + intros a [= <-]; split; [intro j; rewrite Hw, H5; auto|].
          intros d X; unfold cached_eval, read; rewrite (X k v); auto; unfold write; rewrite ident_eqb_refl; reflexivity.
        + intros [q p].
          assert (Ck1 : c1 k = None).
          { destruct (c1 k) as [z|] eqn:Z; auto; destruct (H4 p k z Ck Z) as (m & M1 & _); destruct (q m M1). }
          assert (Wr : extends c1 (write c1 k v)).
          { intros j x Ej; unfold write; destruct (ident_eqb k j) eqn:Ek; auto; apply ident_eqb_eq in Ek; subst; congruence. }
          intros i w E1; unfold write at 1; destruct (ident_eqb k i) eqn:Ek.
          * apply ident_eqb_eq in Ek; subst i; intros [= <-]; exists n; split; auto.
            intros d X; apply H6, (extends_trans _ _ _ Wr X).
          * intro E2; destruct (H4 p i w E1 E2) as (m & M1 & M2); exists m; split; auto.
            intros d X; apply M2, (extends_trans _ _ _ Wr X). }
    split; [exact G|split]; [apply (fine_map _ _ _ _ _ _ Raw G)|apply (fine_map _ _ _ _ _ _ bty_of G)].
Qed.

Lemma shape_run n (c : env) : fst (evaluate_shape n c) = fst (f_shape (interp n) c) /\
  snd (evaluate_shape n c) = res_map bty_shape (snd (f_shape (interp n) c)).
Proof. unfold evaluate_shape; destruct (f_shape (interp n) c); auto. Qed.

Lemma caches_filled n (c c' : env) :
  (forall v, evaluate n c = (c', Ok v) -> forall j, has c' j = filled false n (has c) j) /\
  (forall s, evaluate_spec n c = (c', Ok s) -> forall j, has c' j = filled false n (has c) j) /\
  (forall s, evaluate_shape n c = (c', Ok s) -> forall j, has c' j = filled true n (has c) j).
Proof.
  destruct (fine_all n) as (He & Hs & Hh); destruct (He c) as (_ & _ & E & _), (Hs c) as (_ & _ & E' & _), (Hh c) as (_ & _ & E'' & _).
  unfold evaluate, evaluate_spec; split; [|split].
  - intros v Ev; rewrite Ev in E; exact (proj1 (E v eq_refl)).
  - intros v Ev; rewrite Ev in E'; exact (proj1 (E' v eq_refl)).
  - intros v Ev; destruct (shape_run n c) as [R1 R2]; rewrite Ev in R1, R2; cbn [fst snd] in *; rewrite <- R1 in E''.
    destruct (snd (f_shape (interp n) c)) as [b| | |] eqn:Eb; try discriminate; exact (proj1 (E'' b eq_refl)).
Qed.

Lemma caches_reached n (c : env) j :
  (has (fst (evaluate n c)) j = true -> filled false n (has c) j = true) /\
  (has (fst (evaluate_spec n c)) j = true -> filled false n (has c) j = true) /\
  (has (fst (evaluate_shape n c)) j = true -> filled true n (has c) j = true).
Proof.
  destruct (fine_all n) as (He & Hs & Hh); destruct (He c) as (_ & E & _), (Hs c) as (_ & E' & _), (Hh c) as (_ & E'' & _).
  rewrite (proj1 (shape_run n c)); auto.
Qed.

Lemma caches_again n (c c' d : env) : extends c' d ->
  (forall v, evaluate n c = (c', Ok v) -> evaluate n d = (d, Ok v)) /\
  (forall s, evaluate_spec n c = (c', Ok s) -> evaluate_spec n d = (d, Ok s)) /\
  (forall s, evaluate_shape n c = (c', Ok s) -> evaluate_shape n d = (d, Ok s)).
Proof.
  intro X; destruct (fine_all n) as (He & Hs & Hh); destruct (He c) as (_ & _ & E & _), (Hs c) as (_ & _ & E' & _), (Hh c) as (_ & _ & E'' & _).
  unfold evaluate, evaluate_spec; split; [|split].
  - intros v Ev; rewrite Ev in E; exact (proj2 (E v eq_refl) d X).
  - intros v Ev; rewrite Ev in E'; exact (proj2 (E' v eq_refl) d X).
  - intros v Ev; unfold evaluate_shape in *; destruct (f_shape (interp n) c) as [c1 r]; cbn [fst snd] in *; injection Ev as -> Er.
    destruct r as [b| | |]; try discriminate; rewrite (proj2 (E'' b eq_refl) d X), <- Er; reflexivity.
Qed.

Lemma caches_stored n (c : env) k w : keys_apart n -> c k = None ->
  forall c', c' = fst (evaluate n c) \/ c' = fst (evaluate_spec n c) \/ c' = fst (evaluate_shape n c) ->
  c' k = Some w -> exists m, stores m k n /\ forall d, extends c' d -> evaluate m d = (d, Ok w).
Proof.
  intros A N c' H; destruct (fine_all n) as (He & Hs & Hh).
  destruct (He c) as (_ & _ & _ & E), (Hs c) as (_ & _ & _ & E'), (Hh c) as (_ & _ & _ & E'').
  rewrite (proj1 (shape_run n c)) in H; destruct H as [->|[->| ->]]; intro K; [exact (E A k w N K)|exact (E' A k w N K)|exact (E'' A k w N K)].
Qed.
End Fine.
