(** Replacing a variable by an expression. *)
From Coq Require Import List Arith Bool Lia.
Import ListNotations.
From Verif Require Import Base Shapes Scalar Buffers Spec Contraction Node Eval Types
  Vocab Math Code_math Subst_math Eval_facts Progress_facts Eval_claims Code_claims.

Section Grows.
Context {F : Type} {S : Scalar F}.
(** A result of a tree without caches stays the same if the context grows. *)
Definition extends (c c1 : ctx F) : Prop := forall j x, c j = Some x -> c1 j = Some x.
Definition grows {A} (f : ctx F -> ctx F * res err A) : Prop :=
  forall c c1 a, extends c c1 -> snd (f c) = Ok a -> snd (f c1) = Ok a.

Lemma grows_post (A B : Type) (f : ctx F -> ctx F * res err A) (g : A -> res err B) :
  grows f -> grows (fun c => let (c1, r) := f c in (c1, res_bind r g)).
Proof.
  intros H c c1 b X; specialize (H c c1); destruct (f c) as [c2 [a| | |]]; cbn; try discriminate; cbn in H.
  specialize (H a X eq_refl); destruct (f c1) as [c3 y]; cbn in *; subst y; auto.
Qed.
Lemma grows_map (A B : Type) (f : ctx F -> ctx F * res err A) (g : A -> B) :
  grows f -> grows (fun c => let (c1, r) := f c in (c1, res_map g r)).
Proof.
  intros H c c1 b X; specialize (H c c1); destruct (f c) as [c2 [a| | |]]; cbn; try discriminate; cbn in H.
  specialize (H a X eq_refl); destruct (f c1) as [c3 y]; cbn in *; subst y; auto.
Qed.
Lemma grows_both (A B : Type) (l : ctx F -> ctx F * res err A) (r : ctx F -> ctx F * res err B) k :
  (forall c, fst (l c) = c) -> grows l -> grows r -> grows (both l r k).
Proof.
  intros K Hl Hr c c1 s X; unfold both; assert (K1 := K c1); specialize (K c); specialize (Hl c c1); specialize (Hr c c1).
  destruct (l c) as [c2 [a| | |]]; cbn in *; subst c2; try discriminate.
  specialize (Hl a X eq_refl); destruct (l c1) as [c3 y]; cbn in *; subst y c3; cbn.
  destruct (r c) as [c4 [b| | |]]; cbn in *; try discriminate.
  specialize (Hr b X eq_refl); destruct (r c1) as [c5 z]; cbn in *; subst z; auto.
Qed.
Lemma grows_both_shape (l r : ctx F -> ctx F * res err bty) k :
  (forall c, fst (l c) = c) -> grows l -> grows r -> grows (both_shape l r k).
Proof.
  intros K Hl Hr c c1 s X; unfold both_shape; assert (K1 := K c1); specialize (K c); specialize (Hl c c1); specialize (Hr c c1).
  destruct (l c) as [c2 [a| | |]]; cbn in *; subst c2; try discriminate.
  specialize (Hl a X eq_refl); destruct (l c1) as [c3 y]; cbn in *; subst y c3; cbn.
  destruct (r c) as [c4 [b| | |]]; cbn in *; try discriminate.
  specialize (Hr b X eq_refl); destruct (r c1) as [c5 z]; cbn in *; subst z; auto.
Qed.
Lemma grows_both_eval (l r : ctx F -> ctx F * res err (value F)) k :
  (forall c, fst (l c) = c) -> grows l -> grows r -> grows (both_eval l r k).
Proof.
  intros K Hl Hr c c1 s X; unfold both_eval; assert (K1 := K c1); specialize (K c); specialize (Hl c c1); specialize (Hr c c1).
  destruct (l c) as [c2 [a| | |]]; cbn in *; subst c2; try discriminate.
  specialize (Hl a X eq_refl); destruct (l c1) as [c3 y]; cbn in *; subst y c3; cbn.
  destruct (r c) as [c4 [b| | |]]; cbn in *; try discriminate.
  specialize (Hr b X eq_refl); destruct (r c1) as [c5 z]; cbn in *; subst z; auto.
Qed.
Lemma grows_const (A : Type) (a : res err A) : grows (fun c => (c, a)).
Proof. intros c c1 b _ H; exact H. Qed.

Lemma grows_all (n : node F) : cache_free n = true ->
  grows (f_eval (interp n)) /\ grows (f_spec (interp n)) /\ grows (f_shape (interp n)).
Proof.
  induction n; simpl; intro Cf; try discriminate;
    try (apply andb_true_iff in Cf; destruct Cf as [C1 C2]; destruct (IHn1 C1) as (He1 & Hs1 & Hh1), (IHn2 C2) as (He2 & Hs2 & Hh2);
         destruct (cache_free_ctx n1 C1) as (K1 & K2 & K3));
    try (destruct (IHn Cf) as (He & Hs & Hh));
    try (split; [|split]; first [ apply grows_const | apply grows_both; assumption
       | apply grows_both_shape; assumption | apply grows_both_eval; assumption
       | apply (grows_map _ _ _ unwrap), grows_both; assumption
       | apply (grows_map _ _ _ Raw), grows_both_eval; assumption
       | apply (grows_map _ _ _ unwrap), grows_const
       | apply grows_map; assumption | apply grows_post; assumption | assumption ]; fail).
  - (* Var *)
    split; [|split]; intros c c1 a X; cbn; unfold read, read_spec, read_bty; destruct (c i) eqn:E; cbn; try discriminate;
      rewrite (X i _ E); auto.
  - (* VarAdj *)
    assert (G : grows (varadj_shape (F := F) i t)).
    { intros c c1 a X; unfold varadj_shape, read_bty; cbn; destruct (c i) eqn:E; cbn; try discriminate.
      rewrite (X i _ E); cbn; destruct (c t) eqn:E'; cbn; try discriminate; rewrite (X t _ E'); auto. }
    assert (G2 : grows (varadj_spec (S := S) i t)).
    { intros c c1 a X; unfold varadj_spec, read_bty; cbn; destruct (c i) eqn:E; cbn; try discriminate.
      rewrite (X i _ E); cbn; destruct (c t) eqn:E'; cbn; try discriminate; rewrite (X t _ E'); auto. }
    split; [|split]; auto; apply (grows_map _ _ _ unwrap G2).
  - (* ConstAdj *)
    destruct (cache_free_ctx n Cf) as (_ & _ & K).
    assert (G : grows (constadj_shape (interp n) t)).
    { intros c c1 a X; unfold constadj_shape, read; assert (K1 := K c1); specialize (K c); specialize (Hh c c1).
      destruct (f_shape (interp n) c) as [c2 [b| | |]]; cbn in *; subst c2; try discriminate.
      specialize (Hh b X eq_refl); destruct (f_shape (interp n) c1) as [c3 y]; cbn in *; subst y c3; cbn.
      destruct (c t) eqn:E; cbn; try discriminate; rewrite (X t _ E); auto. }
    assert (G2 : grows (constadj_spec (interp n) t)) by apply (grows_map _ _ _ _ G).
    split; [|split]; auto; apply (grows_map _ _ _ unwrap G2).
Qed.
End Grows.

Section Replaced.
Context {F : Type} {S : Scalar F}.
Variables (i : ident) (m : node F) (v : value F) (c0 : ctx F).

(** The context with the variable, and the one without. *)
Definition linked (c c' : ctx F) : Prop :=
  (forall j, j <> i -> c j = c' j) /\ c' i = Some v /\ (forall j x, c0 j = Some x -> c j = Some x).

Definition sim {A} (f f' : ctx F -> ctx F * A) : Prop :=
  forall c c', linked c c' -> snd (f c) = snd (f' c') /\ linked (fst (f c)) (fst (f' c')).

Lemma sim_post (A B : Type) (f f' : ctx F -> ctx F * A) (g : A -> B) :
  sim f f' -> sim (fun c => let (c1, r) := f c in (c1, g r)) (fun c => let (c1, r) := f' c in (c1, g r)).
Proof.
  intros H c c' Hc; destruct (H c c' Hc) as [E G]; destruct (f c), (f' c'); simpl in *; subst; auto.
Qed.

Lemma sim_both (A B : Type) (l l' : ctx F -> ctx F * res err A) (r r' : ctx F -> ctx F * res err B) k :
  sim l l' -> sim r r' -> sim (both l r k) (both l' r' k).
Proof.
  intros Hl Hr c c' Hc; unfold both; destruct (Hl c c' Hc) as [E G].
  destruct (l c) as [c1 x], (l' c') as [c1' x']; simpl in *; subst x'; destruct x; simpl; auto.
  destruct (Hr c1 c1' G) as [E' G'].
  destruct (r c1) as [c2 y], (r' c1') as [c2' y']; simpl in *; subst y'; destruct y; simpl; auto.
Qed.
Lemma sim_both_shape (l l' r r' : ctx F -> ctx F * res err bty) k :
  sim l l' -> sim r r' -> sim (both_shape l r k) (both_shape l' r' k).
Proof.
  intros Hl Hr c c' Hc; unfold both_shape; destruct (Hl c c' Hc) as [E G].
  destruct (l c) as [c1 x], (l' c') as [c1' x']; simpl in *; subst x'; destruct x; simpl; auto.
  destruct (Hr c1 c1' G) as [E' G'].
  destruct (r c1) as [c2 y], (r' c1') as [c2' y']; simpl in *; subst y'; destruct y; simpl; auto.
Qed.
Lemma sim_both_eval (l l' r r' : ctx F -> ctx F * res err (value F)) k :
  sim l l' -> sim r r' -> sim (both_eval l r k) (both_eval l' r' k).
Proof.
  intros Hl Hr c c' Hc; unfold both_eval; destruct (Hl c c' Hc) as [E G].
  destruct (l c) as [c1 x], (l' c') as [c1' x']; simpl in *; subst x'; destruct x; simpl; auto.
  destruct (Hr c1 c1' G) as [E' G'].
  destruct (r c1) as [c2 y], (r' c1') as [c2' y']; simpl in *; subst y'; destruct y; simpl; auto.
Qed.
Lemma sim_const (A : Type) (a : A) : sim (fun c => (c, a)) (fun c => (c, a)).
Proof. intros c c' H; auto. Qed.

Hypothesis keeps : forall c, fst (f_eval (interp m) c) = c /\ fst (f_spec (interp m) c) = c /\ fst (f_shape (interp m) c) = c.
Hypothesis gives : snd (f_eval (interp m) c0) = Ok v /\ snd (f_spec (interp m) c0) = Ok (Raw v) /\
  snd (f_shape (interp m) c0) = Ok (bty_of v).

Hypothesis growing : grows (f_eval (interp m)) /\ grows (f_spec (interp m)) /\ grows (f_shape (interp m)).

Lemma still c c' : linked c c' ->
  f_eval (interp m) c = (c, Ok v) /\ f_spec (interp m) c = (c, Ok (Raw v)) /\ f_shape (interp m) c = (c, Ok (bty_of v)).
Proof.
  intros (_ & _ & A); destruct growing as (N1 & N2 & N3), gives as (G1 & G2 & G3), (keeps c) as (K1 & K2 & K3).
  assert (E1 := N1 c0 c v A G1); assert (E2 := N2 c0 c _ A G2); assert (E3 := N3 c0 c _ A G3).
  destruct (f_eval (interp m) c), (f_spec (interp m) c), (f_shape (interp m) c); cbn [fst snd] in *; subst; auto.
Qed.

Lemma replaced_all n : only_variable i n ->
  sim (f_eval (interp (replaced i m n))) (f_eval (interp n)) /\
  sim (f_spec (interp (replaced i m n))) (f_spec (interp n)) /\
  sim (f_shape (interp (replaced i m n))) (f_shape (interp n)).
Proof.
  induction n; simpl; intros Ov;
    try (destruct IHn as (He & Hs & Hsh); [intuition|]);
    try (destruct IHn1 as (He1 & Hs1 & Hsh1); [intuition|];
         destruct IHn2 as (He2 & Hs2 & Hsh2); [intuition|]);
    try (split; [|split]; first [ apply sim_const
       | apply sim_both; assumption
       | apply sim_both_shape; assumption | apply sim_both_eval; assumption
       | apply (sim_post _ _ _ _ (res_map unwrap)), sim_both; assumption
       | apply (sim_post _ _ _ _ (res_map Raw)), sim_both_eval; assumption
       | apply (sim_post _ _ _ _ (res_map unwrap)), sim_const
       | eapply sim_post; eassumption | assumption ]; fail).
  - (* Var *)
    destruct (ident_eqb i0 i) eqn:E.
    + apply ident_eqb_eq in E; subst i0.
      split; [|split]; intros c c' H; destruct (still c c' H) as (E1 & E2 & E3); [rewrite E1|rewrite E2|rewrite E3];
        cbn; destruct H as (H1 & H2 & H3); unfold read, read_spec, read_bty; rewrite H2; cbn; repeat split; auto.
    + assert (N : i0 <> i) by (intros ->; rewrite ident_eqb_refl in E; discriminate).
      split; [|split]; intros c c' H; cbn; unfold read, read_spec, read_bty; rewrite (proj1 H i0 N); auto.
  - (* VarAdj *)
    destruct Ov as [Ni Nt].
    assert (G : sim (varadj_spec i0 t) (varadj_spec i0 t)).
    { intros c c' H; unfold varadj_spec, read_bty; simpl; rewrite (proj1 H i0 Ni), (proj1 H t Nt); auto. }
    split; [|split]; auto.
    + apply (sim_post _ _ _ _ (res_map unwrap) G).
    + intros c c' H; unfold varadj_shape, read_bty; simpl; rewrite (proj1 H i0 Ni), (proj1 H t Nt); auto.
  - (* ConstAdj *)
    destruct Ov as [Nt Ov].
    assert (G : sim (constadj_shape (interp (replaced i m n)) t) (constadj_shape (interp n) t)).
    { intros c c' H; unfold constadj_shape; destruct (Hsh c c' H) as [E K].
      destruct (f_shape (interp (replaced i m n)) c) as [c1 x], (f_shape (interp n) c') as [c1' x'];
        simpl in *; subst x'; destruct x; simpl; auto.
      unfold read; rewrite (proj1 K t Nt); auto. }
    assert (G2 : sim (constadj_spec (interp (replaced i m n)) t) (constadj_spec (interp n) t)) by (apply (sim_post _ _ _ _ _ G)).
    split; [|split]; auto; apply (sim_post _ _ _ _ _ G2).
  - (* Cached *)
    destruct Ov as [Nk Ov].
    assert (G : sim (cached_eval (interp (replaced i m n)) k) (cached_eval (interp n) k)).
    { intros c c' H; unfold cached_eval, read; rewrite (proj1 H k Nk); destruct (c' k) eqn:Ck; auto.
      assert (C0 : c0 k = None)
        by (destruct H as (H1 & _ & H3); destruct (c0 k) as [z|] eqn:Z; auto; rewrite <- (H1 k Nk), (H3 k z Z) in Ck; discriminate).
      destruct (He c c' H) as [E K].
      destruct (f_eval (interp (replaced i m n)) c) as [c1 x], (f_eval (interp n) c') as [c1' x'];
        simpl in *; subst x'; destruct x; simpl; auto.
      split; auto; destruct K as (K1 & K2 & K3); unfold write; split; [|split].
      - intros j Hj; destruct (ident_eqb k j); auto.
      - destruct (ident_eqb k i) eqn:E; auto; apply ident_eqb_eq in E; congruence.
      - intros j z Hj; destruct (ident_eqb k j) eqn:E; auto; apply ident_eqb_eq in E; congruence. }
    split; [|split]; auto.
    + apply (sim_post _ _ _ _ _ G).
    + apply (sim_post _ _ _ _ _ G).
Qed.
End Replaced.

Section Named.
Context {F : Type} {S : Scalar F}.

Lemma cache_free_pure (n : node F) : cache_free n = true -> shape_pure n = true.
Proof.
  induction n; simpl; auto; try discriminate; rewrite ?andb_true_iff; intuition.
Qed.

(** [m] computed beforehand and written for [i]. *)
Lemma named (i : ident) (m n : node F) (c c1 : ctx F) v :
  ctx_wf c -> node_wf m -> cache_free m = true ->
  evaluate m c = (c1, Ok v) -> evaluate_spec m c = (c1, Ok (Raw v)) ->
  only_variable i n ->
  let c' := write c i v in
  (snd (evaluate (replaced i m n) c) = snd (evaluate n c') /\
   snd (evaluate_spec (replaced i m n) c) = snd (evaluate_spec n c') /\
   snd (evaluate_shape (replaced i m n) c) = snd (evaluate_shape n c')) /\
  forall j, j <> i ->
    fst (evaluate (replaced i m n) c) j = fst (evaluate n c') j /\
    fst (evaluate_spec (replaced i m n) c) j = fst (evaluate_spec n c') j /\
    fst (evaluate_shape (replaced i m n) c) j = fst (evaluate_shape n c') j.
Proof.
  intros Wc W Cf Ev Es Ov c'.
  assert (Kp : forall x, fst (f_eval (interp m) x) = x /\ fst (f_spec (interp m) x) = x /\ fst (f_shape (interp m) x) = x).
  { intro x; destruct (cache_free_ctx m Cf) as (K1 & K2 & K3); auto. }
  assert (Gv : snd (f_eval (interp m) c) = Ok v /\ snd (f_spec (interp m) c) = Ok (Raw v) /\
    snd (f_shape (interp m) c) = Ok (bty_of v)).
  { unfold evaluate, evaluate_spec in *; rewrite Ev, Es; cbn [snd]; split; [auto|split; [auto|]].
    destruct (shape_agrees m W (cache_free_pure m Cf)) as [Sh _]; rewrite (Sh c c1 v Wc Ev); reflexivity. }
  destruct (replaced_all i m v c Kp Gv (grows_all m Cf) n Ov) as (S1 & S2 & S3).
  assert (L : linked i v c c c').
  { split; [|split; auto]; unfold c', write.
    - intros j Hj; destruct (ident_eqb i j) eqn:E; auto; apply ident_eqb_eq in E; congruence.
    - rewrite ident_eqb_refl; reflexivity. }
  destruct (S1 c c' L) as [A1 (B1 & _)], (S2 c c' L) as [A2 (B2 & _)], (S3 c c' L) as [A3 (B3 & _)].
  unfold evaluate, evaluate_spec; split; [split; [exact A1|split; [exact A2|]]|].
  - unfold evaluate_shape; destruct (f_shape (interp (replaced i m n)) c), (f_shape (interp n) c'); cbn [snd] in *; subst; auto.
  - intros j Hj; split; [auto|split; [auto|]]; rewrite !evaluate_shape_ctx; auto.
Qed.

Lemma written_cache_free (c : ctx F) n : written c n -> cache_free n = true.
Proof. induction n; simpl; auto; try contradiction; rewrite ?andb_true_iff; intuition. Qed.

Lemma named_written (i : ident) (m n : node F) (c c1 : ctx F) v :
  ctx_wf c -> node_wf m -> written c m -> evaluate m c = (c1, Ok v) ->
  only_variable i n ->
  let c' := write c i v in
  (snd (evaluate (replaced i m n) c) = snd (evaluate n c') /\
   snd (evaluate_spec (replaced i m n) c) = snd (evaluate_spec n c') /\
   snd (evaluate_shape (replaced i m n) c) = snd (evaluate_shape n c')) /\
  forall j, j <> i ->
    fst (evaluate (replaced i m n) c) j = fst (evaluate n c') j /\
    fst (evaluate_spec (replaced i m n) c) j = fst (evaluate_spec n c') j /\
    fst (evaluate_shape (replaced i m n) c) j = fst (evaluate_shape n c') j.
Proof.
  intros Wc W Hw Ev; apply (named i m n c c1 v Wc W (written_cache_free c m Hw) Ev).
  destruct (steps_claim c c1 m v Wc W Hw Ev) as [-> _].
  rewrite (steps_lifted c m Wc W Hw), Ev; reflexivity.
Qed.

(** Types. *)
Lemma replaced_type (i : ident) (m n : node F) (G G' : tenv) :
  only_variable i n -> G' i = typeof G m -> (forall j, j <> i -> G' j = G j) ->
  typeof G (replaced i m n) = typeof G' n.
Proof.
  intros Ov Gi Gj; induction n; cbn [replaced typeof only_variable] in *; auto.
  all: try (destruct Ov; rewrite IHn1, IHn2 by assumption; reflexivity).
  - destruct (ident_eqb i0 i) eqn:E.
    + apply ident_eqb_eq in E; subst; auto.
    + symmetry; apply Gj; intros ->; rewrite ident_eqb_refl in E; discriminate.
  - destruct Ov as [O1 O2]; rewrite !Gj by assumption; reflexivity.
  - destruct Ov as [O1 O2]; rewrite IHn, Gj by assumption; reflexivity.
  - destruct Ov as [O1 O2]; rewrite IHn, Gj by assumption; reflexivity.
  - rewrite IHn by assumption; reflexivity.
Qed.
End Named.
