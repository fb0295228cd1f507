(** Caches on plain buffers change no outcome, whatever the scalars (C74). *)
From Coq Require Import List Arith ZArith Bool.
Import ListNotations.
From Verif Require Import Base Shapes Scalar Buffers Spec Contraction Node Eval Types Instances
  Vocab Math Code_math Eval_facts Math_facts Math_claims Code_claims Diff_claims.

Section Caches.
Context {F : Type} {S : Scalar F}.
Variables (rho : ctx F) (P : ident -> option (node F)).

(** [f] from any context reached from [rho] is [g] from [rho]. *)
Definition follows {A} (f g : ctx F -> ctx F * res err A) : Prop :=
  forall c, filled rho P c ->
    snd (f c) = snd (g rho) /\ fst (g rho) = rho /\ filled rho P (fst (f c)).

Lemma follows_by_spec f g : follows f g -> follows (eval_by_spec f) (eval_by_spec g).
Proof.
  intros H c Hc; destruct (H c Hc) as (A & B & C); unfold eval_by_spec.
  destruct (f c), (g rho); simpl in *; subst; auto.
Qed.

Lemma follows_default f g : follows f g -> follows (default_spec f) (default_spec g).
Proof.
  intros H c Hc; destruct (H c Hc) as (A & B & C); unfold default_spec.
  destruct (f c), (g rho); simpl in *; subst; auto.
Qed.

Lemma follows_then {A B} (f g : ctx F -> ctx F * res err A) (h : res err A -> res err B) :
  follows f g ->
  follows (fun c => let (c1, r) := f c in (c1, h r)) (fun c => let (c1, r) := g c in (c1, h r)).
Proof.
  intros H c Hc; destruct (H c Hc) as (A' & B' & C); cbv beta.
  destruct (f c), (g rho); simpl in *; subst; auto.
Qed.

Lemma follows_both {A B} (f g : ctx F -> ctx F * res err A) (f' g' : ctx F -> ctx F * res err B) k :
  follows f g -> follows f' g' -> follows (both f f' k) (both g g' k).
Proof.
  intros H H' c Hc; destruct (H c Hc) as (A' & B' & C); unfold both.
  destruct (f c) as [c1 x], (g rho) as [r1 y]; simpl in *; subst.
  destruct y; simpl; auto.
  destruct (H' c1 C) as (D & E & G).
  destruct (f' c1) as [c2 x'], (g' rho) as [r2 y']; simpl in *; subst.
  destruct y'; simpl; auto.
Qed.

Lemma follows_both_eval f g f' g' k :
  follows f g -> follows f' g' -> follows (both_eval f f' k) (both_eval g g' k).
Proof.
  intros H H' c Hc; destruct (H c Hc) as (A' & B' & C); unfold both_eval.
  destruct (f c) as [c1 x], (g rho) as [r1 y]; simpl in *; subst.
  destruct y; simpl; auto.
  destruct (H' c1 C) as (D & E & G).
  destruct (f' c1) as [c2 x'], (g' rho) as [r2 y']; simpl in *; subst.
  destruct y'; simpl; auto.
Qed.

Lemma follows_both_shape f g f' g' k :
  follows f g -> follows f' g' -> follows (both_shape f f' k) (both_shape g g' k).
Proof.
  intros H H' c Hc; destruct (H c Hc) as (A' & B' & C); unfold both_shape.
  destruct (f c) as [c1 x], (g rho) as [r1 y]; simpl in *; subst.
  destruct y; simpl; auto.
  destruct (H' c1 C) as (D & E & G).
  destruct (f' c1) as [c2 x'], (g' rho) as [r2 y']; simpl in *; subst.
  destruct y'; simpl; auto.
Qed.

Lemma follows_const {A} (r : res err A) : follows (fun c => (c, r)) (fun c => (c, r)).
Proof. intros c Hc; simpl; auto. Qed.

Lemma filled_free c i : filled rho P c -> P i = None -> c i = rho i.
Proof. intros H E; specialize (H i); rewrite E in H; exact H. Qed.

Hypothesis WC : ctx_wf rho.

Lemma follows_cached m k :
  follows (f_eval (interp m)) (f_eval (interp (strip m))) -> P k = Some (strip m) ->
  follows (cached_eval (interp m) k) (f_eval (interp (strip m))).
Proof.
  intros H E c Hc; unfold cached_eval, read; destruct (c k) as [v|] eqn:K.
  - pose proof (Hc k) as Q; rewrite E in Q; specialize (Q v K); unfold evaluate in Q.
    destruct (H c Hc) as (_ & B & _); simpl; auto.
  - destruct (H c Hc) as (A & B & C).
    destruct (f_eval (interp m) c) as [c1 r]; simpl in *; subst r.
    destruct (snd (f_eval (interp (strip m)) rho)) as [v| | |] eqn:Q; simpl; auto.
    split; [reflexivity|split; [exact B|]].
    intro i; unfold write; destruct (ident_eqb k i) eqn:KI.
    + apply Nat.eqb_eq in KI; subst i; rewrite E; intros w W; inversion W; subst; exact Q.
    + exact (C i).
Qed.

(** The three methods; shapes only without caches, where a cache would evaluate. *)
Lemma follows_interp (n : node F) : node_wf n -> caches rho P n ->
  follows (f_spec (interp n)) (f_spec (interp (strip n))) /\
  follows (f_eval (interp n)) (f_eval (interp (strip n))) /\
  (strip n = n -> follows (f_shape (interp n)) (f_shape (interp (strip n)))).
Proof.
  induction n as [i|i t|v|s|m IHm t|m IHm k|u m IHm|m IHm|l IHl r IHr|l IHl r IHr|l IHl r IHr
                 |l IHl r IHr|l IHl r IHr|axes l IHl r IHr]; intros W K.
  - cbn [caches] in K; split; [|split; [|intros _]]; intros c Hc; simpl; unfold read_spec, read_bty, read;
      rewrite (filled_free c i Hc K); auto.
  - cbn [caches] in K; destruct K as [K L].
    assert (A : follows (varadj_spec i t) (varadj_spec i t)).
    { intros c Hc; unfold varadj_spec, read_bty; rewrite (filled_free c i Hc K), (filled_free c t Hc L); simpl; auto. }
    cbn [interp strip]; split; [exact A|split; [exact (follows_by_spec _ _ A)|intros _]].
    intros c Hc; simpl; unfold varadj_shape, read_bty; rewrite (filled_free c i Hc K), (filled_free c t Hc L); simpl; auto.
  - split; [|split; [|intros _]]; intros c Hc; simpl; auto.
  - split; [|split; [|intros _]]; intros c Hc; simpl; auto.
  - cbn [caches] in K; destruct K as (K & E & T).
    destruct (IHm W K) as (_ & _ & H); specialize (H E).
    assert (A : follows (constadj_shape (interp m) t) (constadj_shape (interp (strip m)) t)).
    { intros c Hc; unfold constadj_shape; destruct (H c Hc) as (A & B & C).
      destruct (f_shape (interp m) c) as [c1 x], (f_shape (interp (strip m)) rho) as [r1 y]; simpl in *; subst.
      unfold read; destruct y; simpl; auto; rewrite (filled_free c1 t C T); auto. }
    assert (B : follows (constadj_spec (interp m) t) (constadj_spec (interp (strip m)) t)).
    { exact (follows_then _ _ (res_map _) A). }
    cbn [interp strip]; split; [exact B|split; [exact (follows_by_spec _ _ B)|intros _; exact A]].
  - cbn [caches] in K; destruct K as (K & E & Wr).
    destruct (IHm W K) as (_ & H & _).
    pose proof (follows_cached m k H E) as A; cbn [interp strip].
    split; [|split; [exact A|]].
    + intros c Hc; destruct (follows_default _ _ A c Hc) as (B1 & B2 & B3).
      cbn [cached_fn f_spec].
      pose proof (steps_lifted rho (strip m) WC (wf_strip m W) Wr) as L.
      unfold evaluate_spec, evaluate in L; rewrite L; cbn [fst snd].
      split; [|split; [reflexivity|exact B3]].
      rewrite B1; unfold default_spec; destruct (f_eval (interp (strip m)) rho); reflexivity.
    + intro N; exfalso; assert (nodes (strip m) <= nodes m).
      { clear; induction m; simpl; auto with arith;
          repeat (apply le_n_S; try apply Nat.add_le_mono; auto). }
      rewrite N in H0; simpl in H0; exact (Nat.nle_succ_diag_l _ H0).
  - cbn [caches] in K; destruct (IHm W K) as (A & B & C); cbn [interp strip].
    split; [exact (follows_then _ _ (res_map _) A)|split; [exact (follows_then _ _ (res_map _) B)|]].
    intro N; inversion N as [N']; rewrite !N'; rewrite N' in C; exact (C eq_refl).
  - cbn [caches] in K; destruct (IHm W K) as (A & B & C); cbn [interp strip].
    split; [exact (follows_then _ _ (fun r => res_bind r _) A)|split; [exact (follows_then _ _ (res_map _) B)|]].
    intros _; exact (follows_const _).
  - cbn [caches] in K; destruct K as [K L]; destruct W as [Wl Wr].
    destruct (IHl Wl K) as (A & _ & _), (IHr Wr L) as (A' & _ & _); cbn [interp strip].
    pose proof (follows_both _ _ _ _ power_post A A') as B.
    split; [exact B|split; [exact (follows_by_spec _ _ B)|intros _; exact (follows_const _)]].
  - cbn [caches] in K; destruct K as [K L]; destruct W as [Wl Wr].
    destruct (IHl Wl K) as (A & _ & D), (IHr Wr L) as (A' & _ & D'); cbn [interp strip].
    pose proof (follows_both _ _ _ _ (fun x y => res_map_err EOutput (add_match x y)) A A') as B.
    split; [exact B|split; [exact (follows_by_spec _ _ B)|]].
    intro N; inversion N as [[N1 N2]]; rewrite ?N1, ?N2 in *; exact (follows_both_shape _ _ _ _ _ (D eq_refl) (D' eq_refl)).
  - cbn [caches] in K; destruct K as [K L]; destruct W as [Wl Wr].
    destruct (IHl Wl K) as (A & _ & D), (IHr Wr L) as (A' & _ & D'); cbn [interp strip].
    pose proof (follows_both _ _ _ _ (fun x y => res_map_err EOutput (sub_match x y)) A A') as B.
    split; [exact B|split; [exact (follows_by_spec _ _ B)|]].
    intro N; inversion N as [[N1 N2]]; rewrite ?N1, ?N2 in *; exact (follows_both_shape _ _ _ _ _ (D eq_refl) (D' eq_refl)).
  - cbn [caches] in K; destruct K as [K L]; destruct W as [Wl Wr].
    destruct (IHl Wl K) as (A & _ & D), (IHr Wr L) as (A' & _ & D'); cbn [interp strip].
    pose proof (follows_both _ _ _ _ (fun x y => res_map_err EOutput (mul_match x y)) A A') as B.
    split; [exact B|split; [exact (follows_by_spec _ _ B)|]].
    intro N; inversion N as [[N1 N2]]; rewrite ?N1, ?N2 in *; exact (follows_both_shape _ _ _ _ _ (D eq_refl) (D' eq_refl)).
  - cbn [caches] in K; destruct K as [K L]; destruct W as [Wl Wr].
    destruct (IHl Wl K) as (_ & A & D), (IHr Wr L) as (_ & A' & D'); cbn [interp strip].
    pose proof (follows_both_eval _ _ _ _ (fun x y => res_map_err EOutput (zip_map_id fdiv x y)) A A') as B.
    split; [exact (follows_default _ _ B)|split; [exact B|]].
    intro N; inversion N as [[N1 N2]]; rewrite ?N1, ?N2 in *; exact (follows_both_shape _ _ _ _ _ (D eq_refl) (D' eq_refl)).
  - cbn [caches] in K; destruct K as [K L]; destruct W as [Wl Wr].
    destruct (IHl Wl K) as (A & _ & D), (IHr Wr L) as (A' & _ & D'); cbn [interp strip].
    pose proof (follows_both _ _ _ _ (fun x y => res_map_err EOutput (contract_spec axes x y)) A A') as B.
    split; [exact B|split; [exact (follows_by_spec _ _ B)|]].
    intro N; inversion N as [[N1 N2]]; rewrite ?N1, ?N2 in *; exact (follows_both_shape _ _ _ _ _ (D eq_refl) (D' eq_refl)).
Qed.

Lemma shape_kept (n : node F) : node_wf n -> caches rho P n -> forall c, filled rho P c ->
  filled rho P (fst (f_shape (interp n) c)).
Proof.
  assert (B : forall f g k, (forall c, filled rho P c -> filled rho P (fst (f c))) ->
             (forall c, filled rho P c -> filled rho P (fst (g c))) ->
             forall c, filled rho P c -> filled rho P (fst (both_shape f g k c))).
  { intros f g k Hf Hg c Hc; unfold both_shape; specialize (Hf c Hc).
    destruct (f c) as [c1 [a| | |]]; simpl in *; auto.
    specialize (Hg c1 Hf); destruct (g c1) as [c2 [b| | |]]; simpl in *; auto. }
  induction n as [i|i t|v|s|m IHm t|m IHm k|u m IHm|m IHm|l IHl r IHr|l IHl r IHr|l IHl r IHr
                 |l IHl r IHr|l IHl r IHr|axes l IHl r IHr]; intros W K c Hc;
    cbn [caches] in K; try exact Hc; try (destruct K, W; apply B; now auto); try (now apply IHm).
  - destruct K as (K & _ & _); cbn [interp constadj_fn f_shape]; unfold constadj_shape.
    specialize (IHm W K c Hc); destruct (f_shape (interp m) c) as [c1 [a| | |]]; simpl in *; auto.
  - destruct K as (K & E & _); cbn [interp cached_fn f_shape]; unfold default_shape.
    destruct (follows_interp m W K) as (_ & H & _).
    destruct (follows_cached m k H E c Hc) as (_ & _ & G).
    destruct (cached_eval (interp m) k c); exact G.
Qed.

End Caches.

Section Claims.
Context {F : Type} {S : Scalar F}.

Lemma cached_outcome rho P (n : node F) (c : ctx F) :
  ctx_wf rho -> node_wf n -> caches rho P n -> filled rho P c ->
  snd (evaluate n c) = snd (evaluate (strip n) rho) /\
  snd (evaluate_spec n c) = snd (evaluate_spec (strip n) rho).
Proof.
  intros WC W K Hc; destruct (follows_interp rho P WC n W K) as (A & B & _).
  split; [exact (proj1 (B c Hc))|exact (proj1 (A c Hc))].
Qed.

Lemma cached_run rho P : ctx_wf rho -> forall (l : list (mode * node F)) (c : ctx F),
  (forall p, In p l -> node_wf (snd p) /\ caches rho P (snd p)) ->
  filled rho P c -> filled rho P (fold_left run1 l c).
Proof.
  intro WC; induction l as [|[m n] l IH]; intros c H Hc; [exact Hc|].
  cbn [fold_left]; apply IH; [intros p I; apply H; right; exact I|].
  destruct (H (m, n) (or_introl eq_refl)) as [W K]; cbn [snd] in W, K.
  destruct (follows_interp rho P WC n W K) as (A & B & _).
  destruct m; unfold run1; cbn [fst snd].
  - exact (proj2 (proj2 (B c Hc))).
  - exact (proj2 (proj2 (A c Hc))).
  - unfold evaluate_shape; pose proof (shape_kept rho P WC n W K c Hc) as Q.
    destruct (f_shape (interp n) c); exact Q.
Qed.

(** After any history, evaluation is that of the tree without caches in the first context. *)
Lemma cached_history rho P (l : list (mode * node F)) (n : node F) :
  ctx_wf rho -> (forall k, P k <> None -> rho k = None) ->
  (forall p, In p ((MEval, n) :: l) -> node_wf (snd p) /\ caches rho P (snd p)) ->
  snd (evaluate n (fold_left run1 l rho)) = snd (evaluate (strip n) rho).
Proof.
  intros WC E H; destruct (H (MEval, n) (or_introl eq_refl)) as [W K].
  refine (proj1 (cached_outcome rho P n _ WC W K _)).
  apply (cached_run rho P WC); [intros p I; apply H; right; exact I|].
  intro i; specialize (E i); destruct (P i) as [m|]; [|reflexivity].
  intros v V; rewrite E in V; discriminate.
Qed.

End Claims.
