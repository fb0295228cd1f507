(** Claims about renaming, in the form used by Properties_rename.v. *)
From Coq Require Import List Arith Bool String.
Import ListNotations.
From Verif Require Import Base Shapes Scalar Buffers Spec Contraction Node Eval Types Vocab Fmt Rename_math.

Section Rename.
Variable f : ident -> ident.
Hypothesis I : injective f.

Lemma eqb_renamed i j : ident_eqb (f i) (f j) = ident_eqb i j.
Proof.
  unfold ident_eqb; destruct (Nat.eqb_spec i j) as [->|N]; [apply Nat.eqb_refl|].
  apply Nat.eqb_neq; intro E; apply N, I, E.
Qed.

Section Eval.
Context {F : Type} {SF : Scalar F}.

(** Methods that do the same under the new names. *)
Definition follows {A} (m m' : ctx F -> ctx F * res err A) : Prop :=
  forall c c', same_under f c c' -> same_outcome f c' (m c) (m' c').

(** Results that mention no identifier. *)
Definition mute {A} (r : res err A) : Prop := res_map_err (renamed_err f) r = r.

Lemma mute_out {A} (r : res incompat A) : mute (res_map_err EOutput r).
Proof. destruct r; reflexivity. Qed.

Lemma follows_map {A B} (g : A -> B) m m' : follows m m' ->
  follows (fun c => let (c1, r) := m c in (c1, res_map g r)) (fun c => let (c1, r) := m' c in (c1, res_map g r)).
Proof.
  intros H c c' S; destruct (H c c' S) as (H1 & H2 & H3).
  destruct (m c) as [c1 r], (m' c') as [c1' r']; cbn [fst snd] in *; split; [|split]; auto.
  rewrite H3; destruct r; reflexivity.
Qed.

Lemma follows_bind {A B} (g : A -> res err B) m m' : (forall a, mute (g a)) -> follows m m' ->
  follows (fun c => let (c1, r) := m c in (c1, res_bind r g)) (fun c => let (c1, r) := m' c in (c1, res_bind r g)).
Proof.
  intros G H c c' S; destruct (H c c' S) as (H1 & H2 & H3).
  destruct (m c) as [c1 r], (m' c') as [c1' r']; cbn [fst snd] in *; split; [|split]; auto; cbn [snd].
  rewrite H3; destruct r; cbn; auto; symmetry; apply G.
Qed.

Lemma follows_both {A B C} (l l' : ctx F -> ctx F * res err A) (r r' : ctx F -> ctx F * res err B)
  (k : A -> B -> res err C) (two : (ctx F -> ctx F * res err A) -> (ctx F -> ctx F * res err B) -> ctx F -> ctx F * res err C) :
  (forall l r c, two l r c =
    let (c1, x) := l c in
    match res_map_err ELeft x with
    | Ok a => let (c2, y) := r c1 in
        match res_map_err ERight y with Ok b => (c2, k a b) | Err e => (c2, Err e) | Panic => (c2, Panic) | Stuck => (c2, Stuck) end
    | Err e => (c1, Err e) | Panic => (c1, Panic) | Stuck => (c1, Stuck)
    end) ->
  (forall a b, mute (k a b)) -> follows l l' -> follows r r' -> follows (two l r) (two l' r').
Proof.
  intros D K L R c c' S; rewrite !D; destruct (L c c' S) as (H1 & H2 & H3).
  destruct (l c) as [c1 x], (l' c') as [c1' x']; cbn [fst snd] in *; subst x'.
  destruct x as [a|e| |]; cbn [res_map_err]; try (split; [|split]; auto; reflexivity).
  destruct (R c1 c1' H1) as (H4 & H5 & H6).
  destruct (r c1) as [c2 y], (r' c1') as [c2' y']; cbn [fst snd] in *; subst y'.
  assert (U : forall j, (forall i, f i <> j) -> c2' j = c' j) by (intros j J; rewrite H5, H2; auto).
  destruct y as [b|e| |]; cbn [res_map_err]; split; auto; split; auto; cbn [snd]; try reflexivity.
  symmetry; apply K.
Qed.

Lemma same_start {A} (c c' : ctx F) (r r' : res err A) : same_under f c c' -> r' = res_map_err (renamed_err f) r ->
  same_outcome f c' (c, r) (c', r').
Proof. intros S E; split; [|split]; auto. Qed.

Definition follows_fn (m m' : @fn F) : Prop :=
  follows (f_eval m) (f_eval m') /\ follows (f_spec m) (f_spec m') /\ follows (f_shape m) (f_shape m').

Lemma by_spec m m' s s' : follows m m' -> follows s s' ->
  follows_fn (Fn (eval_by_spec m) m s) (Fn (eval_by_spec m') m' s').
Proof. intros H K; split; [|split]; auto; apply (follows_map unwrap); auto. Qed.

Lemma by_eval e e' s s' : follows e e' -> follows s s' ->
  follows_fn (Fn e (default_spec e) s) (Fn e' (default_spec e') s').
Proof. intros H K; split; [|split]; auto; apply (follows_map Raw); auto. Qed.

Lemma undef_renamed {A} i (o : option A) : ok_or_undef (f i) o = res_map_err (renamed_err f) (ok_or_undef i o).
Proof. destruct o; reflexivity. Qed.

Lemma mute_power b e : mute (power_post b e).
Proof.
  unfold mute, power_post; destruct (spec_bty b), (spec_bty e); try reflexivity.
  assert (G : res_map_err (renamed_err f) (res_bind (unwrap_scal e) (fun x => Ok (Raw (vmutate (fun y => fpow y x) (unwrap b))))) =
              res_bind (unwrap_scal e) (fun x => Ok (Raw (vmutate (fun y => fpow y x) (unwrap b))))).
  { unfold unwrap_scal; destruct (unwrap e); reflexivity. }
  destruct e; destruct b; auto; repeat match goal with |- context [if ?x then _ else _] => destruct x end; auto.
Qed.

Lemma mute_subset t (b : F) ixs a : mute (build_subset t b ixs a).
Proof.
  assert (St : forall buf ix, mute (subset_step a buf ix)).
  { intros buf ix; unfold mute, subset_step; destruct buf; auto.
    - destruct ix as [|[|[|i]] [|? ?]]; auto.
    - destruct ix as [|i [|? ?]]; auto; destruct (list_set _ _ _); reflexivity.
    - destruct (arr_set _ _ _); reflexivity. }
  assert (Fo : forall l r, mute r -> mute (fold_left (fun acc ix => res_bind acc (fun buf => subset_step a buf ix)) l r)).
  { induction l as [|ix l IH]; intros r M; cbn [fold_left]; auto; apply IH.
    destruct r; cbn [res_bind]; auto; apply St. }
  unfold build_subset; destruct t; try (apply Fo; reflexivity); destruct ixs; reflexivity.
Qed.

Lemma mute_sum s : mute (sum_spec_post s).
Proof. unfold mute, sum_spec_post; destruct s; auto; destruct (fof_usize _); reflexivity. Qed.

Lemma constadj_follows m m' t : follows (f_shape m) (f_shape m') -> follows (constadj_shape m t) (constadj_shape m' (f t)).
Proof.
  intros H c c' S; unfold constadj_shape; destruct (H c c' S) as (H1 & H2 & H3).
  destruct (f_shape m c) as [c1 x], (f_shape m' c') as [c1' x']; cbn [fst snd] in *; subst x'.
  destruct x as [a|e| |]; cbn [res_map_err]; split; auto; split; auto; cbn [snd]; auto.
  unfold read; rewrite (H1 t); destruct (c1 t); cbn; auto; destruct (adj_bty _ _); reflexivity.
Qed.

Lemma cached_follows m m' k : follows (f_eval m) (f_eval m') -> follows (cached_eval m k) (cached_eval m' (f k)).
Proof.
  intros H c c' S; unfold cached_eval, read; rewrite (S k); destruct (c k) as [v|]; [apply same_start; auto|].
  destruct (H c c' S) as (H1 & H2 & H3).
  destruct (f_eval m c) as [c1 x], (f_eval m' c') as [c1' x']; cbn [fst snd] in *; subst x'.
  destruct x as [a|e| |]; cbn [res_map_err]; try (split; [|split]; auto; reflexivity).
  split; [|split]; cbn [fst snd]; auto.
  - intro i; unfold write; rewrite eqb_renamed, (H1 i); auto.
  - intros j J; unfold write, ident_eqb; destruct (Nat.eqb_spec (f k) j); [exfalso; eapply J; eauto|auto].
Qed.

Lemma interp_follows (n : node F) : follows_fn (interp n) (interp (renamed f n)).
Proof.
  induction n; cbn [renamed interp].
  - split; [|split]; intros c c' S; apply same_start; auto; unfold read, read_spec, read_bty; rewrite (S i); apply undef_renamed.
  - assert (A : follows (varadj_shape i t) (varadj_shape (f i) (f t))).
    { intros c c' S; apply same_start; auto; unfold read_bty; rewrite (S i), (S t).
      destruct (c i); cbn; auto; destruct (c t); cbn; auto; destruct (adj_bty _ _); reflexivity. }
    assert (B : follows (varadj_spec i t) (varadj_spec (f i) (f t))).
    { intros c c' S; apply same_start; auto; unfold read_bty; rewrite (S i), (S t), eqb_renamed.
      destruct (c i); cbn; auto; destruct (c t); cbn; auto; destruct (adj_bty _ _); auto.
      destruct (ident_eqb i t); auto; destruct (Nat.eqb _ 2); auto.
      match goal with |- res_map Raw ?x = _ => assert (E : res_map_err (renamed_err f) x = x); [|destruct x; cbn in *; congruence] end.
      apply mute_subset. }
    apply by_spec; auto.
  - assert (B : follows (fun c => (c, Ok (into_spec v))) (fun c => (c, Ok (into_spec v)))) by (intros c c' S; apply same_start; auto).
    apply by_spec; auto; intros c c' S; apply same_start; auto.
  - assert (B : follows (fun c => (c, Ok s)) (fun c => (c, Ok s))) by (intros c c' S; apply same_start; auto).
    apply by_spec; auto; intros c c' S; apply same_start; auto.
  - destruct IHn as (_ & _ & H); assert (C := constadj_follows _ _ t H).
    apply by_spec; auto; apply (follows_map (fun sa => Full sa fzero)); auto.
  - destruct IHn as (H & _ & _); assert (C := cached_follows _ _ k H).
    apply by_eval; auto; apply (follows_map bty_of); auto.
  - destruct IHn as (H1 & H2 & H3); split; [|split]; auto; [apply (follows_map (vmutate (un_fn u)))|apply (follows_map (un_spec_post u))]; auto.
  - destruct IHn as (H1 & H2 & H3); split; [|split].
    + apply (follows_map (fun v => VScal (vsum v))); auto.
    + apply (follows_bind sum_spec_post); auto; apply mute_sum.
    + intros c c' S; apply same_start; auto.
  - destruct IHn1 as (_ & L & _), IHn2 as (_ & R & _); apply by_spec.
    + apply (follows_both _ _ _ _ power_post (fun l r => both l r power_post)); auto; apply mute_power.
    + intros c c' S; apply same_start; auto.
  - destruct IHn1 as (_ & L & L'), IHn2 as (_ & R & R'); apply by_spec.
    + apply (follows_both _ _ _ _ (fun x y => res_map_err EOutput (add_match x y)) (fun l r => both l r _)); auto; intros; apply mute_out.
    + apply (follows_both _ _ _ _ bcast_post (fun l r => both_shape l r bcast_post)); auto; intros; apply mute_out.
  - destruct IHn1 as (_ & L & L'), IHn2 as (_ & R & R'); apply by_spec.
    + apply (follows_both _ _ _ _ (fun x y => res_map_err EOutput (sub_match x y)) (fun l r => both l r _)); auto; intros; apply mute_out.
    + apply (follows_both _ _ _ _ bcast_post (fun l r => both_shape l r bcast_post)); auto; intros; apply mute_out.
  - destruct IHn1 as (_ & L & L'), IHn2 as (_ & R & R'); apply by_spec.
    + apply (follows_both _ _ _ _ (fun x y => res_map_err EOutput (mul_match x y)) (fun l r => both l r _)); auto; intros; apply mute_out.
    + apply (follows_both _ _ _ _ bcast_post (fun l r => both_shape l r bcast_post)); auto; intros; apply mute_out.
  - destruct IHn1 as (L & _ & L'), IHn2 as (R & _ & R'); apply by_eval.
    + apply (follows_both _ _ _ _ (fun x y => res_map_err EOutput (zip_map_id fdiv x y)) (fun l r => both_eval l r _)); auto; intros; apply mute_out.
    + apply (follows_both _ _ _ _ bcast_post (fun l r => both_shape l r bcast_post)); auto; intros; apply mute_out.
  - destruct IHn1 as (_ & L & L'), IHn2 as (_ & R & R'); apply by_spec.
    + apply (follows_both _ _ _ _ (fun x y => res_map_err EOutput (contract_spec axes x y)) (fun l r => both l r _)); auto; intros; apply mute_out.
    + apply (follows_both _ _ _ _ (fun x y => match contract_bty axes x y with Some t => Ok t | None => Stuck end)
               (fun l r => both_shape l r _)); auto; intros; unfold mute; destruct (contract_bty axes a b); reflexivity.
Qed.

Lemma evaluate_renamed (n : node F) c c' : same_under f c c' ->
  same_outcome f c' (evaluate n c) (evaluate (renamed f n) c') /\
  same_outcome f c' (evaluate_spec n c) (evaluate_spec (renamed f n) c') /\
  same_outcome f c' (evaluate_shape n c) (evaluate_shape (renamed f n) c').
Proof.
  intro S; destruct (interp_follows n) as (H1 & H2 & H3).
  split; [|split]; [apply H1|apply H2|]; auto.
  exact (follows_map bty_shape _ _ H3 c c' S).
Qed.

Lemma contains_renamed (n : node F) t : contains (renamed f n) (f t) = contains n t.
Proof. induction n; cbn [renamed contains]; rewrite ?eqb_renamed; congruence. Qed.

Lemma adjoint_renamed (n : node F) t : adjoint (renamed f n) (f t) = option_map (renamed f) (adjoint n t).
Proof.
  induction n; cbn [renamed adjoint]; rewrite ?eqb_renamed; auto;
    try (rewrite IHn1, IHn2; destruct (adjoint n1 t); cbn [obind option_map]; auto; destruct (adjoint n2 t); reflexivity).
  - destruct (ident_eqb k t); auto.
  - rewrite IHn; destruct (adjoint n t); cbn [obind option_map]; auto; destruct u; reflexivity.
Qed.

Lemma gradient_renamed (n : node F) t c c' : same_under f c c' ->
  match evaluate_adjoint n t c, evaluate_adjoint (renamed f n) (f t) c' with
  | Some p, Some p' => same_outcome f c' p p'
  | None, None => True
  | _, _ => False
  end.
Proof.
  intro S; unfold evaluate_adjoint; rewrite adjoint_renamed; destruct (adjoint n t); cbn [option_map]; auto.
  apply (evaluate_renamed n0 c c' S).
Qed.

Lemma typeof_renamed G G' (n : node F) : same_under f G G' -> typeof G' (renamed f n) = typeof G n.
Proof.
  intro S; induction n; cbn [renamed typeof]; rewrite ?(S i), ?(S t), ?(S k), ?IHn, ?IHn1, ?IHn2; auto.
Qed.

Lemma text_renamed sym sym' (show : F -> string) (n : node F) : same_under f sym sym' ->
  to_expr sym' show (renamed f n) = to_expr sym show n /\ display sym' show (renamed f n) = display sym show n.
Proof.
  intro S.
  assert (T : forall m, to_expr sym' show (renamed f m) = to_expr sym show m).
  { induction m; cbn [renamed to_expr]; rewrite ?(S i), ?eqb_renamed, ?IHm, ?IHm1, ?IHm2; auto. }
  split; auto; induction n; cbn [renamed display]; rewrite ?(S i); auto;
    try (rewrite <- T; reflexivity).
  - rewrite IHn; auto.
  - destruct axes as [|[|[|axes]]]; cbn [to_expr]; rewrite ?T, ?IHn1, ?IHn2; auto.
Qed.
End Eval.

Lemma message_renamed dbg dbg' e : same_under f dbg dbg' -> err_display dbg' (renamed_err f e) = err_display dbg e.
Proof.
  intro S; induction e; cbn [renamed_err err_display]; auto; unfold source_display; rewrite (S i); auto.
Qed.
End Rename.
