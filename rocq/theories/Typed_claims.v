(** The typing rules and the checker, in the form used by Properties_typed.v. *)
From Coq Require Import List Arith ZArith Bool Lia.
Import ListNotations.
From Verif Require Import Base Shapes Scalar Buffers Spec Contraction Node Eval Types Instances Vocab
  Index_facts Buffers_facts Spec_facts Eval_facts Eval_claims Diff_math Typed_math.

Lemma dims_eqb_ok a b : dims_eqb a b = true <-> a = b.
Proof. split; [apply dims_eqb_eq|intros ->; apply dims_eqb_refl]. Qed.

Lemma zips_iff l r k : zip_sty l r = Some k <-> zips l r k.
Proof.
  split.
  - destruct l, r; cbn; try discriminate; intro H; try (injection H as <-);
      try (constructor; discriminate); try constructor.
    destruct (dims_eqb ds ds0) eqn:E; [|discriminate]; injection H as <-; apply dims_eqb_ok in E; subst; constructor.
  - intros [k'|k' N|k' N]; destruct k'; cbn; try reflexivity; try congruence.
    rewrite (proj2 (dims_eqb_ok _ _) eq_refl); reflexivity.
Qed.

Lemma contracts_iff axes l r k : contract_sty axes l r = Some k <->
  exists a b d, l = array_type a /\ r = array_type b /\ k = array_type d /\ contracts axes a b d.
Proof.
  split.
  - destruct axes as [|[|?]]; [| |discriminate].
    + destruct l as [| | |[|n [|m [|? ?]]]], r as [| | |[|n' [|m' [|? ?]]]]; cbn; try discriminate;
        intro H; injection H as <-.
      * exists [], [], []; repeat split; apply (contracts_outer [] []); auto.
      * exists [], [n'], [n']; repeat split; apply (contracts_outer [] [n']); auto.
      * exists [], [n'; m'], [n'; m']; repeat split; apply (contracts_outer [] [n'; m']); auto.
      * exists [n], [], [n]; repeat split; apply (contracts_outer [n] []); auto.
      * exists [n], [n'], [n; n']; repeat split; apply (contracts_outer [n] [n']); auto.
      * exists [n; m], [], [n; m]; repeat split; apply (contracts_outer [n; m] []); auto.
    + destruct l as [| | |[|n [|m [|? ?]]]], r as [| | |[|n' [|m' [|? ?]]]]; cbn; try discriminate;
        repeat match goal with |- context [if ?x =? ?y then _ else _] => destruct (Nat.eqb_spec x y) as [<-|] end;
        intro H; try discriminate H; injection H as <-.
      * exists [], [], []; repeat split; constructor.
      * exists [n], [n], []; repeat split; constructor.
      * exists [n], [n; m'], [m']; repeat split; constructor.
      * exists [n; m], [n], [m]; repeat split; constructor.
      * exists [n; m], [m; m'], [n; m']; repeat split; constructor.
  - intros (a & b & d & -> & -> & -> & C); destruct C as [a b L| |n|n m|n z m|n m]; cbn;
      try rewrite Nat.eqb_refl; try reflexivity.
    destruct a as [|n [|m [|? ?]]], b as [|n' [|m' [|? ?]]]; cbn in *; try lia; reflexivity.
Qed.

Lemma dims_iff k a : sty_dims k = Some a <-> has_dims k a.
Proof.
  split; [destruct k; cbn; intro H; try discriminate; injection H as <-; constructor|intros []; reflexivity].
Qed.

Lemma derives_iff l r k : adj_sty l r = Some k <-> derives l r k.
Proof.
  unfold adj_sty; split.
  - destruct (sty_dims l) as [a|] eqn:A; [|discriminate]; destruct (sty_dims r) as [b|] eqn:B; [|discriminate].
    unfold shape_concat.
    destruct ((length a <=? 5) && (length b <=? 5) && (length a + length b <=? 6)) eqn:L; [|discriminate].
    destruct l as [| | |ds], r as [| | |ds']; cbn in A, B; try discriminate; injection A as <-; injection B as <-;
      cbn [sty_cls precedence mk_bty app]; intro H; try discriminate;
      try (injection H as <-; constructor).
    all: match type of H with context [if ?c then _ else _] => destruct c eqn:R; [|discriminate] end.
    all: apply andb_true_iff in R; destruct R as [R1 R2]; apply Nat.leb_le in R1, R2; rewrite ?app_length in *; cbn in H; injection H as <-.
    + apply (derives_array KS (KA ds') [] ds'); [constructor|constructor|eauto|exact (conj R1 R2)].
    + apply (derives_array KT (KA ds') [2] ds'); [constructor|constructor|eauto|cbn in *; lia].
    + apply (derives_array (KA ds) KS ds []); [constructor|constructor|eauto|cbn in *; lia].
    + apply (derives_array (KA ds) KT ds [2]); [constructor|constructor|eauto|cbn in *; lia].
    + apply (derives_array (KA ds) (KA ds') ds ds'); [constructor|constructor|eauto|lia].
  - intros [| | |l' r' a b A B E L]; try reflexivity.
    rewrite (proj2 (dims_iff _ _) A), (proj2 (dims_iff _ _) B); unfold shape_concat.
    assert (X : (length a <=? 5) && (length b <=? 5) && (length a + length b <=? 6) = true).
    { rewrite !andb_true_iff, !Nat.leb_le; lia. }
    rewrite X; assert (P : precedence (sty_cls l') (sty_cls r') = CArrays).
    { destruct A, B; destruct E as [[? E]|[? E]]; try discriminate E; reflexivity. }
    rewrite P; cbn [mk_bty]; rewrite app_length, (proj2 (Nat.leb_le 1 _)), (proj2 (Nat.leb_le _ 5)) by lia; reflexivity.
Qed.

Lemma self_concat_iff k a : has_dims k a -> (self_concat k = true <-> length a <= 3).
Proof.
  intro H; unfold self_concat; rewrite (proj2 (dims_iff _ _) H); unfold shape_concat.
  destruct ((length a <=? 5) && (length a <=? 5) && (length a + length a <=? 6)) eqn:L.
  - rewrite !andb_true_iff, !Nat.leb_le in L; split; [lia|auto].
  - split; [discriminate|intro K; exfalso].
    assert (X : (length a <=? 5) && (length a <=? 5) && (length a + length a <=? 6) = true)
      by (rewrite !andb_true_iff, !Nat.leb_le; lia); congruence.
Qed.

Lemma derives_dims l r k : derives l r k -> exists a, has_dims l a.
Proof. intros []; eexists; eauto; constructor. Qed.

Section Rules.
Context {F : Type}.

Lemma zip_rule G (l r : node F) k : (forall k, typeof G l = Some k <-> has_type G l k) ->
  (forall k, typeof G r = Some k <-> has_type G r k) ->
  obind (typeof G l) (fun kl => obind (typeof G r) (fun kr => zip_sty kl kr)) = Some k <->
  exists kl kr, has_type G l kl /\ has_type G r kr /\ zips kl kr k.
Proof.
  intros L R; split.
  - destruct (typeof G l) as [kl|] eqn:El; [|discriminate]; destruct (typeof G r) as [kr|] eqn:Er; [|discriminate].
    cbn; intro H; exists kl, kr; split; [apply L; reflexivity|split; [apply R; reflexivity|apply zips_iff, H]].
  - intros (kl & kr & Hl & Hr & Z); apply L in Hl; apply R in Hr; rewrite Hl, Hr; apply zips_iff, Z.
Qed.

Lemma rules G (n : node F) : forall k, typeof G n = Some k <-> has_type G n k.
Proof.
  induction n as [i|i t|v|s|m IHn t|m IHn key|u m IHn|m IHn|l IHl r IHr|l IHl r IHr|l IHl r IHr|l IHl r IHr|l IHl r IHr|axes l IHl r IHr]; intro ty.
  - split; [constructor; assumption|intro H; inversion H; assumption].
  - cbn [typeof]; split.
    + destruct (G i) as [ki|] eqn:Ei; [|discriminate]; destruct (G t) as [kt|] eqn:Et; [|discriminate]; cbn [obind].
      destruct (self_concat ki) eqn:C; [|discriminate]; intro H; apply derives_iff in H.
      destruct (derives_dims _ _ _ H) as [a A]; econstructor; eauto; apply (proj1 (self_concat_iff _ _ A)), C.
    + intro H; inversion H; subst.
      repeat match goal with E : G _ = Some _ |- _ => rewrite E; clear E end; cbn [obind].
      rewrite (proj2 (self_concat_iff _ _ ltac:(eassumption)) ltac:(assumption)); apply derives_iff; assumption.
  - split; [intro H; injection H as <-; constructor|intro H; inversion H; reflexivity].
  - split; [intro H; injection H as <-; constructor|intro H; inversion H; reflexivity].
  - cbn [typeof]; split.
    + destruct (typeof G m) as [km|] eqn:Em; [|discriminate]; destruct (G t) as [kt|] eqn:Et; [|discriminate]; cbn [obind].
      intro H; apply derives_iff in H; econstructor; eauto; apply IHn; reflexivity.
    + intro H; inversion H; subst.
      match goal with M : has_type G m _ |- _ => apply IHn in M; rewrite M end.
      match goal with E : G _ = Some _ |- _ => rewrite E end; apply derives_iff; assumption.
  - cbn [typeof]; split.
    + destruct (typeof G m) as [km|] eqn:Em; [|discriminate]; destruct (G key) as [kc|] eqn:Et; [|discriminate]; cbn [obind].
      intro H; assert (km = ty /\ kc = ty) as [-> ->].
      { destruct km, kc; try discriminate; try (injection H as <-; auto).
        destruct (dims_eqb ds ds0) eqn:E; [|discriminate]; injection H as <-; apply dims_eqb_ok in E; subst; auto. }
      constructor; auto; apply IHn; reflexivity.
    + intro H; inversion H; subst.
      match goal with M : has_type G m _ |- _ => apply IHn in M; rewrite M end.
      match goal with E : G _ = Some _ |- _ => rewrite E end; cbn [obind].
      destruct ty; try reflexivity; rewrite (proj2 (dims_eqb_ok _ _) eq_refl); reflexivity.
  - cbn [typeof]; rewrite IHn; split; [constructor; assumption|intro H; inversion H; assumption].
  - cbn [typeof]; split.
    + destruct (typeof G m) as [km|] eqn:Em; [|discriminate]; cbn; intro H; injection H as <-.
      apply type_sum with km; apply IHn; reflexivity.
    + intro H; inversion H; subst; match goal with M : has_type G m _ |- _ => apply IHn in M; rewrite M end; reflexivity.
  - cbn [typeof]; split.
    + destruct (typeof G l) as [k1|] eqn:E1; [|discriminate]; destruct (typeof G r) as [k2|] eqn:E2; [|discriminate]; cbn [obind].
      destruct k1; try discriminate; destruct k2; try discriminate; intro H; injection H as <-.
      constructor; [apply IHl|apply IHr]; reflexivity.
    + intro H; inversion H; subst.
      rewrite (proj2 (IHl KS)), (proj2 (IHr KS)) by assumption; reflexivity.
  - cbn [typeof]; rewrite (zip_rule _ _ _ _ IHl IHr); split;
      [intros (? & ? & ? & ? & ?); econstructor; eassumption|intro H; inversion H; subst; eauto].
  - cbn [typeof]; rewrite (zip_rule _ _ _ _ IHl IHr); split;
      [intros (? & ? & ? & ? & ?); econstructor; eassumption|intro H; inversion H; subst; eauto].
  - cbn [typeof]; rewrite (zip_rule _ _ _ _ IHl IHr); split;
      [intros (? & ? & ? & ? & ?); econstructor; eassumption|intro H; inversion H; subst; eauto].
  - cbn [typeof]; rewrite (zip_rule _ _ _ _ IHl IHr); split;
      [intros (? & ? & ? & ? & ?); econstructor; eassumption|intro H; inversion H; subst; eauto].
  - cbn [typeof]; split.
    + destruct (typeof G l) as [k1|] eqn:E1; [|discriminate]; destruct (typeof G r) as [k2|] eqn:E2; [|discriminate]; cbn [obind].
      intro H; apply contracts_iff in H; destruct H as (a & b & d & -> & -> & -> & C).
      apply type_contract with a b; auto; [apply IHl|apply IHr]; reflexivity.
    + intro H; inversion H; subst.
      match goal with M : has_type G l _ |- _ => apply IHl in M; rewrite M end.
      match goal with M : has_type G r _ |- _ => apply IHr in M; rewrite M end.
      cbn [obind]; apply contracts_iff; eauto 8.
Qed.
End Rules.

(** What evaluates has a type. *)
Section Complete.
Context {F : Type} {S : Scalar F}.

Lemma zip_map_types (f : F -> F -> F) x y v : zip_map_id f x y = Ok v ->
  exists k, zip_sty (sty_of (bty_of x)) (sty_of (bty_of y)) = Some k.
Proof.
  destruct x, y; cbn; try discriminate; try (intros _; eexists; reflexivity).
  destruct (dims_eqb _ _); [eauto|discriminate].
Qed.

Lemma zip_shape_types (x v : value F) t : zip_shape x t = Ok v ->
  exists k, zip_sty (sty_of (bty_of x)) (sty_of t) = Some k.
Proof.
  destruct x, t; cbn; try discriminate; try (intros _; eexists; reflexivity).
  destruct (dims_eqb _ _); [eauto|discriminate].
Qed.

Lemma zip_sty_comm a b k : zip_sty a b = Some k -> exists k', zip_sty b a = Some k'.
Proof.
  intro H; apply zips_iff in H; destruct H as [k|k N|k N]; exists k; apply zips_iff;
    [apply zips_same|apply zips_right; exact N|apply zips_left; exact N].
Qed.

Lemma bcast_types l r t : bty_wf l -> bty_wf r -> bcast_bty l r = Ok t -> exists k, zip_sty (sty_of l) (sty_of r) = Some k.
Proof.
  intros Wl Wr; unfold bcast_bty; destruct l as [| |n|a], r as [| |m|b]; cbn; try discriminate; try (intros _; eexists; reflexivity).
  destruct a as [|x a], b as [|y b]; cbn in *; try lia.
  destruct ((x =? y) && dims_eqb a b); [eauto|discriminate].
Qed.

Lemma zip_dense_types f (x y s : spec F) : spec_wf x -> spec_wf y -> zip_dense f x y = Ok s ->
  exists k, zip_sty (sty_of (spec_bty x)) (sty_of (spec_bty y)) = Some k.
Proof.
  intros Wx Wy H; unfold zip_dense in H.
  destruct (zip_map_id f (unwrap x) (unwrap y)) as [v|e| |] eqn:E; try discriminate.
  apply zip_map_types in E; rewrite !unwrap_bty in E by assumption; exact E.
Qed.

Ltac zipped := match goal with
  | H : zip_dense _ _ _ = Ok _ |- _ => apply zip_dense_types in H; [exact H|assumption..]
  | H : res_map _ ?r = Ok _ |- _ => let E := fresh in destruct r eqn:E; try discriminate H; clear H; zipped
  | H : res_map_err _ ?r = Ok _ |- _ => let E := fresh in destruct r eqn:E; try discriminate H; clear H; zipped
  | H : bcast_bty _ _ = Ok _ |- _ => apply bcast_types in H; [exact H|first [assumption|apply vwf_bty; assumption]..]
  | H : zip_shape _ _ = Ok _ |- _ => first
      [ apply zip_shape_types in H; exact H
      | apply zip_shape_types in H; destruct H as [? H]; apply zip_sty_comm in H; exact H ]
  end.

Lemma match_types op (x y s : spec F) : In op [add_match; sub_match; mul_match] -> spec_wf x -> spec_wf y ->
  op x y = Ok s -> exists k, zip_sty (sty_of (spec_bty x)) (sty_of (spec_bty y)) = Some k.
Proof.
  intros [<-|[<-|[<-|[]]]] Wx Wy; destruct x as [xv|sx fx|sx fx], y as [yv|sy fy|sy fy];
    cbn [add_match sub_match mul_match]; intro H; try (destruct (is_zero _)); cbn [spec_wf] in Wx, Wy; zipped.
Qed.

Lemma contract_types axes (x y s : spec F) : contract_spec axes x y = Ok s ->
  exists k, contract_sty axes (sty_of (spec_bty x)) (sty_of (spec_bty y)) = Some k.
Proof.
  unfold contract_spec; destruct axes as [|[|?]]; [| |discriminate];
    destruct (spec_bty x) as [| |?|[|n [|m [|? ?]]]], (spec_bty y) as [| |?|[|n' [|m' [|? ?]]]]; try discriminate;
    cbn; try (intros _; eexists; reflexivity);
    match goal with |- context [if ?c then _ else _] => destruct c end;
    try discriminate; intros _; eexists; reflexivity.
Qed.

Lemma power_types (x y s : spec F) : power_post x y = Ok s -> spec_bty x = TS /\ spec_bty y = TS.
Proof. unfold power_post; destruct (spec_bty x), (spec_bty y); try discriminate; auto. Qed.

Lemma both_inv {A B} (l : ctx F -> ctx F * res err A) (r : ctx F -> ctx F * res err B) k c c' s :
  both l r k c = (c', Ok s) -> exists c1 a b, l c = (c1, Ok a) /\ r c1 = (c', Ok b) /\ k a b = Ok s.
Proof.
  unfold both; destruct (l c) as [c1 [a|e| |]]; cbn; try discriminate.
  destruct (r c1) as [c2 [b|e| |]] eqn:R; cbn; try discriminate.
  intro H; injection H as -> K; exists c1, a, b; auto.
Qed.

Lemma both_eval_inv l r (k : value F -> value F -> res err (value F)) c c' v :
  both_eval l r k c = (c', Ok v) -> exists c1 a b, l c = (c1, Ok a) /\ r c1 = (c', Ok b) /\ k a b = Ok v.
Proof.
  unfold both_eval; destruct (l c) as [c1 [a|e| |]]; cbn; try discriminate.
  destruct (r c1) as [c2 [b|e| |]] eqn:R; cbn; try discriminate.
  intro H; injection H as -> K; exists c1, a, b; auto.
Qed.

Lemma by_spec_inv (sp : ctx F -> ctx F * res err (spec F)) c c' v :
  eval_by_spec sp c = (c', Ok v) -> exists s, sp c = (c', Ok s).
Proof.
  unfold eval_by_spec; destruct (sp c) as [c1 [s|e| |]]; cbn; try discriminate.
  intro H; injection H as -> _; eauto.
Qed.

Lemma default_inv (ev : ctx F -> ctx F * res err (value F)) c c' s :
  default_spec ev c = (c', Ok s) -> exists v, ev c = (c', Ok v).
Proof.
  unfold default_spec; destruct (ev c) as [c1 [v|e| |]]; cbn; try discriminate.
  intro H; injection H as -> _; eauto.
Qed.

Lemma pair_typed G (l r : node F) k c c' s :
  (forall c, ctx_ok G c -> forall c' s, evaluate_spec l c = (c', Ok s) -> exists k, typeof G l = Some k) ->
  (forall c, ctx_ok G c -> forall c' s, evaluate_spec r c = (c', Ok s) -> exists k, typeof G r = Some k) ->
  node_wf l -> node_wf r -> ctx_ok G c ->
  both (evaluate_spec l) (evaluate_spec r) k c = (c', Ok s) ->
  exists x y, typeof G l = Some (sty_of (spec_bty x)) /\ typeof G r = Some (sty_of (spec_bty y)) /\
    spec_wf x /\ spec_wf y /\ k x y = Ok s.
Proof.
  intros Hl Hr Wl Wr O H; apply both_inv in H; destruct H as (c1 & x & y & E1 & E2 & K).
  destruct (Hl c O c1 x E1) as [kl Tl]; destruct (typed_spec G l kl c Wl Tl O) as [O1 X]; rewrite E1 in O1, X.
  cbn [fst snd] in O1, X.
  destruct (Hr c1 O1 c' y E2) as [kr Tr]; destruct (typed_spec G r kr c1 Wr Tr O1) as [_ Y]; rewrite E2 in Y.
  cbn [fst snd] in Y; destruct X as [X1 <-], Y as [Y1 <-]; exists x, y; auto.
Qed.

Lemma zip_pair_typed G (l r : node F) op c c' s : In op [add_match; sub_match; mul_match] ->
  (forall c, ctx_ok G c -> forall c' s, evaluate_spec l c = (c', Ok s) -> exists k, typeof G l = Some k) ->
  (forall c, ctx_ok G c -> forall c' s, evaluate_spec r c = (c', Ok s) -> exists k, typeof G r = Some k) ->
  node_wf l -> node_wf r -> ctx_ok G c ->
  both (evaluate_spec l) (evaluate_spec r) (fun x y => res_map_err EOutput (op x y)) c = (c', Ok s) ->
  exists k, obind (typeof G l) (fun kl => obind (typeof G r) (fun kr => zip_sty kl kr)) = Some k.
Proof.
  intros Hop Hl Hr Wl Wr O H; destruct (pair_typed G l r _ c c' s Hl Hr Wl Wr O H) as (x & y & -> & -> & Wx & Wy & K).
  destruct (op x y) as [s'|e| |] eqn:E; try discriminate; exact (match_types op x y s' Hop Wx Wy E).
Qed.

Lemma complete G (n : node F) : node_wf n -> undifferentiated n ->
  (forall c, ctx_ok G c -> forall c' v, evaluate n c = (c', Ok v) -> exists k, typeof G n = Some k) /\
  (forall c, ctx_ok G c -> forall c' s, evaluate_spec n c = (c', Ok s) -> exists k, typeof G n = Some k).
Proof.
  unfold evaluate, evaluate_spec.
  induction n as [i|i t|v|s|m IH t|m IH key|u m IH|m IH|l IHl r IHr|l IHl r IHr|l IHl r IHr|l IHl r IHr|l IHl r IHr|axes l IHl r IHr];
    cbn [node_wf undifferentiated]; intros W U; try contradiction.
  - cbn [interp var_fn f_eval f_spec typeof]; unfold read, read_spec; split; intros c O c' v; destruct (c i) as [z|] eqn:E;
      cbn; try discriminate; intros _; exists (sty_of (bty_of z)); apply (O i z E).
  - split; cbn; eauto.
  - split; cbn; eauto.
  - destruct (IH W U) as [H1 H2]; split; intros c O c' v; cbn [interp unary_fn f_eval f_spec typeof].
    + destruct (f_eval (interp m) c) as [c1 [z|e| |]] eqn:E; cbn; try discriminate; intros _; exact (H1 c O _ _ E).
    + destruct (f_spec (interp m) c) as [c1 [z|e| |]] eqn:E; cbn; try discriminate; intros _; exact (H2 c O _ _ E).
  - destruct (IH W U) as [H1 H2]; split; intros c O c' v; cbn [interp sum_fn f_eval f_spec typeof].
    + destruct (f_eval (interp m) c) as [c1 [z|e| |]] eqn:E; cbn; try discriminate; intros _.
      destruct (H1 c O _ _ E) as [k ->]; exists KS; reflexivity.
    + destruct (f_spec (interp m) c) as [c1 [z|e| |]] eqn:E; cbn; try discriminate; intros _.
      destruct (H2 c O _ _ E) as [k ->]; exists KS; reflexivity.
  - destruct W as [Wl Wr], U as [Ul Ur]; destruct (IHl Wl Ul) as [_ Hl], (IHr Wr Ur) as [_ Hr].
    assert (X : forall c, ctx_ok G c -> forall c' s, f_spec (interp (Power l r)) c = (c', Ok s) ->
      exists k, typeof G (Power l r) = Some k).
    { intros c O c' s H; destruct (pair_typed G l r _ c c' s Hl Hr Wl Wr O H) as (x & y & E1 & E2 & Wx & Wy & K).
      cbn [typeof]; rewrite E1, E2; apply power_types in K; destruct K as [-> ->]; exists KS; reflexivity. }
    split; [|exact X]; intros c O c' v H; apply by_spec_inv in H; destruct H as [s H]; exact (X c O c' s H).
  - destruct W as [Wl Wr], U as [Ul Ur]; destruct (IHl Wl Ul) as [_ Hl], (IHr Wr Ur) as [_ Hr].
    assert (X : forall c, ctx_ok G c -> forall c' s, f_spec (interp (Add l r)) c = (c', Ok s) ->
      exists k, typeof G (Add l r) = Some k).
    { intros c O c' s H; exact (zip_pair_typed G l r add_match c c' s (or_introl eq_refl) Hl Hr Wl Wr O H). }
    split; [|exact X]; intros c O c' v H; apply by_spec_inv in H; destruct H as [s H]; exact (X c O c' s H).
  - destruct W as [Wl Wr], U as [Ul Ur]; destruct (IHl Wl Ul) as [_ Hl], (IHr Wr Ur) as [_ Hr].
    assert (X : forall c, ctx_ok G c -> forall c' s, f_spec (interp (Sub l r)) c = (c', Ok s) ->
      exists k, typeof G (Sub l r) = Some k).
    { intros c O c' s H; exact (zip_pair_typed G l r sub_match c c' s (or_intror (or_introl eq_refl)) Hl Hr Wl Wr O H). }
    split; [|exact X]; intros c O c' v H; apply by_spec_inv in H; destruct H as [s H]; exact (X c O c' s H).
  - destruct W as [Wl Wr], U as [Ul Ur]; destruct (IHl Wl Ul) as [_ Hl], (IHr Wr Ur) as [_ Hr].
    assert (X : forall c, ctx_ok G c -> forall c' s, f_spec (interp (Mul l r)) c = (c', Ok s) ->
      exists k, typeof G (Mul l r) = Some k).
    { intros c O c' s H; exact (zip_pair_typed G l r mul_match c c' s (or_intror (or_intror (or_introl eq_refl))) Hl Hr Wl Wr O H). }
    split; [|exact X]; intros c O c' v H; apply by_spec_inv in H; destruct H as [s H]; exact (X c O c' s H).
  - destruct W as [Wl Wr], U as [Ul Ur]; destruct (IHl Wl Ul) as [Hl _], (IHr Wr Ur) as [Hr _].
    assert (X : forall c, ctx_ok G c -> forall c' v, f_eval (interp (Div l r)) c = (c', Ok v) ->
      exists k, typeof G (Div l r) = Some k).
    { intros c O c' v H.
      change (both_eval (f_eval (interp l)) (f_eval (interp r)) (fun x y => res_map_err EOutput (zip_map_id fdiv x y)) c = (c', Ok v)) in H.
      apply both_eval_inv in H; destruct H as (c1 & x & y & E1 & E2 & K).
      destruct (Hl c O c1 x E1) as [kl Tl]; destruct (typed_eval G l kl c Wl Tl O) as [O1 X]; unfold evaluate in O1, X.
      rewrite E1 in O1, X; cbn [fst snd] in O1, X.
      destruct (Hr c1 O1 c' y E2) as [kr Tr]; destruct (typed_eval G r kr c1 Wr Tr O1) as [_ Y]; unfold evaluate in Y.
      rewrite E2 in Y; cbn [fst snd] in Y; cbn [typeof]; rewrite Tl, Tr; destruct X as [_ <-], Y as [_ <-].
      destruct (zip_map_id fdiv x y) as [z|e| |] eqn:E; try discriminate; exact (zip_map_types _ _ _ _ E). }
    split; [exact X|]; intros c O c' s H; apply default_inv in H; destruct H as [v H]; exact (X c O c' v H).
  - destruct W as [Wl Wr], U as [Ul Ur]; destruct (IHl Wl Ul) as [_ Hl], (IHr Wr Ur) as [_ Hr].
    assert (X : forall c, ctx_ok G c -> forall c' s, f_spec (interp (Contract axes l r)) c = (c', Ok s) ->
      exists k, typeof G (Contract axes l r) = Some k).
    { intros c O c' s H; destruct (pair_typed G l r _ c c' s Hl Hr Wl Wr O H) as (x & y & E1 & E2 & Wx & Wy & K).
      destruct (contract_spec axes x y) as [s'|e| |] eqn:E; try discriminate.
      cbn [typeof]; rewrite E1, E2; exact (contract_types _ _ _ _ E). }
    split; [|exact X]; intros c O c' v H; apply by_spec_inv in H; destruct H as [s H]; exact (X c O c' s H).
Qed.

Lemma evaluates_typed G (n : node F) c c' v : node_wf n -> undifferentiated n -> ctx_ok G c ->
  evaluate n c = (c', Ok v) -> has_type G n (sty_of (bty_of v)).
Proof.
  intros W U O H; destruct (proj1 (complete G n W U) c O c' v H) as [k T].
  destruct (typed_eval G n k c W T O) as [_ X]; rewrite H in X; cbn [snd] in X; destruct X as [_ ->].
  apply rules; exact T.
Qed.
End Complete.

Lemma one_type {F} G (n : node F) k k' : has_type G n k -> has_type G n k' -> k = k'.
Proof. intros H H'; apply rules in H; apply rules in H'; congruence. Qed.
