(** Proofs about dual numbers in the form used by Properties_dual.v. *)
From Coq Require Import List Arith ZArith Reals Bool Lia Lra Ring_theory Ring.
Import ListNotations.
From Verif Require Import Base Shapes Scalar Buffers Spec Contraction Node Eval Types Instances
  Vocab Math Real_math Calculus Index_facts Buffers_facts Eval_facts Progress_facts Eval_claims Buffer_claims Zero_facts Calculus_claims Dual Dual_math.

Section Ring.
Context {R : Type} {z o : R} {add mul sub : R -> R -> R} {opp : R -> R}.
Hypothesis T : ring_theory z o add mul sub opp eq.
Add Ring RR : T.
Notation rd := (reading add mul).

Lemma dual_eps : forall (x y : dual R R) r e,
  rd e (dual_neg opp opp x) = opp (rd e x) /\
  rd e (dual_add add add x y) = add (rd e x) (rd e y) /\
  rd e (dual_add_val add x r) = add (rd e x) r /\
  rd e (dual_sub sub sub x y) = sub (rd e x) (rd e y) /\
  rd e (dual_sub_val sub x r) = sub (rd e x) r /\
  add (rd e (dual_mul mul mul add x y)) (mul (mul (d_adjoint x) (d_adjoint y)) (mul e e)) =
    mul (rd e x) (rd e y) /\
  dual_mul_ref mul mul mul add x y = dual_mul mul mul add x y.
Proof.
  intros [a b] [c d] r e; unfold dual_neg, dual_map, dual_from, dual_add, dual_add_val, dual_sub,
    dual_sub_val, dual_mul, dual_mul_ref, reading; cbn [d_value d_adjoint fst snd].
  repeat split; try ring; f_equal; ring.
Qed.

Lemma dual_mul_plain : forall (x : dual R R) r,
  dual_mul_val mul x r = dual_mul mul mul add x (Dual r z) <->
  mul (d_adjoint x) r = d_adjoint x.
Proof.
  intros [a b] r; unfold dual_mul_val, dual_mul; cbn [d_value d_adjoint].
  assert (E : add (mul b r) (mul z a) = mul b r) by ring.
  split.
  - intro H; injection H as H; rewrite E in H; auto.
  - intro H; rewrite E, H; reflexivity.
Qed.

Lemma dual_plain : forall (x : dual R R) r,
  dual_add_val add x r = dual_add add add x (Dual r z) /\
  dual_sub_val sub x r = dual_sub sub sub x (Dual r z).
Proof.
  intros [a b] r; unfold dual_add_val, dual_add, dual_sub_val, dual_sub; cbn [d_value d_adjoint].
  split; f_equal; ring.
Qed.

Lemma dual_ring : forall x y w : dual R R,
  dual_mul mul mul add x y = dual_mul mul mul add y x /\
  dual_mul mul mul add (dual_mul mul mul add x y) w = dual_mul mul mul add x (dual_mul mul mul add y w) /\
  dual_mul mul mul add (dual_add add add x y) w =
    dual_add add add (dual_mul mul mul add x w) (dual_mul mul mul add y w) /\
  dual_mul mul mul add x (Dual o z) = x /\
  dual_add add add x (dual_neg opp opp x) = Dual z z /\
  dual_sub sub sub x y = dual_add add add x (dual_neg opp opp y) /\
  dual_mul mul mul add (Dual z o) (Dual z o) = Dual z z.
Proof.
  intros [a b] [c d] [e f]; unfold dual_neg, dual_map, dual_from, dual_add, dual_sub, dual_mul;
    cbn [d_value d_adjoint fst snd].
  repeat split; f_equal; ring.
Qed.
End Ring.

Lemma dual_derivative : forall f g t (x y : dual R R) r, tracks f t x -> tracks g t y ->
  tracks (fun s => - f s)%R t (dual_neg Ropp Ropp x) /\
  tracks (fun s => f s + g s)%R t (dual_add Rplus Rplus x y) /\
  tracks (fun s => f s + r)%R t (dual_add_val Rplus x r) /\
  tracks (fun s => f s - g s)%R t (dual_sub Rminus Rminus x y) /\
  tracks (fun s => f s - r)%R t (dual_sub_val Rminus x r) /\
  tracks (fun s => f s * g s)%R t (dual_mul Rmult Rmult Rplus x y) /\
  tracks (fun s => f s * g s)%R t (dual_mul_ref Rmult Rmult Rmult Rplus x y).
Proof.
  intros f g t [a b] [c d] r [Ef Df] [Eg Dg]; unfold tracks, dual_neg, dual_map, dual_from, dual_add,
    dual_add_val, dual_sub, dual_sub_val, dual_mul, dual_mul_ref in *;
    cbn [d_value d_adjoint fst snd] in *.
  pose proof (derivable_pt_lim_const r t) as Dr; unfold fct_cte in Dr.
  repeat split; try (rewrite Ef, ?Eg; auto).
  - exact (derivable_pt_lim_opp _ _ _ Df).
  - exact (derivable_pt_lim_plus _ _ _ _ _ Df Dg).
  - replace b with (b + 0)%R by ring; exact (derivable_pt_lim_plus _ _ _ _ _ Df Dr).
  - exact (derivable_pt_lim_minus _ _ _ _ _ Df Dg).
  - replace b with (b - 0)%R by ring; exact (derivable_pt_lim_minus _ _ _ _ _ Df Dr).
  - pose proof (derivable_pt_lim_mult _ _ _ _ _ Df Dg) as M; rewrite Ef, Eg in M.
    replace (b * c + d * a)%R with (b * c + a * d)%R by ring; exact M.
  - pose proof (derivable_pt_lim_mult _ _ _ _ _ Df Dg) as M; rewrite Ef, Eg in M; exact M.
Qed.

Lemma dual_start : forall F (S : Scalar F) (b : value F) d ix, vwf b -> in_box (dims (vshape b)) ix ->
  d_value (dual_variable b) = b /\ d_value (dual_constant b) = b /\
  vshape (d_adjoint (dual_variable b)) = vshape b /\ vat d (d_adjoint (dual_variable b)) ix = fone /\
  vshape (d_adjoint (dual_constant b)) = vshape b /\ vat d (d_adjoint (dual_constant b)) ix = fzero.
Proof.
  intros F S b d ix W B; unfold dual_variable, dual_constant; cbn [d_value d_adjoint].
  destruct (@constant_buffers _ S (bty_of b) fone) as [[E1 _] V1]; destruct (V1 d ix B) as [A1 _].
  destruct (@constant_buffers _ S (bty_of b) fzero) as [[E0 _] V0]; destruct (V0 d ix B) as [A0 _].
  unfold vshape; rewrite E1, E0; auto 10.
Qed.

Lemma dual_conj_entries : forall V F (S : Scalar F) (x : dual V (value F)) d ix, vwf (d_adjoint x) ->
  in_box (dims (vshape (d_adjoint x))) ix ->
  d_value (dual_conj x) = d_value x /\
  vshape (d_adjoint (dual_conj x)) = vshape (d_adjoint x) /\
  vat d (d_adjoint (dual_conj x)) ix = fneg (vat d (d_adjoint x) ix).
Proof.
  intros V F S [v a] d ix W B; unfold dual_conj; cbn [d_value d_adjoint] in *.
  destruct (@mapping _ _ fneg fneg a W) as (E & _ & M & _).
  unfold vshape; rewrite E; split; [auto|split; [auto|apply M; auto]].
Qed.

Lemma dual_pairs : forall F (S : Scalar F) (n : node F) t (c : ctx F),
  (evaluate_dual n t c = None <-> adjoint n t = None) /\
  (forall c2 v w, evaluate_dual n t c = Some (c2, Ok (Dual v w)) <->
     exists c1, evaluate n c = (c1, Ok v) /\ evaluate_adjoint n t c1 = Some (c2, Ok w)) /\
  (forall c1 e, evaluate_dual n t c = Some (c1, Err (ELeft e)) <->
     adjoint n t <> None /\ evaluate n c = (c1, Err e)) /\
  (forall c2 e, evaluate_dual n t c = Some (c2, Err (ERight e)) <->
     exists c1 v, evaluate n c = (c1, Ok v) /\ evaluate_adjoint n t c1 = Some (c2, Err e)) /\
  (forall c2 e, evaluate_dual n t c = Some (c2, Err e) -> exists e', e = ELeft e' \/ e = ERight e').
Proof.
  intros F S n t c; unfold evaluate_dual, evaluate_adjoint.
  destruct (adjoint n t) as [n'|]; cbn [option_map].
  2: { split; [tauto|]; split; [|split; [|split]]; intros; try split; try discriminate.
       - intros (c1 & _ & H); discriminate.
       - intros [H _]; congruence.
       - intros (c1 & v & _ & H); discriminate. }
  split; [split; discriminate|].
  destruct (evaluate n c) as [c1 x]; destruct x as [v|e| |]; cbn [res_map_err].
  - destruct (evaluate n' c1) as [c2 y] eqn:E2; destruct y as [w|e| |]; cbn [res_map_err].
    + split; [|split; [|split]]; intros.
      * split; [intro H; injection H as <- <- <-; exists c1; rewrite E2; auto|].
        intros (c3 & H & H1); injection H as <- <-; rewrite E2 in H1; injection H1 as <- <-; auto.
      * split; [discriminate|intros [_ H]; discriminate].
      * split; [discriminate|intros (c3 & v1 & H & H1); injection H as <- <-; rewrite E2 in H1; discriminate].
      * discriminate.
    + split; [|split; [|split]]; intros.
      * split; [discriminate|]; intros (c3 & H & H1); injection H as <- <-; rewrite E2 in H1; discriminate.
      * split; [discriminate|intros [_ H]; discriminate].
      * split; [intro H; injection H as <- <-; exists c1, v; rewrite E2; auto|].
        intros (c3 & v1 & H & H1); injection H as <- <-; rewrite E2 in H1; injection H1 as <- <-; auto.
      * injection H as <- <-; eauto.
    + split; [|split; [|split]]; intros.
      * split; [discriminate|]; intros (c3 & H & H1); injection H as <- <-; rewrite E2 in H1; discriminate.
      * split; [discriminate|intros [_ H]; discriminate].
      * split; [discriminate|intros (c3 & v1 & H & H1); injection H as <- <-; rewrite E2 in H1; discriminate].
      * discriminate.
    + split; [|split; [|split]]; intros.
      * split; [discriminate|]; intros (c3 & H & H1); injection H as <- <-; rewrite E2 in H1; discriminate.
      * split; [discriminate|intros [_ H]; discriminate].
      * split; [discriminate|intros (c3 & v1 & H & H1); injection H as <- <-; rewrite E2 in H1; discriminate].
      * discriminate.
  - split; [|split; [|split]]; intros.
    + split; [discriminate|intros (c3 & H & _); discriminate].
    + split; [intro H; injection H as <- <-; split; [discriminate|auto]|intros [_ H]; injection H as <- <-; auto].
    + split; [discriminate|intros (c3 & v1 & H & _); discriminate].
    + injection H as <- <-; eauto.
  - split; [|split; [|split]]; intros; try split; try discriminate;
      try (intros (c3 & H & _); discriminate); try (intros [_ H]; discriminate);
      try (intros (c3 & v1 & H & _); discriminate).
  - split; [|split; [|split]]; intros; try split; try discriminate;
      try (intros (c3 & H & _); discriminate); try (intros [_ H]; discriminate);
      try (intros (c3 & v1 & H & _); discriminate).
Qed.

Lemma dual_cache_free : forall F (S : Scalar F) (n : node F) t (c c' : ctx F) v w,
  cache_free n = true ->
  (evaluate_dual n t c = Some (c', Ok (Dual v w)) <->
   c' = c /\ evaluate n c = (c, Ok v) /\ evaluate_adjoint n t c = Some (c, Ok w)).
Proof.
  intros F S n t c c' v w Cf.
  destruct (dual_pairs F S n t c) as (_ & P & _); rewrite P; clear P.
  destruct (cache_free_ctx n Cf) as (K & _ & _); unfold evaluate, evaluate_adjoint.
  split.
  - intros (c1 & E1 & E2); specialize (K c); rewrite E1 in K; cbn in K; subst c1.
    destruct (adjoint n t) as [n'|] eqn:A; [|discriminate]; cbn [option_map] in *.
    destruct (cache_free_ctx n' (adjoint_cache_free _ _ _ Cf A)) as (K' & _ & _).
    specialize (K' c); injection E2 as E2; unfold evaluate in E2; rewrite E2 in K'; cbn in K'; subst c'.
    unfold evaluate; rewrite E2; auto.
  - intros (-> & E1 & E2); eauto.
Qed.

Lemma dual_panics : forall F (S : Scalar F) (n : node F) t (c c' : ctx F),
  evaluate_dual n t c = Some (c', Panic) <->
  (adjoint n t <> None /\ evaluate n c = (c', Panic)) \/
  (exists c1 v, evaluate n c = (c1, Ok v) /\ evaluate_adjoint n t c1 = Some (c', Panic)).
Proof.
  intros F S n t c c'; unfold evaluate_dual, evaluate_adjoint; destruct (adjoint n t) as [n'|]; cbn [option_map].
  2: { split; [discriminate|]; intros [[H _]|(c1 & v & _ & H)]; [congruence|discriminate]. }
  destruct (evaluate n c) as [c1 [v|e| |]]; cbn [res_map_err].
  - destruct (evaluate n' c1) as [c2 [w|e| |]] eqn:E; cbn [res_map_err]; split.
    all: try discriminate.
    all: try (intros [[_ H]|(c3 & u & H & H1)]; [discriminate|injection H as <- <-; rewrite E in H1; inversion H1; reflexivity]).
    intro H; injection H as <-; right; exists c1, v; rewrite E; auto.
  - split; [discriminate|]; intros [[_ H]|(c3 & u & H & _)]; discriminate.
  - split; [intro H; injection H as <-; left; split; [discriminate|reflexivity]|].
    intros [[_ H]|(c3 & u & H & _)]; [injection H as <-; reflexivity|discriminate].
  - split; [discriminate|]; intros [[_ H]|(c3 & u & H & _)]; discriminate.
Qed.

Lemma dual_gradient : forall inf sp G (c : ctx R) t (n n' : node R),
  let S := R_scalar inf sp in
  posed G c t n n' -> regular (real_un inf sp) c n -> smooth inf sp c t n ->
  exists v w x,
    evaluate_dual n t c = Some (c, Ok (Dual v w)) /\ c t = Some x /\
    dims (vshape w) = dims (vshape v) ++ dims (vshape x) /\
    forall i j, in_box (dims (vshape v)) i -> in_box (dims (vshape x)) j ->
      vat 0%R v i = entry inf sp n c i /\
      derivable_pt_lim (fun h => entry inf sp n (bump c t j h) i) 0%R (vat 0%R w (i ++ j)).
Proof.
  intros inf sp G c t n n' S P Rg Sm.
  destruct (jacobian_real inf sp G c t n n' P Rg Sm) as (v & w & x & Ev & Ew & Ex & D & J).
  exists v, w, x; split; [|split; [auto|split; [auto|]]].
  - apply dual_cache_free; auto; apply (p_free _ _ _ _ _ P).
  - intros i j Bi Bj; split; auto; unfold entry; rewrite Ev; auto.
Qed.

Lemma dual_scale_wrong : exists f t (x : dual R R) r, tracks f t x /\
  ~ tracks (fun s => f s * r)%R t (dual_mul_val Rmult x r).
Proof.
  exists (fun s => s), 0%R, (Dual 0 1)%R, 2%R; split; [split; [reflexivity|apply derivable_pt_lim_id]|].
  intros [_ D]; cbn [d_adjoint dual_mul_val] in D.
  assert (E : derivable_pt_lim (fun s => s * 2)%R 0%R (1 * 2 + 0 * 0)%R).
  { exact (derivable_pt_lim_mult _ _ _ _ _ (derivable_pt_lim_id 0%R) (derivable_pt_lim_const 2%R 0%R)). }
  pose proof (uniqueness_limite _ _ _ _ D E); lra.
Qed.
