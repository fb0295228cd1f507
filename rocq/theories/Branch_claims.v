(** Operators that decide by a comparison, at every floating-point number. *)
From Coq Require Import List Arith ZArith Reals SpecFloat Lia Lra.
Import ListNotations.
From Verif Require Import Base Shapes Scalar Buffers Spec Contraction Node Eval Types Instances
  Vocab Math Float_math Branch_math Buffers_facts Progress_facts Float_facts Float_claims.
From Flocq Require Import Core.
Local Open Scope R_scope.

Section Branch.
Context {prec emax : Z} {Fm : Format prec emax}.
Variables (pow : f64 -> f64 -> f64) (lib : libfn -> f64 -> f64).
#[local] Instance Sf : Scalar f64 := float_scalar prec emax pow lib.

Lemma small_one z : (Z.abs z <= 1)%Z -> (Z.abs z <= 2 ^ prec)%Z.
Proof. assert (FB : (2 <= prec < emax)%Z) by exact Fm; intro H; assert (1 <= 2 ^ prec)%Z; [|lia]. apply (Z.pow_le_mono_r 2 0 prec); lia. Qed.

Lemma unit_one : unit_of_sign false (float_of_Z prec emax 1).
Proof. apply (of_Z_small (prec := prec) (emax := emax) 1), small_one; lia. Qed.
Lemma unit_minus : unit_of_sign true (float_of_Z prec emax (-1)).
Proof. apply (of_Z_small (prec := prec) (emax := emax) (-1)), small_one; lia. Qed.

Lemma decide u x : decided prec emax lib u x (un_fn u x).
Proof.
  destruct u; cbn [decided un_fn]; auto; unfold is_zero; cbn [feq fle fzero finf fneg fabs fsignum fmul flib Sf float_scalar f64_zero].
  - destruct x as [[]|[]| |[] m e]; reflexivity.
  - destruct x as [[]|[]| |[] m e]; reflexivity.
  - destruct x as [[]|[]| |[] m e]; cbn; auto using unit_one, unit_minus.
  - destruct x as [[]|[]| |[] m e]; cbn; auto.
Qed.

Lemma decided_entries u (m : node f64) (c c' : ctx f64) v : evaluate m c = (c', Ok v) ->
  exists w, evaluate (Un u m) c = (c', Ok w) /\ bty_of w = bty_of v /\
  forall ix, vwf v -> in_box (dims (vshape v)) ix -> decided prec emax lib u (vat f64_zero v ix) (vat f64_zero w ix).
Proof.
  intro E; exists (vmutate (un_fn u) v); unfold evaluate in *; cbn [interp unary_fn f_eval]; rewrite E; cbn [res_map].
  rewrite vmutate_vmap; split; [reflexivity|split; [apply vmap_bty|]].
  intros ix W H; erewrite vat_vmap; eauto; apply decide.
Qed.

(** ** Gradients of the absolute value and of the sign *)
Lemma one_form : exists m e, float_of_Z prec emax 1 = S754_finite false m e.
Proof.
  destruct unit_one as [Fi Re]; destruct (float_of_Z prec emax 1) as [s|s| |s m e]; cbn in *; try contradiction; try lra.
  destruct s; eauto.
  exfalso; assert (0 < powerRZ 2 e) by (apply powerRZ_lt; lra); assert (0 < IZR (Z.pos m)) by (apply IZR_lt; lia).
  assert (0 < IZR (Z.pos m) * powerRZ 2 e) by (apply Rmult_lt_0_compat; lra); lra.
Qed.

Lemma unit_times z : (Z.abs z <= 1)%Z ->
  finite (SFmul prec emax (float_of_Z prec emax z) (float_of_Z prec emax 1)) /\
  f64_real (SFmul prec emax (float_of_Z prec emax z) (float_of_Z prec emax 1)) = IZR z.
Proof.
  intro Hz; destruct (of_Z_small (prec := prec) (emax := emax) z (small_one z Hz)) as [F1 R1].
  destruct (of_Z_small (prec := prec) (emax := emax) 1 (small_one 1 (Z.le_refl _))) as [F2 R2].
  destruct (mul_real (prec := prec) (emax := emax) _ _ (proj1 (of_Z_real z)) (proj1 (of_Z_real 1))) as (_ & M1 & M2).
  rewrite R1, R2, Rmult_1_r, (rnd_id _ (int_format z (small_one z Hz))) in *.
  assert (Fi := M2 F1 F2 (int_small z (small_one z Hz))); auto.
Qed.

Lemma adjoint_run u m' i (c : ctx f64) (x : f64) : c i = Some (VScal x) ->
  un_adjoint (F := f64) u (Var i) (VarAdj i i) = Some (Mul (Un m' (Var i)) (VarAdj i i)) ->
  evaluate_adjoint (Un u (Var i)) i c = Some (c, Ok (VScal (SFmul prec emax (un_fn m' x) (float_of_Z prec emax 1)))).
Proof.
  intros C A; unfold evaluate_adjoint; cbn [adjoint obind]; rewrite A; cbn [option_map].
  unfold evaluate; cbn [interp]; unfold mul_fn; cbn [f_eval f_spec unary_fn var_fn varadj_fn].
  unfold eval_by_spec, both, varadj_spec, read_spec, read_bty, read; rewrite C; cbn; rewrite Nat.eqb_refl; cbn.
  reflexivity.
Qed.

Lemma abs_gradient i (c : ctx f64) x : c i = Some (VScal x) ->
  exists y, evaluate_adjoint (Un Abs (Var i)) i c = Some (c, Ok (VScal y)) /\ decided prec emax lib Sign x y.
Proof.
  intro C; eexists; split; [apply (adjoint_run Abs Sign i c x C eq_refl)|].
  destruct one_form as (m & e & O); destruct x as [s|s| |s m0 e0]; cbn [decided un_fn]; unfold is_zero;
    cbn [feq fzero fsignum Sf float_scalar f64_zero SFeqb SFcompare].
  - rewrite O; cbn; destruct s; reflexivity.
  - destruct s; [exact (unit_times (-1) ltac:(lia))|exact (unit_times 1 ltac:(lia))].
  - cbn; reflexivity.
  - destruct s; [exact (unit_times (-1) ltac:(lia))|exact (unit_times 1 ltac:(lia))].
Qed.

Lemma sign_gradient i (c : ctx f64) x : c i = Some (VScal x) ->
  exists y, evaluate_adjoint (Un Sign (Var i)) i c = Some (c, Ok (VScal y)) /\ decided prec emax lib Dirac x y.
Proof.
  intro C; eexists; split; [apply (adjoint_run Sign Dirac i c x C eq_refl)|].
  destruct one_form as (m & e & O); rewrite O.
  destruct x as [[]|[]| |[] m0 e0]; reflexivity.
Qed.
End Branch.

Lemma values_decided (prec emax : Z) : (2 <= prec < emax)%Z ->
  forall pow lib, let S := float_scalar prec emax pow lib in
  forall u (m : node f64) (c c' : ctx f64) v, ctx_wf c -> node_wf m -> evaluate m c = (c', Ok v) ->
  exists w, evaluate (Un u m) c = (c', Ok w) /\ vshape w = vshape v /\
  forall ix, in_box (dims (vshape v)) ix -> decided prec emax lib u (vat f64_zero v ix) (vat f64_zero w ix).
Proof.
  intros Fm pow lib S u m c c' v Wc Wm E; destruct (@decided_entries prec emax Fm pow lib u m c c' v E) as (w & E1 & E2 & E3).
  exists w; split; [exact E1|split; [unfold vshape; rewrite E2; reflexivity|]].
  intros ix H; apply E3; auto.
  destruct (wf_all m Wm) as (W & _); apply (proj2 (W c Wc) v); unfold evaluate in E; rewrite E; reflexivity.
Qed.
