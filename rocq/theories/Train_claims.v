(** Signs in the linear regression example, in the form used by Properties_sign.v. *)
From Coq Require Import List Arith ZArith Bool Lia SpecFloat.
Import ListNotations.
From Verif Require Import Base Shapes Scalar Buffers Spec Contraction Node Eval Types Instances
  Vocab Float_math Programs Float_facts Programs_facts Programs_claims Regression_claims Sign_math Sign_claims.

Section Training.
Variables (prec emax : Z).
Context (Fm : (2 <= prec < emax)%Z).
Variables (pow : f64 -> f64 -> f64) (lib : libfn -> f64 -> f64).
#[local] Instance train_scalar : Scalar f64 := float_scalar prec emax pow lib.

Lemma mirrored_length p (l l' : list f64) : Forall2 (mirrored p) l l' -> length l = length l'.
Proof. induction 1; cbn; auto. Qed.

Lemma valid_mirrored q x y : mirrored q x y -> float_valid prec emax x -> float_valid prec emax y.
Proof.
  intros [->|[_ Y]] V; [destruct q, x; exact V|]. destruct y; try contradiction; reflexivity.
Qed.

Lemma dot_mirrored p q xs xs' ws ws' : Forall2 (mirrored q) xs xs' -> Forall2 (mirrored p) ws ws' ->
  mirrored (xorb q p) (dotted xs ws) (dotted xs' ws').
Proof.
  intros X W; unfold dotted.
  enough (G : forall z z', mirrored (xorb q p) z z' -> mirrored (xorb q p)
    (fold_left (fun acc r => fadd acc (fmul (fst r) (snd r))) (combine xs ws) z)
    (fold_left (fun acc r => fadd acc (fmul (fst r) (snd r))) (combine xs' ws') z'))
    by (apply G, mirrored_zero).
  revert ws ws' W; induction X as [|x x' xs xs' Hx X IH]; intros ws ws' W z z' Z; [exact Z|].
  destruct W as [|w w' ws ws' Hw W]; [exact Z|]; cbn [combine fold_left fst snd].
  apply IH; [exact W|]; apply add_mirrored; [exact Z|apply mul_mirrored; assumption].
Qed.

Lemma step_mirrored rate p q tw tw' ws ws' xs xs' :
  Forall2 (mirrored p) tw tw' -> Forall2 (mirrored p) ws ws' -> Forall2 (mirrored q) xs xs' -> length xs = length ws ->
  exists r r', linear_step linear_raw rate tw ws xs = Ok r /\ linear_step linear_raw rate tw' ws' xs' = Ok r' /\
    Forall2 (mirrored p) r r' /\ length r = length ws.
Proof.
  intros T W X L.
  assert (L' : length xs' = length ws') by (rewrite <- (mirrored_length _ _ _ X), <- (mirrored_length _ _ _ W); exact L).
  assert (R : forall tw ws xs, length xs = length ws -> linear_step linear_raw rate tw ws xs =
    Ok (descend rate ws (map (fun x => fmul x (fmul ftwo (fsub (dotted xs ws) (dotted xs tw)))) xs))).
  { clear; intros tw ws xs L; unfold linear_step; rewrite (raw_linear _ _ _ L); cbn [unwrap_array].
    rewrite elements_array, map_length, L, Nat.eqb_refl; reflexivity. }
  rewrite !R by assumption; do 2 eexists; split; [reflexivity|split; [reflexivity|]]; split.
  2:{ unfold descend; rewrite map_length, combine_length, map_length, L, Nat.min_id; reflexivity. }
  assert (E : mirrored (xorb q p) (fmul ftwo (fsub (dotted xs ws) (dotted xs tw)))
                                  (fmul ftwo (fsub (dotted xs' ws') (dotted xs' tw')))).
  { rewrite <- (xorb_false_l (xorb q p)); apply mul_mirrored; [apply mirrored_refl|].
    apply sub_mirrored; apply dot_mirrored; assumption. }
  revert E; generalize (fmul ftwo (fsub (dotted xs ws) (dotted xs tw))), (fmul ftwo (fsub (dotted xs' ws') (dotted xs' tw'))).
  intros e e' E; clear R L L' T tw tw'; unfold descend; revert ws ws' W.
  induction X as [|x x' xs xs' Hx X IH]; intros ws ws' W; destruct W as [|w w' ws ws' Hw W]; cbn [map combine]; try constructor.
  - cbn [fst snd]; apply sub_mirrored; [exact Hw|].
    assert (K := mul_mirrored prec emax q (xorb q p) x x' e e' Hx E).
    rewrite <- xorb_assoc, xorb_nilpotent, xorb_false_l in K.
    assert (K' := mul_mirrored prec emax false p _ _ _ _ (mirrored_refl rate) K); rewrite xorb_false_l in K'; exact K'.
  - apply IH; exact W.
Qed.

Lemma raw_mirrored rate p tw tw' draws draws' : Forall2 (mirrored p) tw tw' ->
  Forall2 (fun xs xs' => exists q, Forall2 (mirrored q) xs xs') draws draws' ->
  forall ws ws', Forall2 (mirrored p) ws ws' -> Forall (fun xs => length xs = length ws) draws ->
  exists r r', linear_run linear_raw rate tw ws draws = Ok r /\ linear_run linear_raw rate tw' ws' draws' = Ok r' /\
    Forall2 (mirrored p) r r'.
Proof.
  intros T D; induction D as [|xs xs' draws draws' [q X] D IH]; intros ws ws' W L; cbn [linear_run]; [eauto|].
  inversion L as [|? ? L1 L2]; subst.
  destruct (step_mirrored rate p q tw tw' ws ws' xs xs' T W X L1) as (r & r' & -> & -> & R & Lr); cbn [res_bind].
  apply IH; [exact R|]. rewrite Lr; exact L2.
Qed.

Lemma training_mirrored rate p tw tw' ws ws' draws draws' :
  Forall2 (mirrored p) tw tw' -> Forall2 (mirrored p) ws ws' ->
  Forall2 (fun xs xs' => exists q, Forall2 (mirrored q) xs xs') draws draws' ->
  Forall (fun xs => length xs = length ws /\ Forall (float_valid prec emax) xs) draws ->
  exists r r', linear_run linear_auto rate tw ws draws = Ok r /\ linear_run linear_auto rate tw' ws' draws' = Ok r' /\
    Forall2 (mirrored p) r r'.
Proof.
  intros T W D V.
  assert (V' : Forall (fun xs => length xs = length ws' /\ Forall (float_valid prec emax) xs) draws').
  { rewrite <- (mirrored_length _ _ _ W); clear T; revert V; induction D as [|xs xs' draws draws' [q X] D IH]; intro V; [constructor|].
    inversion V as [|? ? [L A] B]; subst; constructor; [|apply IH; exact B].
    split; [rewrite <- (mirrored_length _ _ _ X); exact L|].
    clear - X A; revert A; induction X as [|x x' xs xs' Hx X IH]; intro A; constructor; inversion A; subst.
    - eapply valid_mirrored; eauto.
    - apply IH; assumption. }
  destruct (@format_runs_same prec emax Fm pow lib rate tw ws draws V) as (r & A & _ & B & _).
  destruct (@format_runs_same prec emax Fm pow lib rate tw' ws' draws' V') as (r' & A' & _ & B' & _).
  destruct (raw_mirrored rate p tw tw' draws draws' T D ws ws' W) as (s & s' & C & C' & R).
  { apply Forall_forall; intros x Hx; rewrite Forall_forall in V; apply V; exact Hx. }
  exists r, r'; split; [exact A|split; [exact A'|]].
  assert (Er : Ok r = Ok s) by (exact (eq_trans (eq_sym B) C)).
  assert (Er' : Ok r' = Ok s') by (exact (eq_trans (eq_sym B') C')).
  injection Er as ->; injection Er' as ->; exact R.
Qed.
End Training.
