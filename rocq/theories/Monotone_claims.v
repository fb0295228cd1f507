(** Monotonicity of evaluation in f64, in the form used by Properties_float.v. *)
From Coq Require Import List Arith ZArith Reals SpecFloat Bool Lia Lra.
Import ListNotations.
From Verif Require Import Base Shapes Scalar Buffers Spec Contraction Node Eval Types Instances
  Vocab Math Code_math Float_math Index_facts Buffers_facts Spec_facts Contraction_facts
  Contraction_entries Match_facts Eval_facts Progress_facts Math_facts Code_claims Float_facts
  Float_claims Relate_facts.
Local Open Scope R_scope.

(** Formats: precision and largest exponent. *)
Section Formats.
Context {prec emax : Z} {Fm : Format prec emax}.
Notation rnd := (Float_facts.rnd prec emax).
Notation uro := (Float_facts.uro prec).
Notation uro_pos := (Float_facts.uro_pos (prec := prec)).
Notation fvalid := (float_valid prec emax).
Notation foz := (float_of_Z prec emax).
Notation good := (Float_claims.good (prec := prec) (emax := emax)).
Notation grow_le := (Float_claims.grow_le (prec := prec)).
Notation grow := (Float_claims.grow (prec := prec)).
Notation from_zero := (Float_claims.from_zero (prec := prec) (emax := emax)).
Notation one_real := (Float_claims.one_real (prec := prec) (emax := emax)).
Notation one_valid := (Float_claims.one_valid (prec := prec) (emax := emax)).
Notation two_real := (Float_claims.two_real (prec := prec) (emax := emax)).
Notation two_valid := (Float_claims.two_valid (prec := prec) (emax := emax)).
Notation two_finite := (Float_claims.two_finite (prec := prec) (emax := emax)).
Notation one_finite := (Float_claims.one_finite (prec := prec) (emax := emax)).
Notation abs_real := (Float_claims.abs_real (prec := prec) (emax := emax)).
Notation small_int := (Float_claims.small_int (prec := prec) (emax := emax)).

(** * Validity *)
Lemma div_valid x y : fvalid x -> fvalid y -> fvalid (SFdiv prec emax x y).
Proof.
  intros Vx Vy; destruct (valid_B x Vx) as [bx ->], (valid_B y Vy) as [by' ->].
  rewrite div_same; apply B_valid.
Qed.
Lemma add_valid x y : fvalid x -> fvalid y -> fvalid (SFadd prec emax x y).
Proof. intros Vx Vy; apply (add_real x y); auto. Qed.
Lemma sub_valid x y : fvalid x -> fvalid y -> fvalid (SFsub prec emax x y).
Proof. intros Vx Vy; apply (sub_real x y); auto. Qed.
Lemma mul_valid x y : fvalid x -> fvalid y -> fvalid (SFmul prec emax x y).
Proof. intros Vx Vy; apply (mul_real x y); auto. Qed.
Lemma minus_one_valid : fvalid (foz (-1)).
Proof. apply of_Z_real. Qed.

(** * Order *)
Definition le64 (x y : f64) : Prop :=
  fvalid x /\ fvalid y /\ (finite x -> finite y -> f64_real x <= f64_real y).
Definition leu (up : bool) (x y : f64) : Prop := if up then le64 x y else le64 y x.

Lemma le_refl64 x : fvalid x -> le64 x x.
Proof. intro V; repeat split; auto; intros; lra. Qed.

Lemma le_add x x' y y' : le64 x x' -> le64 y y' -> le64 (SFadd prec emax x y) (SFadd prec emax x' y').
Proof.
  intros (V & V' & L) (Vy & Vy' & Ly); split; [apply add_valid; auto|split; [apply add_valid; auto|]].
  intros F F'; destruct (finite_add _ _ F), (finite_add _ _ F').
  rewrite (proj1 (proj2 (add_real x y V Vy)) F), (proj1 (proj2 (add_real x' y' V' Vy')) F').
  apply rnd_le; assert (K := L ltac:(assumption) ltac:(assumption)); assert (K' := Ly ltac:(assumption) ltac:(assumption)); lra.
Qed.

Lemma le_sub x x' y y' : le64 x x' -> le64 y' y -> le64 (SFsub prec emax x y) (SFsub prec emax x' y').
Proof.
  intros (V & V' & L) (Vy' & Vy & Ly); split; [apply sub_valid; auto|split; [apply sub_valid; auto|]].
  intros F F'; destruct (finite_sub _ _ F), (finite_sub _ _ F').
  rewrite (proj1 (proj2 (sub_real x y V Vy)) F), (proj1 (proj2 (sub_real x' y' V' Vy')) F').
  apply rnd_le; assert (K := L ltac:(assumption) ltac:(assumption)); assert (K' := Ly ltac:(assumption) ltac:(assumption)); lra.
Qed.

Lemma le_mul x x' y y' : le64 x x' -> le64 y y' ->
  (0 <= f64_real x /\ 0 <= f64_real y) \/ (x = x' /\ 0 <= f64_real x) \/ (y = y' /\ 0 <= f64_real y) ->
  le64 (SFmul prec emax x y) (SFmul prec emax x' y').
Proof.
  intros (V & V' & L) (Vy & Vy' & Ly) C; split; [apply mul_valid; auto|split; [apply mul_valid; auto|]].
  intros F F'; destruct (finite_mul _ _ F), (finite_mul _ _ F').
  rewrite (proj1 (proj2 (mul_real x y V Vy)) F), (proj1 (proj2 (mul_real x' y' V' Vy')) F').
  apply rnd_le; assert (K := L ltac:(assumption) ltac:(assumption)); assert (K' := Ly ltac:(assumption) ltac:(assumption)).
  destruct C as [[A B]|[[-> A]|[-> A]]].
  - apply Rmult_le_compat; auto.
  - apply Rmult_le_compat_l; auto.
  - apply Rmult_le_compat_r; auto.
Qed.

Lemma finite_div x y : finite (SFdiv prec emax x y) -> finite x.
Proof. destruct x, y; cbn; auto. Qed.

Lemma le_div x x' y y' : le64 x x' -> le64 y' y -> 0 < f64_real y -> 0 < f64_real y' ->
  0 <= f64_real x \/ y = y' -> le64 (SFdiv prec emax x y) (SFdiv prec emax x' y').
Proof.
  intros (V & V' & L) (Vy' & Vy & Ly) P P' C; split; [apply div_valid; auto|split; [apply div_valid; auto|]].
  intros F F'; assert (Fx := finite_div _ _ F); assert (Fx' := finite_div _ _ F').
  assert (N : f64_real y <> 0) by lra; assert (N' : f64_real y' <> 0) by lra.
  rewrite (proj1 (proj2 (div_real x y V Vy N)) F), (proj1 (proj2 (div_real x' y' V' Vy' N')) F').
  apply rnd_le; assert (K := L Fx Fx'); assert (K' := Ly (finite_real _ N') (finite_real _ N)).
  unfold Rdiv; destruct C as [A| <-].
  - apply Rmult_le_compat; auto; [left; apply Rinv_0_lt_compat; exact P|apply Rinv_le_contravar; auto].
  - apply Rmult_le_compat_r; auto; left; apply Rinv_0_lt_compat; exact P.
Qed.

Lemma le_opp x y : le64 x y -> le64 (SFopp y) (SFopp x).
Proof.
  intros (V & V' & L); split; [apply opp_valid; auto|split; [apply opp_valid; auto|]].
  rewrite !opp_finite, !opp_real; intros F F'; assert (K := L F' F); lra.
Qed.

Lemma le_abs x y : le64 x y -> 0 <= f64_real x -> le64 (SFabs x) (SFabs y).
Proof.
  intros (V & V' & L) N; destruct (abs_real x) as (E & W & I), (abs_real y) as (E' & W' & I').
  split; [auto|split; [auto|]]; rewrite I, I', E, E'; intros F F'; assert (K := L F F').
  rewrite !Rabs_pos_eq; lra.
Qed.

Section Runs.
Variables (pow : f64 -> f64 -> f64) (lib : libfn -> f64 -> f64).
Hypothesis pow_valid : forall x y, fvalid (pow x y).
Hypothesis lib_valid : forall f x, fvalid (lib f x).
#[local] Instance s64m : Scalar f64 := float_scalar prec emax pow lib.

Lemma un_valid u x : fvalid x -> fvalid (un_fn u x).
Proof.
  intro V; assert (O := one_valid); assert (T := two_valid); destruct u; cbn [un_fn ftwo fsub fadd fmul fone fpow fneg fabs flib s64m float_scalar];
    auto using sub_valid, add_valid, mul_valid, opp_valid.
  - destruct (feq x fzero); reflexivity.
  - destruct (is_zero x); auto; cbn; destruct x as [[]|[]| |[]]; auto using minus_one_valid; reflexivity.
  - apply (abs_real x); exact V.
  - destruct (fle x fzero); [reflexivity|apply mul_valid; auto].
  - unfold sigmoid; destruct (fle fzero x); apply div_valid; auto; apply add_valid; auto.
Qed.

Lemma steps_valid c n : written c n -> agrees c n -> inputs_all fvalid c n ->
  rel (fun x y => fvalid x /\ x = y) (steps c n) (steps c n).
Proof.
  intros Hw Ag [Iv Ic]; induction n; try contradiction.
  - cbn [steps]; unfold var_tensor; destruct (c i) as [v|] eqn:E; (split; [reflexivity|]); intros ix Bx; split; auto.
    + apply (Iv i v E); exact Bx.
    + reflexivity.
  - split; [reflexivity|]; intros ix Bx; split; auto; apply Ic; exact Bx.
  - cbn [steps]; eapply rel_un; [exact (IHn Hw Ag Ic)|]; intros x y [V <-]; split; auto using un_valid.
  - cbn [steps]; apply rel_sum; auto; [split; reflexivity|].
    intros x x' y y' [V <-] [V' <-]; split; auto; apply add_valid; auto.
  - split; [reflexivity|]; intros; split; auto; apply pow_valid.
  - destruct Hw as [W1 W2], Ag as (A1 & A2 & D), Ic as [I1 I2]; cbn [steps].
    eapply rel_crossed; eauto; intros _ x x' y y' [V <-] [V' <-]; split; auto; apply add_valid; auto.
  - destruct Hw as [W1 W2], Ag as (A1 & A2 & D), Ic as [I1 I2]; cbn [steps].
    eapply rel_crossed; eauto; intros _ x x' y y' [V <-] [V' <-]; split; auto; apply sub_valid; auto.
  - destruct Hw as [W1 W2], Ag as (A1 & A2 & D), Ic as [I1 I2]; cbn [steps].
    eapply rel_crossed; eauto; intros _ x x' y y' [V <-] [V' <-]; split; auto; apply mul_valid; auto.
  - destruct Hw as [W1 W2], Ag as (A1 & A2 & D), Ic as [I1 I2]; cbn [steps].
    eapply rel_crossed; eauto; intros _ x x' y y' [V <-] [V' <-]; split; auto; apply div_valid; auto.
  - destruct Hw as (W1 & W2 & _), Ic as [I1 I2]; destruct axes as [|axes]; cbn [steps].
    + destruct Ag as [A1 A2]; eapply rel_outer; eauto; intros x x' y y' [V <-] [V' <-]; split; auto; apply mul_valid; auto.
    + destruct Ag as (A1 & A2 & D); eapply rel_inner; eauto; try (split; reflexivity);
        intros x x' y y' [V <-] [V' <-]; split; auto; solve [apply mul_valid; auto|apply add_valid; auto].
Qed.

Lemma leu_refl up x : fvalid x -> leu up x x.
Proof. destruct up; apply le_refl64. Qed.
Lemma leu_zero up : leu up fzero fzero.
Proof. apply leu_refl; reflexivity. Qed.
Lemma leu_add up x x' y y' : leu up x x' -> leu up y y' -> leu up (SFadd prec emax x y) (SFadd prec emax x' y').
Proof. destruct up; apply le_add. Qed.
Lemma leu_sub up x x' y y' : leu up x x' -> leu (negb up) y y' -> leu up (SFsub prec emax x y) (SFsub prec emax x' y').
Proof. destruct up; apply le_sub. Qed.

Lemma still_steps c d n : still c d n -> steps c n = steps d n.
Proof.
  induction n; cbn [still steps]; try contradiction; auto.
  - unfold var_tensor; intros ->; reflexivity.
  - intro H; rewrite (IHn H); reflexivity.
  - intro H; rewrite (IHn H); reflexivity.
  - intros [H1 H2]; rewrite (IHn1 H1), (IHn2 H2); reflexivity.
  - intros [H1 H2]; rewrite (IHn1 H1), (IHn2 H2); reflexivity.
  - intros [H1 H2]; rewrite (IHn1 H1), (IHn2 H2); reflexivity.
  - intros [H1 H2]; rewrite (IHn1 H1), (IHn2 H2); reflexivity.
  - intros [H1 H2]; rewrite (IHn1 H1), (IHn2 H2); reflexivity.
  - intros [H1 H2]; rewrite (IHn1 H1), (IHn2 H2); reflexivity.
Qed.

Variables c d : ctx f64.

(** Entries of the run with the smaller values. *)
Definition lo (up : bool) (x y : f64) : f64 := if up then x else y.

Lemma with_sign (Q : R -> Prop) (b : bool) up n :
  (forall ix, in_box (tdims (steps (if b then c else d) n)) ix -> Q (f64_real (tat (steps (if b then c else d) n) ix))) ->
  rel (leu up) (steps c n) (steps d n) ->
  rel (fun x y => leu up x y /\ Q (f64_real (lo b x y))) (steps c n) (steps d n).
Proof.
  intros H [D E]; split; [exact D|]; intros ix Bx; split; [apply E; exact Bx|].
  destruct b; apply H; [exact Bx|rewrite <- D; exact Bx].
Qed.

Lemma still_rel n : written c n -> agrees c n -> inputs_all fvalid c n -> still c d n ->
  rel (fun x y => fvalid x /\ x = y) (steps c n) (steps d n).
Proof. intros Hw Ag I H; rewrite <- (still_steps c d n H); apply steps_valid; auto. Qed.

Lemma still_sign n : written c n -> agrees c n -> inputs_all fvalid c n -> still c d n -> nonneg c n ->
  rel (fun x y => fvalid x /\ x = y /\ 0 <= f64_real x) (steps c n) (steps d n).
Proof.
  intros Hw Ag I H P; destruct (still_rel n Hw Ag I H) as [D E]; split; [exact D|]; intros ix Bx.
  destruct (E ix Bx); repeat split; auto; apply P; exact Bx.
Qed.

(** The two relations between factors, and what they give for products. *)
Definition factors (up : bool) (P Q : f64 -> f64 -> Prop) : Prop :=
  forall x x' y y', P x x' -> Q y y' ->
    leu up (SFmul prec emax x y) (SFmul prec emax x' y') /\ leu up (SFmul prec emax y x) (SFmul prec emax y' x').

Lemma both_factors up : factors up (fun x y => leu up x y /\ 0 <= f64_real (lo up x y))
  (fun x y => leu up x y /\ 0 <= f64_real (lo up x y)).
Proof. intros x x' y y' [L N] [L' N']; destruct up; cbn in *; split; apply le_mul; auto. Qed.
Lemma left_factors up : factors up (fun x y => fvalid x /\ x = y /\ 0 <= f64_real x) (leu up).
Proof. intros x x' y y' (V & <- & N) L; destruct up; cbn in *; split; apply le_mul; auto using le_refl64. Qed.
Lemma right_factors up : factors up (leu up) (fun x y => fvalid x /\ x = y /\ 0 <= f64_real x).
Proof. intros x x' y y' L (V & <- & N); destruct up; cbn in *; split; apply le_mul; auto using le_refl64. Qed.

Lemma leu_div up x x' y y' : leu up x x' -> leu (negb up) y y' -> 0 < f64_real y -> 0 < f64_real y' ->
  0 <= f64_real (lo up x x') \/ y = y' -> leu up (SFdiv prec emax x y) (SFdiv prec emax x' y').
Proof. destruct up; cbn; intros; apply le_div; auto; intuition. Qed.

Lemma tree_goes n : forall up, ctx_wf c -> ctx_wf d -> written c n -> agrees c n -> agrees d n ->
  inputs_all fvalid c n -> inputs_all fvalid d n -> goes c d up n ->
  rel (leu up) (steps c n) (steps d n).
Proof.
  induction n; intros up Wc Wd Hw Ag Ag' Ic Id [G|G];
    try (eapply rel_impl; [|apply still_rel; auto]; intros x y [V <-]; apply leu_refl; exact V);
    try contradiction; destruct Ic as [Iv Ic], Id as [Jv Jc].
  - (* Var *)
    cbn [steps]; unfold var_tensor.
    destruct up; unfold lower in G; destruct (c i) as [v|] eqn:E, (d i) as [w|] eqn:E'; try contradiction;
      destruct G as [D L]; (split; [auto; cbn [tdims tensor_of]; congruence|]); cbn [tdims tat tensor_of] in *;
      intros ix Bx; [|assert (Bx' := Bx); rewrite <- D in Bx'];
      (split; [|split]); try (intros _ _; apply L; auto; congruence);
      solve [apply (Iv i v E); auto | apply (Jv i w E'); auto; congruence].
  - (* Un *)
    cbn [steps]; assert (I : inputs_all fvalid c n) by (split; auto); assert (J : inputs_all fvalid d n) by (split; auto).
    destruct u; try contradiction.
    + eapply rel_un; [exact (IHn up Wc Wd Hw Ag Ag' I J G)|]; intros x y H; apply leu_sub; auto; apply leu_refl, one_valid.
    + eapply rel_un; [exact (IHn _ Wc Wd Hw Ag Ag' I J G)|]; intros x y H; apply leu_sub; auto; apply leu_refl, one_valid.
    + eapply rel_un; [exact (IHn up Wc Wd Hw Ag Ag' I J G)|]; intros x y H; apply leu_add; auto; apply leu_refl, one_valid.
    + eapply rel_un; [exact (IHn up Wc Wd Hw Ag Ag' I J G)|]; intros x y H.
      apply (left_factors up (SFadd prec emax (foz 1) (foz 1)) _ x y); auto.
      split; [exact two_valid|split; [reflexivity|rewrite two_real; lra]].
    + eapply rel_un; [exact (IHn _ Wc Wd Hw Ag Ag' I J G)|]; intros x y H; destruct up; apply le_opp; exact H.
    + destruct G as [G P].
      eapply rel_un; [apply (with_sign (fun z => 0 <= z) up up); [exact P|exact (IHn up Wc Wd Hw Ag Ag' I J G)]|].
      intros x y [H N]; destruct up; apply le_abs; auto.
  - (* Sum *)
    cbn [steps]; apply rel_sum; [apply leu_zero|apply leu_add|].
    exact (IHn up Wc Wd Hw Ag Ag' (conj Iv Ic) (conj Jv Jc) G).
  - (* Add *)
    destruct Hw as [W1 W2], Ag as (A1 & A2 & D), Ag' as (A1' & A2' & _), Ic as [I1 I2], Jc as [J1 J2], G as [G1 G2]; cbn [steps].
    eapply rel_crossed; [apply IHn1|apply IHn2|exact D| |]; eauto; try (split; auto; fail);
      intros _ x x' y y' L L'; apply leu_add; auto.
  - (* Sub *)
    destruct Hw as [W1 W2], Ag as (A1 & A2 & D), Ag' as (A1' & A2' & _), Ic as [I1 I2], Jc as [J1 J2]; cbn [steps].
    destruct (exchanged c n1 n2) eqn:X; destruct G as [G1 G2].
    + eapply rel_crossed; [apply (IHn1 (negb up))|apply (IHn2 up)|exact D| |]; auto; try (split; auto; fail).
      * intro Y; exfalso; change (exchanged c n1 n2 = false) in Y; congruence.
      * intros _ x x' y y' L L'; apply leu_sub; auto.
    + eapply rel_crossed; [apply (IHn1 up)|apply (IHn2 (negb up))|exact D| |]; auto; try (split; auto; fail).
      * intros _ x x' y y' L L'; apply leu_sub; auto.
      * intro Y; exfalso; change (exchanged c n1 n2 = true) in Y; congruence.
  - (* Mul *)
    destruct Hw as [W1 W2], Ag as (A1 & A2 & D), Ag' as (A1' & A2' & _), Ic as [I1 I2], Jc as [J1 J2]; cbn [steps].
    assert (K : exists P Q, rel P (steps c n1) (steps d n1) /\ rel Q (steps c n2) (steps d n2) /\ factors up P Q).
    { destruct G as [(G1 & N1 & G2 & N2)|[(G1 & N1 & G2)|(G1 & G2 & N2)]].
      - eexists _, _; split; [|split; [|apply both_factors]];
          apply (with_sign (fun z => 0 <= z)); auto; [apply IHn1|apply IHn2]; auto; split; auto.
      - eexists _, _; split; [|split; [|apply left_factors]];
          [apply still_sign; auto; split; auto|apply IHn2; auto; split; auto].
      - eexists _, _; split; [|split; [|apply right_factors]];
          [apply IHn1; auto; split; auto|apply still_sign; auto; split; auto]. }
    destruct K as (P & Q & K1 & K2 & K).
    eapply rel_crossed; [exact K1|exact K2|exact D| |]; intros _ x x' y y' L L'; apply (K x x' y y'); auto.
  - (* Div *)
    destruct Hw as [W1 W2], Ag as (A1 & A2 & D), Ag' as (A1' & A2' & _), Ic as [I1 I2], Jc as [J1 J2]; cbn [steps].
    destruct (exchanged c n1 n2) eqn:X; destruct G as (G1 & G2 & P & P' & C).
    + assert (K2 : rel (leu up) (steps c n2) (steps d n2)) by (apply IHn2; auto; split; auto).
      assert (K1 : rel (leu (negb up)) (steps c n1) (steps d n1)) by (apply IHn1; auto; split; auto).
      assert (S1 : rel (fun x y => (leu (negb up) x y /\ 0 < f64_real x /\ 0 < f64_real y)) (steps c n1) (steps d n1)).
      { destruct K1 as [D1 E1]; split; [exact D1|]; intros ix Bx; split; [auto|split; [apply P; auto|apply P'; rewrite <- D1; exact Bx]]. }
      destruct C as [C|C].
      * eapply rel_crossed; [exact S1|apply (with_sign (fun z => 0 <= z) up up); [exact C|exact K2]|exact D| |].
        -- intro Y; exfalso; change (exchanged c n1 n2 = false) in Y; congruence.
        -- intros _ x x' y y' (L & Q & Q') (L' & N); apply leu_div; auto.
      * assert (S1' : rel (fun x y => (leu (negb up) x y /\ 0 < f64_real x /\ 0 < f64_real y) /\ x = y) (steps c n1) (steps d n1)).
        { destruct S1 as [D1 E1], (still_rel n1 W1 A1 (conj Iv I1) C) as [_ E2]; split; [exact D1|]; intros ix Bx.
          split; [auto|apply (E2 ix Bx)]. }
        eapply rel_crossed; [exact S1'|exact K2|exact D| |].
        -- intro Y; exfalso; change (exchanged c n1 n2 = false) in Y; congruence.
        -- intros _ x x' y y' ((L & Q & Q') & ->) L'; apply leu_div; auto.
    + assert (K1 : rel (leu up) (steps c n1) (steps d n1)) by (apply IHn1; auto; split; auto).
      assert (K2 : rel (leu (negb up)) (steps c n2) (steps d n2)) by (apply IHn2; auto; split; auto).
      assert (S2 : rel (fun x y => (leu (negb up) x y /\ 0 < f64_real x /\ 0 < f64_real y)) (steps c n2) (steps d n2)).
      { destruct K2 as [D1 E1]; split; [exact D1|]; intros ix Bx; split; [auto|split; [apply P; auto|apply P'; rewrite <- D1; exact Bx]]. }
      destruct C as [C|C].
      * eapply rel_crossed; [apply (with_sign (fun z => 0 <= z) up up); [exact C|exact K1]|exact S2|exact D| |].
        -- intros _ x x' y y' (L' & N) (L & Q & Q'); apply leu_div; auto.
        -- intro Y; exfalso; change (exchanged c n1 n2 = true) in Y; congruence.
      * assert (S2' : rel (fun x y => (leu (negb up) x y /\ 0 < f64_real x /\ 0 < f64_real y) /\ x = y) (steps c n2) (steps d n2)).
        { destruct S2 as [D1 E1], (still_rel n2 W2 A2 (conj Iv I2) C) as [_ E2]; split; [exact D1|]; intros ix Bx.
          split; [auto|apply (E2 ix Bx)]. }
        eapply rel_crossed; [exact K1|exact S2'|exact D| |].
        -- intros _ x x' y y' L' ((L & Q & Q') & ->); apply leu_div; auto.
        -- intro Y; exfalso; change (exchanged c n1 n2 = true) in Y; congruence.
  - (* Contract *)
    destruct Hw as (W1 & W2 & _), Ic as [I1 I2], Jc as [J1 J2].
    assert (K : agrees c n1 -> agrees c n2 -> agrees d n1 -> agrees d n2 ->
                exists P Q, rel P (steps c n1) (steps d n1) /\ rel Q (steps c n2) (steps d n2) /\ factors up P Q).
    { intros A1 A2 A1' A2'; destruct G as [(G1 & N1 & G2 & N2)|[(G1 & N1 & G2)|(G1 & G2 & N2)]].
      - eexists _, _; split; [|split; [|apply both_factors]];
          apply (with_sign (fun z => 0 <= z)); auto; [apply IHn1|apply IHn2]; auto; split; auto.
      - eexists _, _; split; [|split; [|apply left_factors]];
          [apply still_sign; auto; split; auto|apply IHn2; auto; split; auto].
      - eexists _, _; split; [|split; [|apply right_factors]];
          [apply IHn1; auto; split; auto|apply still_sign; auto; split; auto]. }
    destruct axes as [|axes]; cbn [steps agrees] in *.
    + destruct Ag as (A1 & A2), Ag' as (A1' & A2'), (K A1 A2 A1' A2') as (P & Q & K1 & K2 & KK).
      eapply rel_outer; [| |exact K1|exact K2]; intros x x' y y' L L'; apply (KK x x' y y'); auto.
    + destruct Ag as (A1 & A2 & D), Ag' as (A1' & A2' & _), (K A1 A2 A1' A2') as (P & Q & K1 & K2 & KK).
      eapply rel_inner; [apply leu_zero|apply leu_add| |exact D|exact K1|exact K2].
      intros x x' y y' L L'; apply (KK x x' y y'); auto.
Qed.

Lemma monotone up (c' d' : ctx f64) n v w :
  ctx_wf c -> ctx_wf d -> node_wf n -> written c n -> written d n ->
  inputs_all fvalid c n -> inputs_all fvalid d n -> goes c d up n ->
  evaluate n c = (c', Ok v) -> evaluate n d = (d', Ok w) ->
  dims (vshape v) = dims (vshape w) /\
  forall ix, in_box (dims (vshape v)) ix ->
    finite (vat f64_zero v ix) -> finite (vat f64_zero w ix) ->
    if up then f64_real (vat f64_zero v ix) <= f64_real (vat f64_zero w ix)
    else f64_real (vat f64_zero w ix) <= f64_real (vat f64_zero v ix).
Proof.
  intros Wc Wd W Hw Hw' I J G H H'.
  destruct (steps_claim c c' n v Wc W Hw H) as (-> & Wv & D & E).
  destruct (steps_claim d d' n w Wd W Hw' H') as (-> & Ww & D' & E').
  assert (Ag := evaluate_agrees c n Wc c v W Hw H); assert (Ag' := evaluate_agrees d n Wd d w W Hw' H').
  destruct (tree_goes n up Wc Wd Hw Ag Ag' I J G) as [Q K].
  split; [congruence|]; intros ix Bx F F'; rewrite D in Bx; assert (Bx' := Bx); rewrite Q in Bx'.
  change (vat f64_zero v ix) with (vat fzero v ix) in *; change (vat f64_zero w ix) with (vat fzero w ix) in *.
  rewrite (E ix Bx), (E' ix Bx') in *.
  destruct up; apply (K ix Bx); auto.
Qed.

(** ** Sums and products of numbers that are not negative *)
Definition under (x y : f64) : Prop :=
  fvalid x /\ fvalid y /\ 0 <= f64_real x /\ (finite y -> finite x /\ f64_real x <= f64_real y).

Lemma top_bound x : fvalid x -> Rabs (f64_real x) < Raux.bpow Zaux.radix2 emax.
Proof.
  intro V; destruct (valid_B x V) as [b ->]; rewrite f64_real_B.
  apply (BinarySingleNaN.abs_B2R_lt_emax prec emax).
Qed.

Lemma rnd_nonneg x : 0 <= x -> 0 <= rnd x.
Proof.
  intro H; replace 0 with (rnd 0); [apply rnd_le; exact H|].
  unfold rnd; apply Generic_fmt.round_0; auto with typeclass_instances.
Qed.

(** [z] is [q] rounded, [z'] is [q'] rounded, and [q <= q']. *)
Lemma under_op (z z' : f64) (q q' : R) :
  fvalid z -> fvalid z' -> (finite z -> f64_real z = rnd q) -> (finite z' -> f64_real z' = rnd q') ->
  (finite z -> 0 <= q) -> (finite z' -> q <= q' /\ 0 <= q) ->
  (finite z' -> Rabs (rnd q) < Raux.bpow Zaux.radix2 emax -> finite z) -> under z z'.
Proof.
  intros V V' E E' N L F; split; [exact V|split; [exact V'|split]].
  - destruct z as [s|s| |s m e]; try (cbn; lra); rewrite E by exact I; apply rnd_nonneg, N, I.
  - intro Fz'; destruct (L Fz') as [Lq Nq].
    assert (B := top_bound z' V'); rewrite (E' Fz') in B.
    assert (Nr := rnd_nonneg q Nq); assert (Lr := rnd_le q q' Lq).
    assert (Fz : finite z).
    { apply (F Fz'); rewrite Rabs_pos_eq in * by lra; lra. }
    split; [exact Fz|]; rewrite (E Fz), (E' Fz'); exact Lr.
Qed.

Lemma under_add x x' y y' : under x x' -> under y y' -> under (SFadd prec emax x y) (SFadd prec emax x' y').
Proof.
  intros (V & V' & N & L) (Vy & Vy' & Ny & Ly).
  destruct (add_real x y V Vy) as (A & B & C), (add_real x' y' V' Vy') as (A' & B' & C').
  apply (under_op _ _ (f64_real x + f64_real y) (f64_real x' + f64_real y')); auto.
  - intros _; lra.
  - intro F; destruct (finite_add _ _ F) as [F1 F2], (L F1), (Ly F2); lra.
  - intro F; destruct (finite_add _ _ F) as [F1 F2], (L F1), (Ly F2); auto.
Qed.

Lemma under_mul x x' y y' : under x x' -> under y y' -> under (SFmul prec emax x y) (SFmul prec emax x' y').
Proof.
  intros (V & V' & N & L) (Vy & Vy' & Ny & Ly).
  destruct (mul_real x y V Vy) as (A & B & C), (mul_real x' y' V' Vy') as (A' & B' & C').
  assert (P : 0 <= f64_real x * f64_real y) by (apply Rmult_le_pos; auto).
  apply (under_op _ _ (f64_real x * f64_real y) (f64_real x' * f64_real y')); auto.
  - intro F; destruct (finite_mul _ _ F) as [F1 F2], (L F1), (Ly F2); split; auto; apply Rmult_le_compat; auto.
  - intro F; destruct (finite_mul _ _ F) as [F1 F2], (L F1), (Ly F2); auto.
Qed.

Lemma under_refl x : fvalid x -> finite x -> 0 <= f64_real x -> under x x.
Proof. intros; split; auto; split; auto; split; auto; intros; split; auto; lra. Qed.

Lemma under_zero : under fzero fzero.
Proof. apply under_refl; [reflexivity|exact I|cbn; lra]. Qed.

Lemma tree_under n : written c n -> agrees c n -> adds_multiplies n ->
  inputs_all (fun x => fvalid x /\ finite x /\ 0 <= f64_real x) c n ->
  inputs_all fvalid d n -> (forall i, uses n i -> lower (c i) (d i)) ->
  rel under (steps c n) (steps d n).
Proof.
  intros Hw Ag Am [Iv Ic] [Jv Jc] Lo; induction n; try contradiction.
  - (* Var *)
    specialize (Lo i eq_refl); cbn [steps]; unfold var_tensor, lower in *.
    destruct (c i) as [v|] eqn:E, (d i) as [w|] eqn:E'; try contradiction.
    destruct Lo as [D L]; split; [exact D|]; cbn [tdims tat tensor_of]; intros ix Bx.
    destruct (Iv i v E fzero ix Bx) as (V & F & N); split; [exact V|].
    split; [apply (Jv i w E'); rewrite <- D; exact Bx|split; [exact N|]]; intros _; split; auto.
  - (* Const *)
    split; [reflexivity|]; intros ix Bx; destruct (Ic fzero ix Bx) as (V & F & N); apply under_refl; auto.
  - (* Un *)
    assert (Am' : adds_multiplies n) by (destruct u; try contradiction; exact Am).
    assert (K := IHn Hw Ag Am' Ic Jc Lo); cbn [steps]; eapply rel_un; [exact K|]; intros x y H.
    destruct u; try contradiction.
    + apply (under_add x y (foz 1) (foz 1)); auto; apply under_refl; [exact one_valid|exact one_finite|rewrite one_real; lra].
    + apply (under_mul (SFadd prec emax (foz 1) (foz 1)) (SFadd prec emax (foz 1) (foz 1)) x y); auto.
      apply under_refl; [exact two_valid|exact two_finite|rewrite two_real; lra].
    + destruct H as (V & V' & N & L), (abs_real x) as (E & W & F), (abs_real y) as (E' & W' & F').
      split; [auto|split; [auto|split]]; [cbn; rewrite E; apply Rabs_pos|].
      cbn; rewrite F, F', E, E'; intro Fy; destruct (L Fy) as [Fx Lx]; split; auto.
      rewrite !Rabs_pos_eq by lra; exact Lx.
  - (* Sum *) cbn [steps]; apply rel_sum; [exact under_zero|exact under_add|apply IHn; auto].
  - (* Add *)
    destruct Hw as [W1 W2], Ag as (A1 & A2 & D), Ic as [I1 I2], Jc as [J1 J2], Am as [M1 M2]; cbn [steps].
    eapply rel_crossed; [apply IHn1|apply IHn2|exact D| |]; auto; try (intros i U; apply Lo; cbn; tauto; fail);
      intros _ x x' y y' L L'; apply under_add; auto.
  - (* Mul *)
    destruct Hw as [W1 W2], Ag as (A1 & A2 & D), Ic as [I1 I2], Jc as [J1 J2], Am as [M1 M2]; cbn [steps].
    eapply rel_crossed; [apply IHn1|apply IHn2|exact D| |]; auto; try (intros i U; apply Lo; cbn; tauto; fail);
      intros _ x x' y y' L L'; apply under_mul; auto.
  - (* Contract *)
    destruct Hw as (W1 & W2 & _), Ic as [I1 I2], Jc as [J1 J2], Am as [M1 M2].
    assert (L1 : forall i, uses n1 i -> lower (c i) (d i)) by (intros i U; apply Lo; cbn; auto).
    assert (L2 : forall i, uses n2 i -> lower (c i) (d i)) by (intros i U; apply Lo; cbn; auto).
    destruct axes as [|axes]; cbn [steps agrees] in *.
    + destruct Ag as (A1 & A2); eapply rel_outer; [| |apply IHn1; auto|apply IHn2; auto]; intros; apply under_mul; auto.
    + destruct Ag as (A1 & A2 & D); eapply rel_inner; [exact under_zero|exact under_add| |exact D|apply IHn1; auto|apply IHn2; auto].
      intros; apply under_mul; auto.
Qed.

Lemma monotone_positive (c' d' : ctx f64) n v w :
  ctx_wf c -> ctx_wf d -> node_wf n -> written c n -> written d n -> adds_multiplies n ->
  inputs_all (fun x => fvalid x /\ finite x /\ 0 <= f64_real x) c n ->
  inputs_all fvalid d n -> (forall i, uses n i -> lower (c i) (d i)) ->
  evaluate n c = (c', Ok v) -> evaluate n d = (d', Ok w) ->
  dims (vshape v) = dims (vshape w) /\
  forall ix, in_box (dims (vshape v)) ix -> finite (vat f64_zero w ix) ->
    finite (vat f64_zero v ix) /\
    0 <= f64_real (vat f64_zero v ix) <= f64_real (vat f64_zero w ix).
Proof.
  intros Wc Wd W Hw Hw' Am I J Lo H H'.
  destruct (steps_claim c c' n v Wc W Hw H) as (-> & Wv & D & E).
  destruct (steps_claim d d' n w Wd W Hw' H') as (-> & Ww & D' & E').
  assert (Ag := evaluate_agrees c n Wc c v W Hw H).
  destruct (tree_under n Hw Ag Am I J Lo) as [Q K].
  split; [congruence|]; intros ix Bx F; rewrite D in Bx; assert (Bx' := Bx); rewrite Q in Bx'.
  change (vat f64_zero v ix) with (vat fzero v ix) in *; change (vat f64_zero w ix) with (vat fzero w ix) in *.
  rewrite (E ix Bx), (E' ix Bx') in *; destruct (K ix Bx) as (_ & _ & N & L), (L F); auto.
Qed.
End Runs.

End Formats.
