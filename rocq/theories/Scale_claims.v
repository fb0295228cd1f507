(** Scaling by powers of two, in the form used by Properties_float.v. *)
From Coq Require Import List Arith ZArith Reals SpecFloat Bool Lia Lra.
Import ListNotations.
From Flocq Require Import Core Plus_error Mult_error.
From Verif Require Import Base Shapes Scalar Buffers Spec Contraction Node Eval Types Instances
  Vocab Math Code_math Float_math Index_facts Buffers_facts Spec_facts Contraction_facts
  Contraction_entries Match_facts Eval_facts Progress_facts Math_facts Code_claims Float_facts
  Float_claims Relate_facts Monotone_claims.
Local Open Scope R_scope.

(** Formats: precision and largest exponent. *)
Section Formats.
Context {prec emax : Z} {Fm : Format prec emax}.
Notation rnd := (Float_facts.rnd prec emax).
Notation uro := (Float_facts.uro prec).
Notation uro_pos := (Float_facts.uro_pos (prec := prec)).
Notation fvalid := (float_valid prec emax).
Notation foz := (float_of_Z prec emax).
Notation good := (Float_claims.good (prec := prec) (emax := emax)).
Notation grow_le := (Float_claims.grow_le (prec := prec)).
Notation grow := (Float_claims.grow (prec := prec)).
Notation from_zero := (Float_claims.from_zero (prec := prec) (emax := emax)).
Notation one_real := (Float_claims.one_real (prec := prec) (emax := emax)).
Notation one_valid := (Float_claims.one_valid (prec := prec) (emax := emax)).
Notation two_real := (Float_claims.two_real (prec := prec) (emax := emax)).
Notation two_valid := (Float_claims.two_valid (prec := prec) (emax := emax)).
Notation two_finite := (Float_claims.two_finite (prec := prec) (emax := emax)).
Notation one_finite := (Float_claims.one_finite (prec := prec) (emax := emax)).
Notation abs_real := (Float_claims.abs_real (prec := prec) (emax := emax)).
Notation small_int := (Float_claims.small_int (prec := prec) (emax := emax)).

Definition two (k : Z) : R := powerRZ 2 k.
Lemma two_bpow k : two k = bpow radix2 k.
Proof. unfold two; rewrite bpow_powerRZ; reflexivity. Qed.
Lemma two_pos k : 0 < two k.
Proof. rewrite two_bpow; apply bpow_gt_0. Qed.
Lemma two_plus a b : two (a + b) = two a * two b.
Proof. rewrite !two_bpow; apply bpow_plus. Qed.
Lemma two_minus a b : two (a - b) = two a / two b.
Proof.
  unfold Zminus, Rdiv; rewrite two_plus; f_equal; rewrite !two_bpow; apply bpow_opp.
Qed.
Lemma two_zero : two 0 = 1.
Proof. reflexivity. Qed.

#[local] Instance prec_gt : FLX.Prec_gt_0 prec.
Proof. assert (FB : (2 <= prec < emax)%Z) by exact Fm; unfold FLX.Prec_gt_0; lia. Qed.

Lemma rnd_zero : rnd 0 = 0.
Proof. unfold rnd; apply round_0; typeclasses eauto. Qed.

(** Numbers that are normal before and after. *)
Lemma rnd_scale k z : z = 0 \/ / 2 ^ Z.to_nat (emax - 2) <= Rabs z -> two k * z = 0 \/ / 2 ^ Z.to_nat (emax - 2) <= Rabs (two k * z) ->
  rnd (two k * z) = two k * rnd z.
Proof.
  assert (FB : (2 <= prec < emax)%Z) by exact Fm.
  intros H H'; destruct (Req_dec z 0) as [->|Nz]; [rewrite Rmult_0_r, rnd_zero; ring|].
  destruct H as [H|H]; [contradiction|].
  assert (Np := two_pos k).
  destruct H' as [H'|H']; [exfalso; apply Nz; apply Rmult_integral in H'; lra|].
  rewrite (tiny_bpow (prec := prec) (emax := emax)) in H, H'; rewrite two_bpow in *; rewrite (Rmult_comm (bpow radix2 k) z) in *.
  assert (M := mag_mult_bpow radix2 z k Nz).
  assert (L : (3 - emax <= mag radix2 z)%Z) by (apply mag_ge_bpow; replace (3 - emax - 1)%Z with (2 - emax)%Z by lia; exact H).
  assert (L' : (3 - emax <= mag radix2 (z * bpow radix2 k))%Z) by (apply mag_ge_bpow; replace (3 - emax - 1)%Z with (2 - emax)%Z by lia; exact H').
  unfold rnd, round, scaled_mantissa, cexp, FLT_exp; rewrite M in *.
  replace (Z.max (mag radix2 z - prec) (3 - emax - prec)) with (mag radix2 z - prec)%Z by lia.
  replace (Z.max (mag radix2 z + k - prec) (3 - emax - prec)) with (mag radix2 z - prec + k)%Z by lia.
  replace (z * bpow radix2 k * bpow radix2 (- (mag radix2 z - prec + k)))
    with (z * bpow radix2 (- (mag radix2 z - prec))).
  - unfold F2R; cbn [Defs.Fnum Defs.Fexp]; rewrite bpow_plus; ring.
  - rewrite Rmult_assoc, <- bpow_plus; do 2 f_equal; lia.
Qed.

Notation fmt := (generic_format radix2 (FLT_exp (3 - emax - prec) prec)).

(** Sums need no condition: small ones are exact. *)
Lemma small_sum x y : fmt x -> fmt y -> Rabs (x + y) < / 2 ^ Z.to_nat (emax - 2) -> fmt (x + y).
Proof.
  assert (FB : (2 <= prec < emax)%Z) by exact Fm.
  intros Fx Fy H; apply (FLT_format_plus_small radix2 (3 - emax - prec) prec x y Fx Fy).
  left; apply Rlt_trans with (1 := H); rewrite (tiny_bpow (prec := prec) (emax := emax)); apply bpow_lt; lia.
Qed.

Lemma rnd_scale_sum k x y : fmt x -> fmt y -> fmt (two k * x) -> fmt (two k * y) ->
  rnd (two k * (x + y)) = two k * rnd (x + y).
Proof.
  intros Fx Fy Gx Gy.
  destruct (Rle_lt_dec (/ 2 ^ Z.to_nat (emax - 2)) (Rabs (x + y))) as [H|H].
  - destruct (Rle_lt_dec (/ 2 ^ Z.to_nat (emax - 2)) (Rabs (two k * (x + y)))) as [H'|H']; [apply rnd_scale; auto|].
    assert (E : fmt (two k * (x + y))) by (rewrite Rmult_plus_distr_l in *; apply small_sum; auto).
    rewrite (rnd_id _ E); f_equal; symmetry; apply rnd_id.
    destruct (Z_le_gt_dec k 0) as [K|K].
    + replace (x + y) with (two k * (x + y) * bpow radix2 (- k)).
      * apply mult_bpow_pos_exact_FLT; [exact E|lia].
      * rewrite two_bpow, (Rmult_comm (bpow _ _)), Rmult_assoc, <- bpow_plus.
        replace (k + - k)%Z with 0%Z by lia; cbn [bpow]; ring.
    + exfalso; apply (Rlt_irrefl (/ 2 ^ Z.to_nat (emax - 2))); apply Rle_lt_trans with (1 := H).
      apply Rle_lt_trans with (2 := H'); rewrite Rabs_mult, (Rabs_pos_eq (two k)) by (left; apply two_pos).
      assert (1 <= two k) by (rewrite two_bpow; apply (bpow_le radix2 0); lia).
      assert (P := Rabs_pos (x + y)); nra.
  - assert (E : fmt (x + y)) by (apply small_sum; auto); rewrite (rnd_id _ E); apply rnd_id.
    destruct (Z_le_gt_dec 0 k) as [K|K].
    + rewrite Rmult_comm, two_bpow; apply mult_bpow_pos_exact_FLT; [exact E|lia].
    + rewrite Rmult_plus_distr_l; apply small_sum; auto; rewrite <- Rmult_plus_distr_l.
      apply Rle_lt_trans with (2 := H); rewrite Rabs_mult, (Rabs_pos_eq (two k)) by (left; apply two_pos).
      assert (two k <= 1) by (rewrite two_bpow; apply (bpow_le radix2 k 0); lia).
      assert (P := Rabs_pos (x + y)); nra.
Qed.

(** * The relation between the runs *)
Definition times (k : Z) (x y : f64) : Prop :=
  fvalid x /\ fvalid y /\ (finite x -> finite y -> f64_real y = two k * f64_real x).

Lemma times_refl x : fvalid x -> times 0 x x.
Proof. intro V; split; [exact V|split; [exact V|]]; intros; rewrite two_zero; ring. Qed.

Lemma times_zero k : times k f64_zero f64_zero.
Proof. split; [reflexivity|split; [reflexivity|]]; intros; cbn; ring. Qed.

Lemma times_add k x x' y y' : times k x x' -> times k y y' ->
  times k (SFadd prec emax x y) (SFadd prec emax x' y').
Proof.
  intros (V & V' & L) (Vy & Vy' & Ly); split; [apply add_valid; auto|split; [apply add_valid; auto|]].
  intros F F'; destruct (finite_add _ _ F) as [F1 F2], (finite_add _ _ F') as [F1' F2'].
  rewrite (proj1 (proj2 (add_real x y V Vy)) F), (proj1 (proj2 (add_real x' y' V' Vy')) F').
  assert (E := L F1 F1'); assert (E' := Ly F2 F2').
  rewrite E, E', <- Rmult_plus_distr_l; apply rnd_scale_sum; rewrite <- ?E, <- ?E'; apply valid_format; auto.
Qed.

Lemma times_neg k x y : times k x y -> times k (SFopp x) (SFopp y).
Proof.
  intros (V & V' & L); split; [apply opp_valid; auto|split; [apply opp_valid; auto|]].
  rewrite !opp_finite, !opp_real; intros F F'; rewrite (L F F'); ring.
Qed.

Lemma times_sub k x x' y y' : times k x x' -> times k y y' ->
  times k (SFsub prec emax x y) (SFsub prec emax x' y').
Proof.
  intros (V & V' & L) (Vy & Vy' & Ly); split; [apply sub_valid; auto|split; [apply sub_valid; auto|]].
  intros F F'; destruct (finite_sub _ _ F) as [F1 F2], (finite_sub _ _ F') as [F1' F2'].
  rewrite (proj1 (proj2 (sub_real x y V Vy)) F), (proj1 (proj2 (sub_real x' y' V' Vy')) F').
  assert (E := L F1 F1'); assert (E' := Ly F2 F2').
  assert (K := rnd_scale_sum k (f64_real x) (- f64_real y)); unfold Rminus.
  replace (f64_real x' + - f64_real y') with (two k * (f64_real x + - f64_real y)) by (rewrite E, E'; ring).
  apply K; [apply valid_format; auto|apply generic_format_opp, valid_format; auto|rewrite <- E; apply valid_format; auto|].
  replace (two k * - f64_real y) with (- f64_real y') by (rewrite E'; ring).
  apply generic_format_opp, valid_format; auto.
Qed.

Lemma times_mul a b x x' y y' : times a x x' -> times b y y' -> (normal_product_in emax) x y -> (normal_product_in emax) x' y' ->
  times (a + b) (SFmul prec emax x y) (SFmul prec emax x' y').
Proof.
  intros (V & V' & L) (Vy & Vy' & Ly) N N'; split; [apply mul_valid; auto|split; [apply mul_valid; auto|]].
  intros F F'; destruct (finite_mul _ _ F) as [F1 F2], (finite_mul _ _ F') as [F1' F2'].
  rewrite (proj1 (proj2 (mul_real x y V Vy)) F), (proj1 (proj2 (mul_real x' y' V' Vy')) F').
  unfold normal_product_in in *.
  assert (E : f64_real x' * f64_real y' = two (a + b) * (f64_real x * f64_real y))
    by (rewrite (L F1 F1'), (Ly F2 F2'), two_plus; ring).
  rewrite E in *; apply rnd_scale; auto.
Qed.

Lemma times_double k x y : times k x y ->
  times k (SFmul prec emax (SFadd prec emax (foz 1) (foz 1)) x)
          (SFmul prec emax (SFadd prec emax (foz 1) (foz 1)) y).
Proof.
  intros (V & V' & L); assert (T := two_valid).
  split; [apply mul_valid; auto|split; [apply mul_valid; auto|]].
  intros F F'; destruct (finite_mul _ _ F) as [_ F2], (finite_mul _ _ F') as [_ F2'].
  rewrite (proj1 (proj2 (mul_real _ x T V)) F), (proj1 (proj2 (mul_real _ y T V')) F'), two_real.
  rewrite !double_exact by auto; rewrite (L F2 F2'); ring.
Qed.

Lemma times_abs k x y : times k x y -> times k (SFabs x) (SFabs y).
Proof.
  intros (V & V' & L); destruct (abs_real x) as (E & W & I), (abs_real y) as (E' & W' & I').
  split; [auto|split; [auto|]]; rewrite I, I', E, E'; intros F F'; rewrite (L F F'), Rabs_mult, (Rabs_pos_eq (two k));
    [ring|left; apply two_pos].
Qed.

Lemma times_div a b x x' y y' : times a x x' -> times b y y' -> (normal_quotient_in emax) x y -> (normal_quotient_in emax) x' y' ->
  times (a - b) (SFdiv prec emax x y) (SFdiv prec emax x' y').
Proof.
  intros (V & V' & L) (Vy & Vy' & Ly) [Ny N] [Ny' N']; split; [apply div_valid; auto|split; [apply div_valid; auto|]].
  intros F F'; assert (F1 := finite_div _ _ F); assert (F1' := finite_div _ _ F').
  rewrite (proj1 (proj2 (div_real x y V Vy Ny)) F), (proj1 (proj2 (div_real x' y' V' Vy' Ny')) F').
  assert (E : f64_real x' / f64_real y' = two (a - b) * (f64_real x / f64_real y)).
  { rewrite (L F1 F1'), (Ly (finite_real _ Ny) (finite_real _ Ny')), two_minus; field.
    split; [exact Ny|apply Rgt_not_eq, two_pos]. }
  rewrite E in *; apply rnd_scale; auto.
Qed.

Lemma product_swap x y : (normal_product_in emax) x y -> (normal_product_in emax) y x.
Proof. unfold normal_product_in; rewrite (Rmult_comm (f64_real y)); auto. Qed.

Section Runs.
Variables (pow : f64 -> f64 -> f64) (lib : libfn -> f64 -> f64).
#[local] Instance s64x : Scalar f64 := float_scalar prec emax pow lib.
Variables (w : ident -> Z) (c d : ctx f64).

Definition both_products (x y x' y' : f64) : Prop := (normal_product_in emax) x y /\ (normal_product_in emax) x' y'.

Lemma tree_scales n : forall deg, ctx_wf c -> ctx_wf d -> written c n -> agrees c n -> agrees d n ->
  inputs_all fvalid c n -> inputs_all fvalid d n -> scaled_inputs w c d ->
  no_underflow_in c emax n -> no_underflow_in d emax n -> homogeneous w c n deg ->
  rel (times deg) (steps c n) (steps d n).
Proof.
  induction n; intros deg Wc Wd Hw Ag Ag' [Iv Ic] [Jv Jc] Sc Nc Nd Hm; try contradiction.
  - (* Var *)
    cbn [steps homogeneous] in *; unfold var_tensor; specialize (Sc i); subst deg.
    destruct (c i) as [v|] eqn:E, (d i) as [u|] eqn:E'; try contradiction.
    + destruct Sc as [D L]; split; [exact D|]; cbn [tdims tat tensor_of]; intros ix Bx.
      split; [apply (Iv i v E); exact Bx|split; [apply (Jv i u E'); rewrite <- D; exact Bx|]].
      intros _ _; apply L; exact Bx.
    + split; [reflexivity|]; intros; apply times_zero.
  - (* Const *)
    cbn [homogeneous] in Hm; subst deg; split; [reflexivity|]; intros ix Bx; apply times_refl, Ic; exact Bx.
  - (* Un *)
    assert (I : inputs_all fvalid c n) by (split; auto); assert (J : inputs_all fvalid d n) by (split; auto).
    assert (T1 := times_refl (foz 1) one_valid).
    destruct u; try contradiction; cbn [steps homogeneous] in *; try (destruct Hm as [-> Hm]).
    + eapply rel_un; [exact (IHn _ Wc Wd Hw Ag Ag' I J Sc Nc Nd Hm)|]; intros x y H; apply times_sub; auto.
    + eapply rel_un; [exact (IHn _ Wc Wd Hw Ag Ag' I J Sc Nc Nd Hm)|]; intros x y H; apply times_sub; auto.
    + eapply rel_un; [exact (IHn _ Wc Wd Hw Ag Ag' I J Sc Nc Nd Hm)|]; intros x y H; apply times_add; auto.
    + eapply rel_un; [exact (IHn _ Wc Wd Hw Ag Ag' I J Sc Nc Nd Hm)|]; intros x y H; apply times_double; auto.
    + eapply rel_un; [exact (IHn _ Wc Wd Hw Ag Ag' I J Sc Nc Nd Hm)|]; intros x y H; apply times_neg; auto.
    + eapply rel_un; [exact (IHn _ Wc Wd Hw Ag Ag' I J Sc Nc Nd Hm)|]; intros x y H; apply times_abs; auto.
    + destruct Nc as [Nc Pc], Nd as [Nd Pd].
      destruct (IHn _ Wc Wd Hw Ag Ag' I J Sc Nc Nd Hm) as [D E].
      split; [exact D|]; cbn [tdims tat]; intros ix Bx.
      apply (times_mul 0 0); [apply E; exact Bx|apply times_sub; [exact T1|apply E; exact Bx]| |].
      * apply Pc; exact Bx.
      * apply Pd; rewrite <- D; exact Bx.
  - (* Sum *)
    cbn [steps homogeneous] in *; apply rel_sum; [apply times_zero|intros; apply times_add; auto|].
    exact (IHn deg Wc Wd Hw Ag Ag' (conj Iv Ic) (conj Jv Jc) Sc Nc Nd Hm).
  - (* Add *)
    destruct Hw as [W1 W2], Ag as (A1 & A2 & D), Ag' as (A1' & A2' & _), Ic as [I1 I2], Jc as [J1 J2],
      Nc as [N1 N2], Nd as [M1 M2], Hm as [H1 H2]; cbn [steps].
    eapply rel_crossed; [apply (IHn1 deg)|apply (IHn2 deg)|exact D| |]; auto; try (split; auto; fail);
      intros _ x x' y y' L L'; apply times_add; auto.
  - (* Sub *)
    destruct Hw as [W1 W2], Ag as (A1 & A2 & D), Ag' as (A1' & A2' & _), Ic as [I1 I2], Jc as [J1 J2],
      Nc as [N1 N2], Nd as [M1 M2], Hm as [H1 H2]; cbn [steps].
    eapply rel_crossed; [apply (IHn1 deg)|apply (IHn2 deg)|exact D| |]; auto; try (split; auto; fail);
      intros _ x x' y y' L L'; apply times_sub; auto.
  - (* Mul *)
    destruct Hw as [W1 W2], Ag as (A1 & A2 & D), Ag' as (A1' & A2' & _), Ic as [I1 I2], Jc as [J1 J2],
      Nc as (N1 & N2 & Pc), Nd as (M1 & M2 & Pd), Hm as (a & b & H1 & H2 & ->); cbn [steps] in *.
    assert (R1 : rel (times a) (steps c n1) (steps d n1)) by (apply IHn1; auto; split; auto).
    assert (R2 : rel (times b) (steps c n2) (steps d n2)) by (apply IHn2; auto; split; auto).
    apply (rel_crossed_if (times a) (times b) _ both_products); auto.
    + intros ix Bx; split; [apply Pc; exact Bx|apply Pd].
      unfold crossed, pointwise in *; rewrite <- (proj1 R1), <- (proj1 R2).
      destruct (tdims (steps c n1)) eqn:E1, (tdims (steps c n2)) as [|? [|? ?]] eqn:E2; cbn [tdims] in *;
        rewrite <- ?(proj1 R1), <- ?(proj1 R2), ?E1, ?E2 in *; exact Bx.
    + intros _ x x' y y' L L' [Q Q']; apply times_mul; auto.
    + intros _ x x' y y' L L' [Q Q']; rewrite Z.add_comm; apply times_mul; auto using product_swap.
  - (* Div *)
    destruct Hw as [W1 W2], Ag as (A1 & A2 & D), Ag' as (A1' & A2' & _), Ic as [I1 I2], Jc as [J1 J2],
      Nc as (N1 & N2 & Pc), Nd as (M1 & M2 & Pd), Hm as (a & b & H1 & H2 & Hk); cbn [steps] in *.
    assert (R1 : rel (times a) (steps c n1) (steps d n1)) by (apply IHn1; auto; split; auto).
    assert (R2 : rel (times b) (steps c n2) (steps d n2)) by (apply IHn2; auto; split; auto).
    apply (rel_crossed_if (times a) (times b) _ (fun x y x' y' =>
             if exchanged c n1 n2 then (normal_quotient_in emax) y x /\ (normal_quotient_in emax) y' x'
             else (normal_quotient_in emax) x y /\ (normal_quotient_in emax) x' y')); auto.
    + intros ix Bx; specialize (Pc ix Bx); specialize (Pd ix); unfold dividend_divisor, exchanged in *.
      unfold crossed, pointwise in *; rewrite <- (proj1 R1), <- (proj1 R2) in Pd.
      destruct (tdims (steps c n1)) eqn:E1, (tdims (steps c n2)) as [|? [|? ?]] eqn:E2; cbn [tdims] in *;
        rewrite <- ?(proj1 R1), <- ?(proj1 R2), ?E1, ?E2 in *; split; auto.
    + intros Y x x' y y' L L'; change (exchanged c n1 n2 = false) in Y; rewrite Y in *; intros [Q Q']; subst deg.
      apply times_div; auto.
    + intros Y x x' y y' L L'; change (exchanged c n1 n2 = true) in Y; rewrite Y in *; intros [Q Q']; subst deg.
      apply times_div; auto.
  - (* Contract *)
    destruct Hw as (W1 & W2 & _), Ic as [I1 I2], Jc as [J1 J2],
      Nc as (N1 & N2 & Pc), Nd as (M1 & M2 & Pd), Hm as (a & b & H1 & H2 & ->).
    assert (A1 : agrees c n1) by (destruct axes; apply Ag).
    assert (A2 : agrees c n2) by (destruct axes; apply Ag).
    assert (A1' : agrees d n1) by (destruct axes; apply Ag').
    assert (A2' : agrees d n2) by (destruct axes; apply Ag').
    assert (R1 : rel (times a) (steps c n1) (steps d n1)) by (apply IHn1; auto; split; auto).
    assert (R2 : rel (times b) (steps c n2) (steps d n2)) by (apply IHn2; auto; split; auto).
    assert (Q : forall ix jx, in_box (tdims (steps c n1)) ix -> in_box (tdims (steps c n2)) jx ->
              axes = 0%nat \/ last ix 0%nat = hd 0%nat jx ->
              both_products (tat (steps c n1) ix) (tat (steps c n2) jx) (tat (steps d n1) ix) (tat (steps d n2) jx)).
    { intros ix jx B1 B2 O; split; [apply Pc; auto|apply Pd; auto]; rewrite <- ?(proj1 R1), <- ?(proj1 R2); auto. }
    destruct axes as [|axes]; cbn [steps].
    + eapply rel_outer_if with (C := both_products); [| |exact R1|exact R2|auto];
        intros x x' y y' L L' [P P']; [|rewrite Z.add_comm]; apply times_mul; auto using product_swap.
    + destruct Ag as (_ & _ & D).
      eapply rel_inner_if with (C := both_products); [apply times_zero|intros; apply times_add; auto| |exact D|exact R1|exact R2|auto].
      intros x x' y y' L L' [P P']; apply times_mul; auto.
Qed.

Lemma scaling (c' d' : ctx f64) (n : node f64) k v u :
  ctx_wf c -> ctx_wf d -> node_wf n -> written c n -> written d n ->
  inputs_all fvalid c n -> inputs_all fvalid d n -> scaled_inputs w c d ->
  no_underflow_in c emax n -> no_underflow_in d emax n -> homogeneous w c n k ->
  evaluate n c = (c', Ok v) -> evaluate n d = (d', Ok u) ->
  dims (vshape v) = dims (vshape u) /\
  forall ix, in_box (dims (vshape v)) ix ->
    finite (vat f64_zero v ix) -> finite (vat f64_zero u ix) ->
    f64_real (vat f64_zero u ix) = powerRZ 2 k * f64_real (vat f64_zero v ix).
Proof.
  intros Wc Wd W Hw Hw' I J Sc Nc Nd Hm H H'.
  destruct (steps_claim c c' n v Wc W Hw H) as (-> & Wv & D & E).
  destruct (steps_claim d d' n u Wd W Hw' H') as (-> & Ww & D' & E').
  assert (Ag := evaluate_agrees c n Wc c v W Hw H); assert (Ag' := evaluate_agrees d n Wd d u W Hw' H').
  destruct (tree_scales n k Wc Wd Hw Ag Ag' I J Sc Nc Nd Hm) as [Q K].
  split; [congruence|]; intros ix Bx F F'; rewrite D in Bx; assert (Bx' := Bx); rewrite Q in Bx'.
  change (vat f64_zero v ix) with (vat fzero v ix) in *; change (vat f64_zero u ix) with (vat fzero u ix) in *.
  rewrite (E ix Bx), (E' ix Bx') in *.
  apply (K ix Bx); auto.
Qed.
End Runs.

End Formats.
