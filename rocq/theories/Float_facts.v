(** Rounding of the operations of f64, f32 and every other format, through Flocq's correctness theorems.  The model's operations
    are those of the standard library's [SpecFloat]; they are first matched with Flocq's. *)
From Coq Require Import ZArith Reals SpecFloat Bool Lia Lra.
From Flocq Require Import Core BinarySingleNaN Relative Plus_error Mult_error Sterbenz.
From Verif Require Import Instances Float_math.

Local Open Scope R_scope.

(** Formats: [prec] bits, exponents below [emax]. *)
Class Format (prec emax : Z) : Prop := format_bounds : (2 <= prec < emax)%Z.
#[global] Instance f64_format : Format 53 1024.
Proof. split; [discriminate|reflexivity]. Qed.
#[global] Instance f32_format : Format 24 128.
Proof. split; [discriminate|reflexivity]. Qed.

Section Formats.
Context {prec emax : Z} {Fm : Format prec emax}.
#[local] Instance prec_pos : Prec_gt_0 prec.
Proof. destruct Fm as [F1 F2]; unfold Prec_gt_0; lia. Qed.
#[local] Instance prec_emax : Prec_lt_emax prec emax.
Proof. apply Fm. Qed.
Notation lowest := (3 - emax - prec)%Z.
Notation fvalid := (float_valid prec emax).
Notation foz := (float_of_Z prec emax).

Lemma nearest_even s m l : round_nearest_even m l = choice_mode mode_NE s m l.
Proof.
  destruct l as [|c]; [reflexivity|]; destruct c; try reflexivity.
  simpl; unfold Round.cond_incr; destruct (Z.even m); reflexivity.
Qed.

Lemma round_aux_same s m e l :
  SpecFloat.binary_round_aux prec emax s m e l = binary_round_aux prec emax mode_NE s m e l.
Proof.
  unfold SpecFloat.binary_round_aux, binary_round_aux.
  destruct (shr_fexp _ _ _ _ _) as [mrs e']; rewrite (nearest_even s); reflexivity.
Qed.

Lemma round_same s m e :
  SpecFloat.binary_round prec emax s m e = binary_round prec emax mode_NE s m e.
Proof.
  unfold SpecFloat.binary_round, binary_round, shl_align_fexp.
  destruct (shl_align _ _ _); apply round_aux_same.
Qed.

Lemma normalize_same m e s :
  SpecFloat.binary_normalize prec emax m e s
  = B2SF (binary_normalize prec emax prec_pos prec_emax mode_NE m e s).
Proof.
  destruct m; simpl; try reflexivity; rewrite B2SF_SF2B; apply round_same.
Qed.

Notation bf := (binary_float prec emax).

Lemma add_same (x y : bf) : SFadd prec emax (B2SF x) (B2SF y) = B2SF (Bplus mode_NE x y).
Proof.
  destruct x as [sx|sx| |sx mx ex Bx], y as [sy|sy| |sy my ey By];
    try (simpl; try reflexivity; destruct (Bool.eqb sx sy); reflexivity).
  apply normalize_same.
Qed.

Lemma sub_same (x y : bf) : SFsub prec emax (B2SF x) (B2SF y) = B2SF (Bminus mode_NE x y).
Proof.
  destruct x as [sx|sx| |sx mx ex Bx], y as [sy|sy| |sy my ey By];
    try (simpl; try reflexivity; destruct (Bool.eqb _ _); reflexivity).
  simpl; unfold Zminus; rewrite <- cond_Zopp_negb; apply normalize_same.
Qed.

Lemma mul_same (x y : bf) : SFmul prec emax (B2SF x) (B2SF y) = B2SF (Bmult mode_NE x y).
Proof.
  destruct x as [sx|sx| |sx mx ex Bx], y as [sy|sy| |sy my ey By];
    try (simpl; reflexivity).
  simpl; rewrite B2SF_SF2B; apply round_aux_same.
Qed.

Lemma div_same (x y : bf) : SFdiv prec emax (B2SF x) (B2SF y) = B2SF (Bdiv mode_NE x y).
Proof.
  destruct x as [sx|sx| |sx mx ex Bx], y as [sy|sy| |sy my ey By];
    try (simpl; reflexivity).
  simpl; rewrite B2SF_SF2B.
  destruct (SFdiv_core_binary _ _ _ _ _ _) as [[mz ez] lz]; apply round_aux_same.
Qed.

Lemma f64_real_B (x : bf) : f64_real (B2SF x) = B2R x.
Proof.
  destruct x as [s|s| |s m e H]; try reflexivity.
  unfold f64_real, B2R, B2SF, F2R, Defs.Fnum, Defs.Fexp; rewrite bpow_powerRZ; simpl (IZR radix2).
  destruct s; simpl cond_Zopp; rewrite ?Pos2Z.opp_pos, ?opp_IZR; [|ring].
  change (Z.neg m) with (- Z.pos m)%Z; rewrite opp_IZR; ring.
Qed.

Lemma finite_B (x : bf) : finite (B2SF x) <-> is_finite x = true.
Proof. destruct x; simpl; split; auto; intuition discriminate. Qed.

Lemma valid_B (x : f64) : fvalid x -> exists b : bf, x = B2SF b.
Proof. intro H; exists (SF2B x H); symmetry; apply B2SF_SF2B. Qed.

Lemma B_valid (b : bf) : fvalid (B2SF b).
Proof. apply valid_binary_B2SF. Qed.

(** Rounding to nearest, ties to even, in the format of f64. *)
Definition rnd (x : R) : R := round radix2 (FLT_exp lowest prec) ZnearestE x.
Definition uro : R := / 2 ^ Z.to_nat prec.

Lemma uro_pos : 0 < uro.
Proof. unfold uro; apply Rinv_0_lt_compat; apply pow_lt; lra. Qed.

Lemma valid_format x : fvalid x -> generic_format radix2 (FLT_exp lowest prec) (f64_real x).
Proof.
  intro V; destruct (valid_B x V) as [b ->]; rewrite f64_real_B; apply generic_format_B2R.
Qed.

Lemma finite_add x y : finite (SFadd prec emax x y) -> finite x /\ finite y.
Proof. destruct x as [sx|sx| |], y as [sy|sy| |]; simpl; auto; destruct (Bool.eqb sx sy); auto. Qed.

Lemma finite_sub x y : finite (SFsub prec emax x y) -> finite x /\ finite y.
Proof. destruct x as [sx|sx| |], y as [sy|sy| |]; simpl; auto; destruct (Bool.eqb _ _); auto. Qed.

Lemma finite_mul x y : finite (SFmul prec emax x y) -> finite x /\ finite y.
Proof. destruct x as [sx|sx| |], y as [sy|sy| |]; simpl; auto. Qed.

Lemma overflow_infinite s : ~ finite (binary_overflow prec emax mode_NE s).
Proof. destruct s; simpl; auto. Qed.

Lemma add_real x y : fvalid x -> fvalid y ->
  fvalid (SFadd prec emax x y) /\
  (finite (SFadd prec emax x y) -> f64_real (SFadd prec emax x y) = rnd (f64_real x + f64_real y)) /\
  (finite x -> finite y -> Rabs (rnd (f64_real x + f64_real y)) < bpow radix2 emax ->
   finite (SFadd prec emax x y)).
Proof.
  intros Vx Vy; destruct (valid_B x Vx) as [a ->], (valid_B y Vy) as [b ->].
  rewrite add_same, !f64_real_B; split; [apply B_valid|].
  split.
  - intro Fi; assert (FF := Fi); rewrite <- add_same in FF; apply finite_add in FF.
    destruct FF as [Fa Fb]; apply finite_B in Fa; apply finite_B in Fb.
    assert (K := Bplus_correct prec emax _ _ mode_NE a b Fa Fb).
    destruct (Rlt_bool _ _); [destruct K as (K & _); exact K|].
    destruct K as [K _]; rewrite K in Fi; destruct (overflow_infinite _ Fi).
  - intros Fa Fb L; apply finite_B in Fa; apply finite_B in Fb.
    assert (K := Bplus_correct prec emax _ _ mode_NE a b Fa Fb).
    rewrite Rlt_bool_true in K by exact L; apply finite_B; apply K.
Qed.

Lemma sub_real x y : fvalid x -> fvalid y ->
  fvalid (SFsub prec emax x y) /\
  (finite (SFsub prec emax x y) -> f64_real (SFsub prec emax x y) = rnd (f64_real x - f64_real y)) /\
  (finite x -> finite y -> Rabs (rnd (f64_real x - f64_real y)) < bpow radix2 emax ->
   finite (SFsub prec emax x y)).
Proof.
  intros Vx Vy; destruct (valid_B x Vx) as [a ->], (valid_B y Vy) as [b ->].
  rewrite sub_same, !f64_real_B; split; [apply B_valid|].
  split.
  - intro Fi; assert (FF := Fi); rewrite <- sub_same in FF; apply finite_sub in FF.
    destruct FF as [Fa Fb]; apply finite_B in Fa; apply finite_B in Fb.
    assert (K := Bminus_correct prec emax _ _ mode_NE a b Fa Fb).
    destruct (Rlt_bool _ _); [destruct K as (K & _); exact K|].
    destruct K as [K _]; rewrite K in Fi; destruct (overflow_infinite _ Fi).
  - intros Fa Fb L; apply finite_B in Fa; apply finite_B in Fb.
    assert (K := Bminus_correct prec emax _ _ mode_NE a b Fa Fb).
    rewrite Rlt_bool_true in K by exact L; apply finite_B; apply K.
Qed.

Lemma mul_real x y : fvalid x -> fvalid y ->
  fvalid (SFmul prec emax x y) /\
  (finite (SFmul prec emax x y) -> f64_real (SFmul prec emax x y) = rnd (f64_real x * f64_real y)) /\
  (finite x -> finite y -> Rabs (rnd (f64_real x * f64_real y)) < bpow radix2 emax ->
   finite (SFmul prec emax x y)).
Proof.
  intros Vx Vy; destruct (valid_B x Vx) as [a ->], (valid_B y Vy) as [b ->].
  rewrite mul_same, !f64_real_B; split; [apply B_valid|].
  assert (K := Bmult_correct prec emax _ _ mode_NE a b); split.
  - intro Fi; destruct (Rlt_bool _ _); [destruct K as (K & _); exact K|].
    rewrite K in Fi; destruct (overflow_infinite _ Fi).
  - intros Fa Fb L; apply finite_B in Fa; apply finite_B in Fb.
    rewrite Rlt_bool_true in K by exact L; apply finite_B.
    destruct K as (_ & K & _); rewrite K, Fa, Fb; reflexivity.
Qed.

Lemma div_real x y : fvalid x -> fvalid y -> f64_real y <> 0 ->
  fvalid (SFdiv prec emax x y) /\
  (finite (SFdiv prec emax x y) -> f64_real (SFdiv prec emax x y) = rnd (f64_real x / f64_real y)) /\
  (finite x -> Rabs (rnd (f64_real x / f64_real y)) < bpow radix2 emax ->
   finite (SFdiv prec emax x y)).
Proof.
  intros Vx Vy N; destruct (valid_B x Vx) as [a ->], (valid_B y Vy) as [b ->].
  rewrite div_same, !f64_real_B in *; split; [apply B_valid|].
  assert (K := Bdiv_correct prec emax _ _ mode_NE a b N); split.
  - intro Fi; destruct (Rlt_bool _ _); [destruct K as (K & _); exact K|].
    rewrite K in Fi; destruct (overflow_infinite _ Fi).
  - intros Fa L; apply finite_B in Fa.
    rewrite Rlt_bool_true in K by exact L; apply finite_B.
    destruct K as (_ & K & _); rewrite K, Fa; reflexivity.
Qed.

Lemma opp_real x : f64_real (SFopp x) = - f64_real x.
Proof. destruct x as [[]|[]| |[] m e]; simpl; lra. Qed.

Lemma opp_valid x : fvalid x -> fvalid (SFopp x).
Proof. destruct x; auto. Qed.

Lemma opp_finite x : finite (SFopp x) <-> finite x.
Proof. destruct x; simpl; tauto. Qed.

(** Relative errors: of a sum always, of a product unless it underflows. *)
Lemma uro_bpow : / 2 * bpow radix2 (- prec + 1) = uro.
Proof.
  unfold uro; assert (P := prec_pos); unfold Prec_gt_0 in P.
  rewrite <- (bpow_plus radix2 (-1)); replace (-1 + (- prec + 1))%Z with (- prec)%Z by lia.
  rewrite bpow_opp; f_equal; rewrite <- (Z2Nat.id prec) at 1 by lia.
  rewrite bpow_powerRZ, <- pow_powerRZ; reflexivity.
Qed.
Lemma tiny_bpow : / 2 ^ Z.to_nat (emax - 2) = bpow radix2 (2 - emax).
Proof.
  destruct Fm as [F1 F2]; replace (2 - emax)%Z with (- (emax - 2))%Z by lia.
  rewrite bpow_opp; f_equal; rewrite <- (Z2Nat.id (emax - 2)) at 2 by lia.
  rewrite bpow_powerRZ, <- pow_powerRZ; reflexivity.
Qed.

Lemma rnd_rel x : (x = 0 \/ / 2 ^ Z.to_nat (emax - 2) <= Rabs x) ->
  exists d, Rabs d <= uro /\ rnd x = x * (1 + d).
Proof.
  intros [->|H].
  - exists 0; rewrite Rabs_R0; split; [left; apply uro_pos|].
    unfold rnd; rewrite round_0 by typeclasses eauto; ring.
  - destruct (relative_error_N_FLT_ex radix2 lowest prec prec_pos (fun z => negb (Z.even z)) x) as (d & Hd & E).
    + apply Rle_trans with (2 := H); rewrite tiny_bpow; right; f_equal; lia.
    + exists d; split; [|exact E].
      rewrite <- uro_bpow; exact Hd.
Qed.

Lemma rnd_sum x y : fvalid x -> fvalid y ->
  exists d, Rabs d <= uro /\ rnd (f64_real x + f64_real y) = (f64_real x + f64_real y) * (1 + d).
Proof.
  intros Vx Vy.
  destruct (FLT_plus_error_N_ex radix2 lowest prec (fun z => negb (Z.even z)) _ _
              (valid_format _ Vx) (valid_format _ Vy)) as (d & Hd & E).
  exists d; split; [|exact E].
  apply Rle_trans with (1 := Hd); unfold u_ro; rewrite uro_bpow.
  assert (U := uro_pos); apply Rmult_le_reg_r with (1 + uro); [lra|].
  unfold Rdiv; rewrite Rmult_assoc, Rinv_l by lra; nra.
Qed.

(** Numbers of the format are not changed. *)
Lemma rnd_id x : generic_format radix2 (FLT_exp lowest prec) x -> rnd x = x.
Proof. intro H; apply round_generic; [typeclasses eauto|exact H]. Qed.

Lemma pow_bpow : IZR (2 ^ prec) = bpow radix2 prec.
Proof. apply (IZR_Zpower radix2); destruct Fm as [F1 F2]; lia. Qed.

Lemma int_format z : (Z.abs z <= 2 ^ prec)%Z -> generic_format radix2 (FLT_exp lowest prec) (IZR z).
Proof.
  destruct Fm as [F1 F2]; intro H; destruct (Z.eq_dec (Z.abs z) (2 ^ prec)) as [E|E].
  - assert (G : generic_format radix2 (FLT_exp lowest prec) (IZR (2 ^ prec))).
    { rewrite pow_bpow; apply generic_format_FLT_bpow; [exact prec_pos|lia]. }
    destruct (Z.abs_eq_or_opp z) as [Q|Q]; rewrite Q in E.
    + rewrite E; exact G.
    + replace z with (- 2 ^ prec)%Z by lia; rewrite opp_IZR; apply generic_format_opp; exact G.
  - apply generic_format_FLT; exists (Defs.Float radix2 z 0); cbn [Defs.Fnum Defs.Fexp].
    + unfold F2R; cbn; ring.
    + change (Zaux.radix_val radix2) with 2%Z; lia.
    + lia.
Qed.

Lemma int_small z : (Z.abs z <= 2 ^ prec)%Z -> Rabs (IZR z) < bpow radix2 emax.
Proof.
  destruct Fm as [F1 F2]; intro H; rewrite <- abs_IZR; apply Rle_lt_trans with (IZR (2 ^ prec)); [apply IZR_le; exact H|].
  rewrite pow_bpow; apply bpow_lt; lia.
Qed.

(** Doubling is exact. *)
Lemma double_exact x : fvalid x -> rnd (2 * f64_real x) = 2 * f64_real x.
Proof.
  intro V; apply rnd_id; rewrite Rmult_comm; change 2 with (bpow radix2 1).
  apply mult_bpow_pos_exact_FLT; [apply valid_format; exact V|lia].
Qed.

(** Exact differences, order, and equality of floats with the same non-zero value. *)
Lemma rnd_le x y : x <= y -> rnd x <= rnd y.
Proof. intro H; apply round_le; try typeclasses eauto; exact H. Qed.

Lemma one_format : generic_format radix2 (FLT_exp lowest prec) 1.
Proof. apply (int_format 1); destruct Fm as [F1 F2]; assert (0 < 2 ^ prec)%Z by (apply Z.pow_pos_nonneg; lia); lia. Qed.

Lemma half_format : generic_format radix2 (FLT_exp lowest prec) (/ 2).
Proof. destruct Fm as [F1 F2]; change (/ 2) with (bpow radix2 (-1)); apply generic_format_FLT_bpow; [exact prec_pos|lia]. Qed.

Lemma one_minus_exact e : generic_format radix2 (FLT_exp lowest prec) e -> / 2 <= e <= 1 ->
  rnd (1 - e) = 1 - e.
Proof.
  intros H B; apply rnd_id, sterbenz; try typeclasses eauto; [apply one_format|exact H|lra].
Qed.

Lemma same_float x y : fvalid x -> fvalid y -> f64_real x = f64_real y -> f64_real x <> 0 -> x = y.
Proof.
  intros Vx Vy E N; destruct (valid_B x Vx) as [a ->], (valid_B y Vy) as [b ->].
  rewrite !f64_real_B in *; f_equal; apply B2R_inj; auto; apply is_finite_strict_B2R; congruence.
Qed.

Lemma huge_two : 2 < bpow radix2 emax.
Proof. destruct Fm as [F1 F2]; change 2 with (bpow radix2 1); apply bpow_lt; lia. Qed.

Lemma finite_real x : f64_real x <> 0 -> finite x.
Proof. destruct x; simpl; auto; lra. Qed.

(** Whole numbers and their multiples. *)
Lemma of_Z_real z : fvalid (foz z) /\
  (finite (foz z) -> f64_real (foz z) = rnd (IZR z)).
Proof.
  unfold float_of_Z; rewrite normalize_same; split; [apply B_valid|].
  assert (H := binary_normalize_correct prec emax prec_pos prec_emax mode_NE z 0 false).
  assert (E : F2R (Float radix2 z 0) = IZR z) by (unfold F2R; simpl; ring).
  cbv zeta in H; rewrite E in H; change (round radix2 _ _ (IZR z)) with (rnd (IZR z)) in H.
  intro Fi; destruct (Rlt_bool _ _) in H.
  - rewrite f64_real_B; tauto.
  - rewrite H in Fi; destruct (overflow_infinite _ Fi).
Qed.

Lemma of_Z_small z : (Z.abs z <= 2 ^ prec)%Z -> finite (foz z) /\ f64_real (foz z) = IZR z.
Proof.
  intro Sm; unfold float_of_Z; rewrite normalize_same.
  assert (H := binary_normalize_correct prec emax prec_pos prec_emax mode_NE z 0 false).
  assert (E : F2R (Float radix2 z 0) = IZR z) by (unfold F2R; simpl; ring).
  cbv zeta in H; rewrite E in H; change (round radix2 _ _ (IZR z)) with (rnd (IZR z)) in H.
  rewrite (rnd_id _ (int_format z Sm)), Rlt_bool_true in H by (apply int_small; exact Sm).
  destruct H as (H1 & H2 & _); rewrite f64_real_B, finite_B; auto.
Qed.

Lemma room_two : (2 <= 2 ^ prec)%Z.
Proof.
  assert (FB : (2 <= prec < emax)%Z) by exact Fm.
  change 2%Z with (2 ^ 1)%Z at 1; apply Z.pow_le_mono_r; lia.
Qed.

Lemma int_times x z : fvalid x ->
  exists d, Rabs d <= uro /\ rnd (IZR z * f64_real x) = IZR z * f64_real x * (1 + d).
Proof.
  intro V; destruct (Rle_or_lt (/ 2 ^ Z.to_nat (emax - 2)) (Rabs (IZR z * f64_real x))) as [H|H].
  { apply rnd_rel; right; exact H. }
  exists 0; split; [rewrite Rabs_R0; assert (U := uro_pos); lra|].
  rewrite Rplus_0_r, Rmult_1_r; apply rnd_id.
  assert (G := valid_format x V); apply FLT_format_generic in G; [|exact prec_pos].
  destruct G as [f E Hm He].
  apply generic_format_FLT.
  assert (X : IZR z * f64_real x = F2R (Float radix2 (z * Fnum f * 2 ^ (Fexp f - lowest)) lowest)).
  { rewrite E; unfold F2R; cbn [Fnum Fexp]; rewrite !mult_IZR.
    rewrite (IZR_Zpower radix2) by lia.
    rewrite !Rmult_assoc, <- bpow_plus; do 3 f_equal; lia. }
  exists (Float radix2 (z * Fnum f * 2 ^ (Fexp f - lowest)) lowest); cbn [Fnum Fexp]; [exact X| |lia].
  apply lt_IZR; rewrite abs_IZR.
  rewrite X in H; unfold F2R in H; cbn [Fnum Fexp] in H.
  rewrite Rabs_mult, (Rabs_pos_eq (bpow _ _)) in H by apply bpow_ge_0.
  apply Rmult_lt_reg_r with (bpow radix2 lowest); [apply bpow_gt_0|].
  apply Rlt_le_trans with (1 := H).
  destruct Fm as [F1 F2]; rewrite (IZR_Zpower radix2 prec) by lia; rewrite <- bpow_plus, tiny_bpow; apply bpow_le; lia.
Qed.

Lemma rnd_abs x : rnd (Rabs x) = Rabs (rnd x).
Proof. apply round_NE_abs; typeclasses eauto. Qed.

(** Conversion of a count followed by a product: two roundings, and nothing underflows. *)
Lemma count_times n x : fvalid x -> finite (SFmul prec emax (foz (Z.of_nat n)) x) ->
  exists d e, Rabs d <= uro /\ Rabs e <= uro /\
    f64_real (SFmul prec emax (foz (Z.of_nat n)) x) = INR n * f64_real x * (1 + d) * (1 + e) /\
    (n <> 0%nat -> Rabs (f64_real x) <= Rabs (f64_real (SFmul prec emax (foz (Z.of_nat n)) x))).
Proof.
  assert (FB : (2 <= prec < emax)%Z) by exact Fm.
  intros V Fi; destruct (finite_mul _ _ Fi) as [Fn Fx].
  destruct (of_Z_real (Z.of_nat n)) as [Vn En]; specialize (En Fn).
  destruct (mul_real _ x Vn V) as (_ & Er & _); rewrite (Er Fi).
  rewrite <- INR_IZR_INZ in En.
  assert (U := uro_pos).
  assert (R1 : exists d, Rabs d <= uro /\ f64_real (foz (Z.of_nat n)) = INR n * (1 + d)).
  { rewrite En; apply rnd_rel; destruct n as [|n]; [left; reflexivity|right].
    assert (G : 1 <= INR (S n)) by (rewrite S_INR; assert (P := pos_INR n); lra).
    rewrite Rabs_pos_eq by lra; apply Rle_trans with 1; [|exact G].
    rewrite <- Rinv_1; apply Rinv_le; [lra|]; apply pow_R1_Rle; lra. }
  assert (Ge : n <> 0%nat -> 1 <= f64_real (foz (Z.of_nat n))).
  { intro Nz; rewrite En; assert (H : rnd 1 <= rnd (INR n)).
    { apply rnd_le; destruct n as [|n]; [congruence|]; rewrite S_INR; assert (P := pos_INR n); lra. }
    rewrite (rnd_id 1 one_format) in H; exact H. }
  assert (R2 : exists e, Rabs e <= uro /\ rnd (f64_real (foz (Z.of_nat n)) * f64_real x) =
                 f64_real (foz (Z.of_nat n)) * f64_real x * (1 + e)).
  { destruct (Z_le_gt_dec (Z.of_nat n) (2 ^ prec)) as [L|L].
    - rewrite En; replace (rnd (INR n)) with (IZR (Z.of_nat n)); [apply int_times; exact V|].
      rewrite INR_IZR_INZ; symmetry; apply rnd_id, int_format; lia.
    - apply rnd_rel; destruct (Req_dec (f64_real x) 0) as [Z|Z]; [left; rewrite Z; ring|right].
      assert (T : bpow radix2 prec <= f64_real (foz (Z.of_nat n))).
      { rewrite En; assert (H : rnd (bpow radix2 prec) <= rnd (INR n)).
        { apply rnd_le; rewrite <- pow_bpow, INR_IZR_INZ; apply IZR_le; lia. }
        rewrite rnd_id in H; [exact H|apply generic_format_FLT_bpow; [exact prec_pos|lia]]. }
      assert (T' : bpow radix2 lowest <= Rabs (f64_real x)).
      { assert (G := valid_format x V).
        apply generic_format_abs in G.
        apply FLT_format_generic in G; [|exact prec_pos]; destruct G as [f E Hm He].
        rewrite E in *; unfold F2R in *.
        assert (P : 0 < IZR (Fnum f) * bpow radix2 (Fexp f)).
        { rewrite <- E; apply Rabs_pos_lt; exact Z. }
        assert (1 <= IZR (Fnum f)).
        { apply IZR_le; assert (0 < Fnum f)%Z; [|lia]; apply lt_IZR.
          apply Rmult_lt_reg_r with (bpow radix2 (Fexp f)); [apply bpow_gt_0|lra]. }
        apply Rle_trans with (bpow radix2 (Fexp f)); [apply bpow_le; exact He|].
        assert (B := bpow_gt_0 radix2 (Fexp f)); nra. }
      rewrite Rabs_mult; apply Rle_trans with (bpow radix2 prec * bpow radix2 lowest).
      + rewrite <- bpow_plus, tiny_bpow; apply bpow_le; lia.
      + apply Rmult_le_compat; try apply bpow_ge_0; auto.
        apply Rle_trans with (1 := T), Rle_abs. }
  destruct R1 as (d & Hd & Ed), R2 as (e & He & Ee); exists d, e; repeat split; auto.
  - rewrite Ee, Ed; ring.
  - intro Nz; specialize (Ge Nz); rewrite <- rnd_abs.
    assert (H : rnd (Rabs (f64_real x)) <= rnd (Rabs (f64_real (foz (Z.of_nat n)) * f64_real x))).
    { apply rnd_le; rewrite Rabs_mult, (Rabs_pos_eq (f64_real (foz _))) by lra.
      assert (P := Rabs_pos (f64_real x)); nra. }
    rewrite rnd_id in H; [exact H|apply generic_format_abs, valid_format; exact V].
Qed.
End Formats.
Arguments rnd : clear implicits.
Arguments uro : clear implicits.
