(** Rounding errors through the structural short cuts, and of evaluated adjoints. *)
From Coq Require Import List Arith ZArith Reals SpecFloat Bool Lia Lra.
Import ListNotations.
From Verif Require Import Base Shapes Scalar Buffers Spec Contraction Node Eval Types Instances
  Vocab Math Real_math Float_math Index_facts Buffers_facts Spec_facts Contraction_facts
  Contraction_entries Match_facts Eval_facts Typing_facts Progress_facts Exact_facts Math_facts
  Instance_facts Float_facts Shortcut_facts Float_claims Scalar_claims.
Local Open Scope R_scope.

(** Formats: precision and largest exponent. *)
Section Formats.
Context {prec emax : Z} {Fm : Format prec emax}.
Notation rnd := (Float_facts.rnd prec emax).
Notation uro := (Float_facts.uro prec).
Notation uro_pos := (Float_facts.uro_pos (prec := prec)).
Notation fvalid := (float_valid prec emax).
Notation foz := (float_of_Z prec emax).
Notation good := (Float_claims.good (prec := prec) (emax := emax)).
Notation grow_le := (Float_claims.grow_le (prec := prec)).
Notation grow := (Float_claims.grow (prec := prec)).
Notation from_zero := (Float_claims.from_zero (prec := prec) (emax := emax)).
Notation one_real := (Float_claims.one_real (prec := prec) (emax := emax)).
Notation one_valid := (Float_claims.one_valid (prec := prec) (emax := emax)).
Notation two_real := (Float_claims.two_real (prec := prec) (emax := emax)).
Notation two_valid := (Float_claims.two_valid (prec := prec) (emax := emax)).
Notation two_finite := (Float_claims.two_finite (prec := prec) (emax := emax)).
Notation one_finite := (Float_claims.one_finite (prec := prec) (emax := emax)).
Notation abs_real := (Float_claims.abs_real (prec := prec) (emax := emax)).
Notation small_int := (Float_claims.small_int (prec := prec) (emax := emax)).

Notation gam k := ((1 + uro) ^ k - 1).

Lemma gam_pos k : 0 <= gam k.
Proof. assert (G := grow k); lra. Qed.

Lemma gam_le k l : (k <= l)%nat -> gam k <= gam l.
Proof. intro H; assert (G := grow_le k l H); lra. Qed.

(** A zero stands for something small. *)
Lemma good_null k x e a : good k x e a -> SFeqb x f64_zero = true -> Rabs e <= gam k * a.
Proof.
  intros (V & H & K) Z; apply f64_zero_inv in Z; destruct Z as [b ->].
  specialize (K Logic.I); cbn [f64_real] in K; rewrite Rminus_0_l, Rabs_Ropp in K; exact K.
Qed.

Lemma good_of_null k e a : Rabs e <= a -> Rabs e <= gam k * a -> good k f64_zero e a.
Proof.
  intros H K; split; [reflexivity|split; [exact H|]]; intros _.
  cbn [f64_zero f64_real]; rewrite Rminus_0_l, Rabs_Ropp; exact K.
Qed.

(** A small term may be left out. *)
Lemma good_drop k x e a f b : good k x e a -> Rabs f <= b -> Rabs f <= gam k * b -> good k x (e + f) (a + b).
Proof.
  intros (V & H & K) Hf Kf; split; auto; split; [apply Rle_trans with (1 := Rabs_triang _ _); lra|].
  intro Fi; replace (f64_real x - (e + f)) with ((f64_real x - e) + - f) by ring.
  apply Rle_trans with (1 := Rabs_triang _ _); rewrite Rabs_Ropp; assert (J := K Fi); lra.
Qed.

Lemma null_mul k l x e a y f b : good k x e a -> good l y f b ->
  SFeqb x f64_zero = true \/ SFeqb y f64_zero = true ->
  Rabs (e * f) <= a * b /\ Rabs (e * f) <= gam (k + l) * (a * b).
Proof.
  intros G G' Z; assert (Na := good_nonneg _ _ _ _ G); assert (Nb := good_nonneg _ _ _ _ G').
  assert (He : Rabs e <= a) by apply G; assert (Hf : Rabs f <= b) by apply G'.
  rewrite Rabs_mult; split; [apply Rmult_le_compat; auto using Rabs_pos|].
  destruct Z as [Z|Z].
  - assert (N := good_null _ _ _ _ G Z); assert (L := gam_le k (k + l) ltac:(lia)); assert (P := gam_pos k).
    apply Rle_trans with (gam k * a * b); [apply Rmult_le_compat; auto using Rabs_pos|].
    rewrite Rmult_assoc; apply Rmult_le_compat_r; [apply Rmult_le_pos; auto|exact L].
  - assert (N := good_null _ _ _ _ G' Z); assert (L := gam_le l (k + l) ltac:(lia)); assert (P := gam_pos l).
    apply Rle_trans with (a * (gam l * b)); [apply Rmult_le_compat; auto using Rabs_pos|].
    replace (a * (gam l * b)) with (gam l * (a * b)) by ring.
    apply Rmult_le_compat_r; [apply Rmult_le_pos; auto|exact L].
Qed.

Section Like.
Variables (pow : f64 -> f64 -> f64) (lib : libfn -> f64 -> f64) (inf : R) (sp : libfn -> R -> R).
#[local] Instance e64 : Scalar f64 := float_scalar prec emax pow lib.

Lemma good_add_like k x e a y f b z : good k x e a -> good k y f b -> add_like x y z ->
  good (S k) z (e + f) (a + b).
Proof.
  intros G G' [->|[[Z ->]|[Z ->]]].
  - apply good_add; auto.
  - apply good_le with k; [|lia]; rewrite (Rplus_comm e), (Rplus_comm a).
    apply good_drop; [exact G'|apply G|exact (good_null _ _ _ _ G Z)].
  - apply good_le with k; [|lia]; apply good_drop; [exact G|apply G'|exact (good_null _ _ _ _ G' Z)].
Qed.

Lemma good_sub_like k x e a y f b z : good k x e a -> good k y f b -> sub_like x y z ->
  good (S k) z (e - f) (a + b).
Proof.
  intros G G' [->|[Z ->]].
  - apply good_sub; auto.
  - apply good_le with k; [|lia]; unfold Rminus; assert (N := good_null _ _ _ _ G' Z).
    apply good_drop; [exact G| |]; rewrite Rabs_Ropp; [apply G'|exact N].
Qed.

Lemma good_mul_like k l x e a y f b z : good k x e a -> good l y f b -> (normal_product_in emax) x y ->
  mul_like x y z -> good (S (k + l)) z (e * f) (a * b).
Proof.
  intros G G' N [->|[Z ->]].
  - apply good_mul; auto.
  - apply good_le with (k + l)%nat; [|lia].
    destruct (null_mul _ _ _ _ _ _ _ _ G G' Z); apply good_of_null; auto.
Qed.

(** Sums of real numbers. *)
Notation rsum A := (@sum_over R (R_scalar inf sp) A).

Lemma rsum_cons (A : Type) i (l : list A) g : rsum A (i :: l) g = g i + rsum A l g.
Proof. exact (sum_over_cons (R_exact inf sp) A i l g). Qed.

Lemma rsum_bound (A : Type) q (l : list A) g h :
  (forall i, In i l -> Rabs (g i) <= q * h i) -> Rabs (rsum A l g) <= q * rsum A l h.
Proof.
  induction l as [|i l IH]; intro H.
  - unfold sum_over; cbn; rewrite Rabs_R0; lra.
  - rewrite !rsum_cons; apply Rle_trans with (1 := Rabs_triang _ _).
    assert (K := H i (or_introl eq_refl)); assert (J := IH (fun j Hj => H j (or_intror Hj))); lra.
Qed.

Lemma rsum_const (A : Type) (l : list A) p : rsum A l (fun _ => p) = INR (length l) * p.
Proof.
  induction l as [|i l IH]; [unfold sum_over; cbn; ring|].
  rewrite rsum_cons, IH; cbn [length]; rewrite S_INR; ring.
Qed.

Lemma rsum_sub (A : Type) (l : list A) f g : rsum A l (fun i => f i - g i) = rsum A l f - rsum A l g.
Proof.
  induction l as [|i l IH]; [unfold sum_over; cbn; ring|]; rewrite !rsum_cons, IH; ring.
Qed.

Lemma rsum_split n i (g : nat -> R) : (i < n)%nat ->
  rsum nat (seq 0 n) g = g i + rsum nat (seq 0 n) (fun k => if Nat.eqb i k then 0 else g k).
Proof.
  intro H; rewrite <- (sum_kron (R_exact inf sp) n i g H).
  rewrite <- (sum_over_add (R_exact inf sp)); apply (sum_over_ext (R_exact inf sp)).
  intros k _; destruct (Nat.eqb i k); cbn; ring.
Qed.

(** Inner products. *)
Lemma good_dot_like n k l (f f' : nat -> f64) (g g' h h' : nat -> R) z :
  (forall i, (i < n)%nat -> good k (f i) (g i) (h i)) ->
  (forall i, (i < n)%nat -> good l (f' i) (g' i) (h' i)) ->
  (forall i, (i < n)%nat -> (normal_product_in emax) (f i) (f' i)) ->
  dot_like n f f' z ->
  good (2 + k + l + n) z (rsum nat (seq 0 n) (fun i => g i * g' i)) (rsum nat (seq 0 n) (fun i => h i * h' i)).
Proof.
  intros H H' N [->|[(i & Hi & Z & ->)|[[Z ->]|(fx & fy & m & E & Em & ->)]]].
  - apply good_le with (k + l + n)%nat; [|lia].
    assert (K := dot_follows (prec := prec) (emax := emax) pow lib inf sp good (normal_product_in emax) (fun _ => True)).
    apply K; auto.
    + exact good_le.
    + exact good_nonneg.
    + apply good_of_null; rewrite Rabs_R0; [lra|simpl; lra].
    + exact good_from_zero.
    + intros; apply good_add; auto.
    + intros; apply good_mul; auto.
  - apply good_le with (S (k + l)); [|lia].
    rewrite (rsum_split n i (fun j => g j * g' j)), (rsum_split n i (fun j => h j * h' j)) by exact Hi.
    apply good_drop.
    + apply good_mul; auto.
    + rewrite <- (Rmult_1_l (rsum nat (seq 0 n) (fun j => if Nat.eqb i j then 0 else h j * h' j))).
      apply rsum_bound; intros j Hj; apply in_seq in Hj; destruct (Nat.eqb i j) eqn:Q; [rewrite Rabs_R0; lra|].
      apply Nat.eqb_neq in Q; rewrite Rmult_1_l.
      apply (null_mul k l (f j) (g j) (h j) (f' j) (g' j) (h' j)); [apply H|apply H'|apply Z]; lia.
    + apply rsum_bound; intros j Hj; apply in_seq in Hj; destruct (Nat.eqb i j) eqn:Q; [rewrite Rabs_R0; lra|].
      apply Nat.eqb_neq in Q.
      destruct (null_mul k l (f j) (g j) (h j) (f' j) (g' j) (h' j)) as [B1 B2]; [apply H|apply H'|apply Z|]; try lia.
      apply Rle_trans with (1 := B2); apply Rmult_le_compat_r; [|apply gam_le; lia].
      apply Rle_trans with (2 := B1), Rabs_pos.
  - apply good_le with (k + l)%nat; [|lia].
    assert (B : forall j, (j < n)%nat -> Rabs (g j * g' j) <= h j * h' j /\ Rabs (g j * g' j) <= gam (k + l) * (h j * h' j)).
    { intros j Hj; apply (null_mul k l (f j) (g j) (h j) (f' j) (g' j) (h' j)); [apply H|apply H'|apply Z]; exact Hj. }
    apply good_of_null.
    + rewrite <- (Rmult_1_l (rsum nat (seq 0 n) (fun j => h j * h' j))).
      apply rsum_bound; intros j Hj; apply in_seq in Hj; rewrite Rmult_1_l; apply B; lia.
    + apply rsum_bound; intros j Hj; apply in_seq in Hj; apply B; lia.
  - cbn [fof_usize e64 float_scalar] in Em; inversion Em; subst m; clear Em.
    cbn [fmul e64 float_scalar].
    destruct n as [|n'].
    { assert (X : SFmul prec emax (SFmul prec emax (foz (Z.of_nat 0)) fx) fy = S754_nan \/
                  exists b, SFmul prec emax (SFmul prec emax (foz (Z.of_nat 0)) fx) fy = S754_zero b).
      { change (foz (Z.of_nat 0)) with f64_zero.
        destruct fx as [sx|sx| |sx mx ex], fy as [sy|sy| |sy my ey]; cbn; auto; right; eexists; reflexivity. }
      unfold sum_over; cbn [seq fold_left fzero R_scalar].
      destruct X as [->|[b ->]]; (split; [reflexivity|split; [rewrite Rabs_R0; lra|]]); [intros []|].
      intros _; cbn [f64_real]; rewrite Rminus_0_r, Rabs_R0; lra. }
    set (n := S n') in *.
    assert (P0 : (0 < n)%nat) by (unfold n; lia).
    assert (Vx : fvalid fx) by (destruct (E 0%nat P0) as [<- _]; apply H; exact P0).
    assert (Vy : fvalid fy) by (destruct (E 0%nat P0) as [_ <-]; apply H'; exact P0).
    assert (Np : (normal_product_in emax) fx fy) by (destruct (E 0%nat P0) as [<- <-]; apply N; exact P0).
    assert (Hx : forall i, (i < n)%nat -> good k fx (g i) (h i)) by (intros i Hi; destruct (E i Hi) as [<- _]; auto).
    assert (Hy : forall i, (i < n)%nat -> good l fy (g' i) (h' i)) by (intros i Hi; destruct (E i Hi) as [_ <-]; auto).
    set (q := SFmul prec emax (foz (Z.of_nat n)) fx) in *.
    assert (Vq : fvalid q) by (apply mul_real; auto; apply of_Z_real).
    set (G := rsum nat (seq 0 n) (fun i => g i * g' i)); set (A := rsum nat (seq 0 n) (fun i => h i * h' i)).
    assert (GA : Rabs G <= A).
    { rewrite <- (Rmult_1_l A); apply rsum_bound; intros j Hj; apply in_seq in Hj; rewrite Rmult_1_l, Rabs_mult.
      assert (J : (j < n)%nat) by lia.
      apply Rmult_le_compat; auto using Rabs_pos; [apply (Hx j J)|apply (Hy j J)]. }
    split; [apply mul_real; auto|split; [exact GA|]].
    intro Fi; destruct (finite_mul _ _ Fi) as [Fq Fy]; destruct (finite_mul _ _ Fq) as [_ Fx].
    destruct (mul_real q fy Vq Vy) as (_ & Er & _); rewrite (Er Fi).
    destruct (count_times n fx Vx Fq) as (d1 & d2 & D1 & D2 & Eq & Ge); fold q in Eq, Ge.
    assert (R3 : exists d, Rabs d <= uro /\ rnd (f64_real q * f64_real fy) = f64_real q * f64_real fy * (1 + d)).
    { apply rnd_rel; destruct Np as [Z|L].
      - left; rewrite Eq; replace (INR n * f64_real fx * (1 + d1) * (1 + d2) * f64_real fy)
          with (INR n * (f64_real fx * f64_real fy) * (1 + d1) * (1 + d2)) by ring; rewrite Z; ring.
      - right; apply Rle_trans with (1 := L); rewrite !Rabs_mult; apply Rmult_le_compat_r; [apply Rabs_pos|].
        apply Ge; lia. }
    destruct R3 as (d3 & D3 & ->); rewrite Eq.
    set (p := f64_real fx * f64_real fy).
    assert (Pt : forall j, (j < n)%nat -> Rabs (p - g j * g' j) <= gam (k + l) * (h j * h' j)).
    { intros j J; assert (X := Hx j J); assert (Y := Hy j J).
      assert (Mx := good_mag _ _ _ _ X Fx); assert (My := good_mag _ _ _ _ Y Fy).
      assert (Na := good_nonneg _ _ _ _ X); assert (Nb := good_nonneg _ _ _ _ Y).
      destruct X as (_ & X1 & X2), Y as (_ & Y1 & Y2); specialize (X2 Fx); specialize (Y2 Fy).
      rewrite pow_add; unfold p.
      set (a := (1 + uro) ^ k) in *; set (b := (1 + uro) ^ l) in *.
      replace (f64_real fx * f64_real fy - g j * g' j)
        with ((f64_real fx - g j) * f64_real fy + g j * (f64_real fy - g' j)) by ring.
      apply Rle_trans with (1 := Rabs_triang _ _); rewrite !Rabs_mult.
      apply Rle_trans with ((a - 1) * h j * (b * h' j) + h j * ((b - 1) * h' j)); [|right; ring].
      apply Rplus_le_compat; apply Rmult_le_compat; auto using Rabs_pos. }
    assert (Ps : Rabs (INR n * p - G) <= gam (k + l) * A).
    { replace (INR n * p) with (rsum nat (seq 0 n) (fun _ => p)) by (rewrite rsum_const, seq_length; reflexivity).
      unfold G; rewrite <- rsum_sub; apply rsum_bound; intros j Hj; apply in_seq in Hj; apply Pt; lia. }
    assert (U := uro_pos); assert (A0 : 0 <= A) by (apply Rle_trans with (2 := GA), Rabs_pos).
    set (b := (1 + uro) ^ (k + l)) in *.
    assert (B1 : 1 <= b) by apply grow.
    assert (Pm : Rabs (INR n * p) <= b * A).
    { replace (INR n * p) with ((INR n * p - G) + G) by ring; apply Rle_trans with (1 := Rabs_triang _ _); lra. }
    assert (D : Rabs ((1 + d1) * (1 + d2) * (1 + d3) - 1) <= (1 + uro) ^ 3 - 1).
    { replace ((1 + d1) * (1 + d2) * (1 + d3) - 1)
        with (d1 + (d2 + (d3 + (d1 * d2 + (d1 * d3 + (d2 * d3 + d1 * d2 * d3)))))) by ring.
      replace ((1 + uro) ^ 3 - 1)
        with (uro + (uro + (uro + (uro * uro + (uro * uro + (uro * uro + uro * uro * uro)))))) by ring.
      repeat (apply Rle_trans with (1 := Rabs_triang _ _); apply Rplus_le_compat; [|]);
        rewrite ?Rabs_mult; repeat apply Rmult_le_compat; auto using Rabs_pos;
        try (rewrite <- Rabs_mult; apply Rabs_pos). }
    replace (INR n * f64_real fx * (1 + d1) * (1 + d2) * f64_real fy * (1 + d3) - G)
      with ((INR n * p - G) + INR n * p * ((1 + d1) * (1 + d2) * (1 + d3) - 1)) by (unfold p; ring).
    apply Rle_trans with (1 := Rabs_triang _ _); rewrite (Rabs_mult (INR n * p)).
    apply Rle_trans with ((b - 1) * A + b * A * ((1 + uro) ^ 3 - 1)).
    { apply Rplus_le_compat; [exact Ps|]; apply Rmult_le_compat; auto using Rabs_pos. }
    apply Rle_trans with (gam (k + l + 3) * A).
    { rewrite pow_add; fold b; right; ring. }
    apply Rmult_le_compat_r; [exact A0|]; apply gam_le; lia.
Qed.

End Like.

End Formats.
