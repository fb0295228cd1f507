(** Factorials, the complementary error function and the sigmoid in f64, in the form used by
    Properties_float.v. *)
From Coq Require Import List Arith ZArith Reals SpecFloat Bool Lia Lra.
Import ListNotations.
From Verif Require Import Base Shapes Scalar Buffers Spec Contraction Node Eval Types Instances
  Vocab Math Code_math Float_math Index_facts Buffers_facts Eval_facts Float_facts Float_claims.

Section Aliases.
Context {F : Type} {SF : Scalar F}.

Lemma un_eval u (m : node F) c c' v :
  evaluate m c = (c', Ok v) -> evaluate (Un u m) c = (c', Ok (vmap (un_fn u) v)).
Proof.
  unfold evaluate; cbn [interp unary_fn f_eval]; intros ->; cbn [res_map]; rewrite vmutate_vmap; reflexivity.
Qed.

Lemma un_entries u u' (m : node F) c c' v : vwf v -> evaluate m c = (c', Ok v) ->
  exists w, evaluate (Un u (Un u' m)) c = (c', Ok w) /\ vshape w = vshape v /\
    forall ix, in_box (dims (vshape v)) ix -> vat fzero w ix = un_fn u (un_fn u' (vat fzero v ix)).
Proof.
  intros W E; eexists; split; [apply un_eval, un_eval; exact E|].
  split; [unfold vshape; rewrite !vmap_bty; reflexivity|].
  intros ix B; rewrite (vat_vmap _ _ fzero), (vat_vmap _ _ fzero); auto.
  - apply vmap_wf; exact W.
  - unfold vshape; rewrite vmap_bty; exact B.
Qed.

Lemma factorial_claim (m : node F) c c' v : vwf v -> evaluate m c = (c', Ok v) ->
  exists w, evaluate (factorial m) c = (c', Ok w) /\ vshape w = vshape v /\
    forall ix, in_box (dims (vshape v)) ix ->
      vat fzero w ix = flib Lgamma (fadd (vat fzero v ix) fone).
Proof. exact (un_entries Gamma AddOne m c c' v). Qed.

Lemma erfc_claim (m : node F) c c' v : vwf v -> evaluate m c = (c', Ok v) ->
  exists w, evaluate (erfc m) c = (c', Ok w) /\ vshape w = vshape v /\
    forall ix, in_box (dims (vshape v)) ix ->
      vat fzero w ix = fsub fone (flib Lerf (vat fzero v ix)).
Proof. exact (un_entries OneSub Erf m c c' v). Qed.
End Aliases.

Local Open Scope R_scope.

Section Reals.
Variables (inf : R) (sp : libfn -> R -> R).
#[local] Instance SR : Scalar R := R_scalar inf sp.

Lemma gamma_fact : sp Lgamma 1 = 1 -> (forall x, 1 <= x -> sp Lgamma (x + 1) = x * sp Lgamma x) ->
  forall k, sp Lgamma (INR k + 1) = INR (fact k).
Proof.
  intros G1 GS k; induction k as [|k IH].
  - simpl; rewrite Rplus_0_l; exact G1.
  - rewrite S_INR, GS by (assert (J := pos_INR k); lra).
    rewrite IH, <- S_INR; change (fact (S k)) with (S k * fact k)%nat; rewrite mult_INR; reflexivity.
Qed.

Lemma factorial_real (m : node R) c c' v :
  sp Lgamma 1 = 1 -> (forall x, 1 <= x -> sp Lgamma (x + 1) = x * sp Lgamma x) ->
  vwf v -> evaluate m c = (c', Ok v) ->
  exists w, evaluate (factorial m) c = (c', Ok w) /\
    forall ix k, in_box (dims (vshape v)) ix -> vat 0 v ix = INR k -> vat 0 w ix = INR (fact k).
Proof.
  intros G1 GS W E; destruct (factorial_claim m c c' v W E) as (w & Ew & _ & H).
  exists w; split; [exact Ew|]; intros ix k B Ek.
  assert (K := H ix B); cbn [fzero fone fadd flib SR R_scalar R_lib] in K; rewrite K, Ek.
  apply gamma_fact; assumption.
Qed.

Lemma erfc_real (m : node R) c c' v : vwf v -> evaluate m c = (c', Ok v) ->
  exists e w, evaluate (Un Erf m) c = (c', Ok e) /\ evaluate (erfc m) c = (c', Ok w) /\
    forall ix, in_box (dims (vshape v)) ix -> vat 0 e ix + vat 0 w ix = 1.
Proof.
  intros W E; destruct (erfc_claim m c c' v W E) as (w & Ew & _ & H).
  exists (vmap (un_fn Erf) v), w; split; [apply un_eval; exact E|split; [exact Ew|]].
  intros ix B; assert (K := H ix B); cbn [fzero fone fsub flib SR R_scalar R_lib] in K.
  rewrite (vat_vmap _ _ 0) by assumption; rewrite K; cbn; ring.
Qed.
End Reals.

(** Formats: precision and largest exponent. *)
Section Formats.
Context {prec emax : Z} {Fm : Format prec emax}.
Notation rnd := (Float_facts.rnd prec emax).
Notation uro := (Float_facts.uro prec).
Notation uro_pos := (Float_facts.uro_pos (prec := prec)).
Notation fvalid := (float_valid prec emax).
Notation foz := (float_of_Z prec emax).
Notation good := (Float_claims.good (prec := prec) (emax := emax)).
Notation grow_le := (Float_claims.grow_le (prec := prec)).
Notation grow := (Float_claims.grow (prec := prec)).
Notation from_zero := (Float_claims.from_zero (prec := prec) (emax := emax)).
Notation one_real := (Float_claims.one_real (prec := prec) (emax := emax)).
Notation one_valid := (Float_claims.one_valid (prec := prec) (emax := emax)).
Notation two_real := (Float_claims.two_real (prec := prec) (emax := emax)).
Notation two_valid := (Float_claims.two_valid (prec := prec) (emax := emax)).
Notation two_finite := (Float_claims.two_finite (prec := prec) (emax := emax)).
Notation one_finite := (Float_claims.one_finite (prec := prec) (emax := emax)).
Notation abs_real := (Float_claims.abs_real (prec := prec) (emax := emax)).
Notation small_int := (Float_claims.small_int (prec := prec) (emax := emax)).

(** [1 - (1 - e)] in f64. *)
Lemma twice_complement e : fvalid e -> / 2 <= f64_real e <= 1 ->
  SFsub prec emax (foz 1) (SFsub prec emax (foz 1) e) = e.
Proof.
  intros V B; assert (Fe : finite e) by (apply finite_real; lra).
  assert (F1 : finite (foz 1)) by (exact one_finite).
  assert (G := one_minus_exact _ (valid_format _ V) B).
  destruct (sub_real _ e one_valid V) as (Vd & Ed & Fd); rewrite one_real, G in Ed, Fd.
  assert (Hu := huge_two (prec := prec) (emax := emax)).
  assert (F : finite (SFsub prec emax (foz 1) e)) by (apply Fd; auto; rewrite Rabs_pos_eq; lra).
  specialize (Ed F).
  destruct (sub_real _ _ one_valid Vd) as (Vr & Er & Fr); rewrite one_real, Ed in Er, Fr.
  replace (1 - (1 - f64_real e)) with (f64_real e) in Er, Fr by ring.
  rewrite (rnd_id _ (valid_format _ V)) in Er, Fr.
  apply (same_float (prec := prec) (emax := emax)); auto.
  - apply Er, Fr; auto; rewrite Rabs_pos_eq; lra.
  - rewrite Er; [lra|]; apply Fr; auto; rewrite Rabs_pos_eq; lra.
Qed.

Lemma self_sub x : finite x -> SFsub prec emax x x = f64_zero.
Proof.
  destruct x as [[]|[]| |sx m e]; cbn [finite]; intro Fi; try contradiction; try reflexivity.
  cbn [SFsub]; rewrite Z.sub_diag; reflexivity.
Qed.

Lemma lost_complement tiny e : fvalid tiny -> SFsub prec emax (foz 1) tiny = foz 1 ->
  fvalid e -> 0 < f64_real e <= f64_real tiny ->
  SFsub prec emax (foz 1) e = foz 1 /\
  SFsub prec emax (foz 1) (SFsub prec emax (foz 1) e) = f64_zero.
Proof.
  intros Vt T V B; assert (Fe : finite e) by (apply finite_real; lra).
  assert (F1 := one_finite).
  assert (R1 : rnd 1 = 1) by (apply rnd_id, one_format).
  destruct (sub_real _ tiny one_valid Vt) as (_ & Et & _).
  rewrite T, one_real in Et; specialize (Et F1).
  assert (L : 1 <= rnd (1 - f64_real e)) by (rewrite Et at 1; apply rnd_le; lra).
  assert (U : rnd (1 - f64_real e) <= 1) by (rewrite <- R1 at 2; apply rnd_le; lra).
  destruct (sub_real _ e one_valid V) as (Vd & Ed & Fd); rewrite one_real in Ed, Fd.
  assert (Hu := huge_two (prec := prec) (emax := emax)).
  assert (F : finite (SFsub prec emax (foz 1) e)) by (apply Fd; auto; rewrite Rabs_pos_eq; lra).
  specialize (Ed F).
  assert (K : SFsub prec emax (foz 1) e = foz 1).
  { apply (same_float (prec := prec) (emax := emax)); [exact Vd|apply one_valid|rewrite Ed, one_real; lra|rewrite Ed; lra]. }
  rewrite K; split; [reflexivity|apply self_sub, one_finite].
Qed.

Section Complement.
Variables (powf : f64 -> f64 -> f64) (lib : libfn -> f64 -> f64).
#[local] Instance S64 : Scalar f64 := float_scalar prec emax powf lib.

Lemma erfc_f64 (m : node f64) c c' v ix : vwf v -> evaluate m c = (c', Ok v) ->
  in_box (dims (vshape v)) ix ->
  fvalid (lib Lerf (vat f64_zero v ix)) -> / 2 <= f64_real (lib Lerf (vat f64_zero v ix)) <= 1 ->
  exists e w, evaluate (Un Erf m) c = (c', Ok e) /\ evaluate (erfc m) c = (c', Ok w) /\
    vat f64_zero e ix = SFsub prec emax (foz 1) (vat f64_zero w ix).
Proof.
  intros W E Bx V B; destruct (erfc_claim m c c' v W E) as (w & Ew & _ & H).
  exists (vmap (un_fn Erf) v), w; split; [apply un_eval; exact E|split; [exact Ew|]].
  assert (K := H ix Bx); cbn [fzero fone fsub flib S64 float_scalar] in K; rewrite K.
  rewrite (vat_vmap _ _ f64_zero) by assumption; cbn [un_fn flib S64 float_scalar].
  symmetry; apply twice_complement; assumption.
Qed.

Lemma erfc_small tiny (m : node f64) c c' v ix :
  fvalid tiny -> SFsub prec emax (foz 1) tiny = foz 1 -> vwf v -> evaluate m c = (c', Ok v) ->
  in_box (dims (vshape v)) ix ->
  fvalid (lib Lerf (vat f64_zero v ix)) -> 0 < f64_real (lib Lerf (vat f64_zero v ix)) <= f64_real tiny ->
  exists e w, evaluate (Un Erf m) c = (c', Ok e) /\ evaluate (erfc m) c = (c', Ok w) /\
    vat f64_zero w ix = foz 1 /\
    SFsub prec emax (foz 1) (vat f64_zero w ix) = f64_zero /\
    f64_real (vat f64_zero e ix) <> 0.
Proof.
  intros Vt T W E Bx V B; destruct (erfc_claim m c c' v W E) as (w & Ew & _ & H).
  exists (vmap (un_fn Erf) v), w; split; [apply un_eval; exact E|split; [exact Ew|]].
  assert (K := H ix Bx); cbn [fzero fone fsub flib S64 float_scalar] in K; rewrite K.
  rewrite (vat_vmap _ _ f64_zero) by assumption; cbn [un_fn flib S64 float_scalar].
  destruct (lost_complement tiny _ Vt T V B) as [L1 L2]; split; [exact L1|split; [exact L2|lra]].
Qed.
End Complement.

(** The sigmoid in f64. *)
Lemma one_plus z : fvalid z -> finite z -> 0 <= f64_real z <= 1 ->
  let s := SFadd prec emax (foz 1) z in
  fvalid s /\ finite s /\ f64_real s = rnd (1 + f64_real z) /\ 1 <= f64_real s <= 2 /\
  2 * f64_real z <= f64_real s.
Proof.
  intros V Fz B s; assert (F1 : finite (foz 1)) by (exact one_finite).
  destruct (add_real _ z one_valid V) as (Vs & Es & Fs); rewrite one_real in Es, Fs.
  assert (R1 : rnd 1 = 1) by (apply rnd_id, one_format).
  assert (R2 : rnd 2 = 2).
  { assert (K := double_exact _ one_valid); rewrite one_real, Rmult_1_r in K; exact K. }
  assert (L1 : 1 <= rnd (1 + f64_real z)) by (rewrite <- R1; apply rnd_le; lra).
  assert (L2 : rnd (1 + f64_real z) <= 2) by (rewrite <- R2; apply rnd_le; lra).
  assert (L3 : 2 * f64_real z <= rnd (1 + f64_real z)).
  { rewrite <- (double_exact z V); apply rnd_le; lra. }
  assert (Hu := huge_two (prec := prec) (emax := emax)).
  assert (Fin : finite s) by (apply Fs; auto; rewrite Rabs_pos_eq; lra).
  unfold s in *; rewrite (Es Fin); auto 8.
Qed.

Lemma quotient a b : fvalid a -> finite a -> fvalid b -> 1 <= f64_real b ->
  0 <= f64_real a <= f64_real b ->
  let q := SFdiv prec emax a b in
  fvalid q /\ finite q /\ f64_real q = rnd (f64_real a / f64_real b).
Proof.
  intros Va Fa Vb B A q.
  assert (Nb : f64_real b <> 0) by lra.
  destruct (div_real a b Va Vb Nb) as (Vq & Eq & Fq).
  assert (L0 : 0 <= f64_real a / f64_real b) by (apply Rmult_le_pos; [lra|left; apply Rinv_0_lt_compat; lra]).
  assert (L1 : f64_real a / f64_real b <= 1).
  { apply Rmult_le_reg_r with (f64_real b); [lra|].
    unfold Rdiv; rewrite Rmult_assoc, Rinv_l by lra; lra. }
  assert (R0 : rnd 0 = 0) by (apply rnd_id, (int_format 0), Z.pow_nonneg; lia).
  assert (R1 : rnd 1 = 1) by (apply rnd_id, one_format).
  assert (Q0 : 0 <= rnd (f64_real a / f64_real b)) by (rewrite <- R0; apply rnd_le; lra).
  assert (Q1 : rnd (f64_real a / f64_real b) <= 1) by (rewrite <- R1; apply rnd_le; lra).
  assert (Hu := huge_two (prec := prec) (emax := emax)).
  assert (Fin : finite q) by (apply Fq; auto; rewrite Rabs_pos_eq; lra).
  split; auto.
Qed.

Section Sigmoid.
Variables (powf : f64 -> f64 -> f64) (lib : libfn -> f64 -> f64).
#[local] Instance S64s : Scalar f64 := float_scalar prec emax powf lib.

Lemma leb_opp x : x <> S754_nan -> SFleb f64_zero x = true -> SFleb (SFopp x) f64_zero = true.
Proof. destruct x as [[]|[]| |[] m e]; cbn; auto. Qed.

Lemma leb_total x : x <> S754_nan -> SFleb f64_zero x = false -> SFleb x f64_zero = true.
Proof. destruct x as [[]|[]| |[] m e]; cbn; auto; congruence. Qed.

Lemma sigmoid_f64_range (E : forall z, fvalid z -> SFleb z f64_zero = true ->
    fvalid (lib Lexp z) /\ finite (lib Lexp z) /\ 0 <= f64_real (lib Lexp z) <= 1) x :
  fvalid x -> x <> S754_nan ->
  fvalid (sigmoid x) /\ finite (sigmoid x) /\
  (SFleb f64_zero x = true -> / 2 <= f64_real (sigmoid x) <= 1) /\
  (SFleb f64_zero x = false -> 0 <= f64_real (sigmoid x) <= / 2).
Proof.
  intros V N; assert (F1 : finite (foz 1)) by (exact one_finite).
  assert (Rh : rnd (/ 2) = / 2) by (apply rnd_id, half_format).
  assert (R1 : rnd 1 = 1) by (apply rnd_id, one_format).
  assert (R0 : rnd 0 = 0) by (apply rnd_id, (int_format 0), Z.pow_nonneg; lia).
  unfold sigmoid; cbn [fle fzero fone fadd fdiv fneg flib S64s float_scalar].
  destruct (SFleb f64_zero x) eqn:L.
  - destruct (E (SFopp x) (opp_valid _ V) (leb_opp x N L)) as (Vz & Fz & Bz).
    destruct (one_plus _ Vz Fz Bz) as (Vs & Fs & Es & Bs & _).
    destruct (quotient (foz 1) _ one_valid F1 Vs) as (Vq & Fq & Eq); [lra|rewrite one_real; lra|].
    split; auto; split; auto; split; [intros _|discriminate].
    rewrite Eq, one_real.
    set (s := f64_real (SFadd prec emax (foz 1) (lib Lexp (SFopp x)))) in *.
    assert (H1 : / 2 <= 1 / s).
    { apply Rmult_le_reg_r with s; [lra|]; unfold Rdiv; rewrite Rmult_assoc, Rinv_l by lra; lra. }
    assert (H2 : 1 / s <= 1).
    { apply Rmult_le_reg_r with s; [lra|]; unfold Rdiv; rewrite Rmult_assoc, Rinv_l by lra; lra. }
    assert (G1 := rnd_le _ _ H1); assert (G2 := rnd_le _ _ H2); lra.
  - destruct (E x V (leb_total x N L)) as (Vz & Fz & Bz).
    destruct (one_plus _ Vz Fz Bz) as (Vs & Fs & Es & Bs & Ds).
    destruct (quotient (lib Lexp x) _ Vz Fz Vs) as (Vq & Fq & Eq); [lra|lra|].
    split; auto; split; auto; split; [discriminate|intros _].
    rewrite Eq.
    set (s := f64_real (SFadd prec emax (foz 1) (lib Lexp x))) in *.
    assert (H1 : 0 <= f64_real (lib Lexp x) / s) by (apply Rmult_le_pos; [lra|left; apply Rinv_0_lt_compat; lra]).
    assert (H2 : f64_real (lib Lexp x) / s <= / 2).
    { apply Rmult_le_reg_r with s; [lra|]; unfold Rdiv; rewrite Rmult_assoc, Rinv_l by lra; lra. }
    assert (G1 := rnd_le _ _ H1); assert (G2 := rnd_le _ _ H2); lra.
Qed.

Lemma sigmoid_node_range (E : forall z, fvalid z -> SFleb z f64_zero = true ->
    fvalid (lib Lexp z) /\ finite (lib Lexp z) /\ 0 <= f64_real (lib Lexp z) <= 1)
  (m : node f64) c c' v : vwf v -> evaluate m c = (c', Ok v) ->
  (forall ix, in_box (dims (vshape v)) ix ->
    fvalid (vat f64_zero v ix) /\ vat f64_zero v ix <> S754_nan) ->
  exists w, evaluate (Un Sigmoid m) c = (c', Ok w) /\ vshape w = vshape v /\
    forall ix, in_box (dims (vshape v)) ix ->
      finite (vat f64_zero w ix) /\ 0 <= f64_real (vat f64_zero w ix) <= 1.
Proof.
  intros W Em H; eexists; split; [apply un_eval; exact Em|].
  split; [unfold vshape; rewrite vmap_bty; reflexivity|].
  intros ix B; rewrite (vat_vmap _ _ f64_zero) by assumption; cbn [un_fn].
  destruct (H ix B) as [V N]; destruct (sigmoid_f64_range E _ V N) as (_ & F & P & Q).
  split; [exact F|]; destruct (SFleb f64_zero (vat f64_zero v ix)) eqn:L.
  - specialize (P eq_refl); lra.
  - specialize (Q eq_refl); lra.
Qed.

(** Relative errors compose: a factor [k] within [1 - h, 1 / (1 - h)] from the exponential, [1 + r]
    from the quotient and [1 + t] from the sum. *)
Lemma factors (h u k r t : R) : 0 <= h < 1 -> 0 <= u < 1 ->
  1 - h <= k -> k * (1 - h) <= 1 -> Rabs r <= u -> Rabs t <= u ->
  Rabs (k * (1 + r) / (1 + t) - 1) <= (1 + u) / ((1 - u) * (1 - h)) - 1.
Proof.
  intros Hh Hu K1 K2 Hr Ht; apply Raux.Rabs_le_inv in Hr, Ht.
  set (B := (1 + u) / ((1 - u) * (1 - h))); set (q := k * (1 + r) / (1 + t)).
  assert (Pd : 0 < (1 - u) * (1 - h)) by (apply Rmult_lt_0_compat; lra).
  assert (EB : B * ((1 - u) * (1 - h)) = 1 + u) by (unfold B; field; lra).
  assert (Eq : q * (1 + t) = k * (1 + r)) by (unfold q; field; lra).
  assert (Kp : 0 < k) by lra.
  assert (Qp : 0 <= q).
  { unfold q; apply Rmult_le_pos; [apply Rmult_le_pos; lra|left; apply Rinv_0_lt_compat; lra]. }
  assert (B1 : 1 <= B).
  { apply Rmult_le_reg_r with ((1 - u) * (1 - h)); [lra|]; rewrite EB.
    assert (0 <= u * h) by (apply Rmult_le_pos; lra); nra. }
  assert (U : q <= B).
  { apply Rmult_le_reg_r with ((1 - u) * (1 - h)); [lra|]; rewrite EB.
    assert (q * (1 - u) <= k * (1 + u)) by nra.
    assert (q * (1 - u) * (1 - h) <= k * (1 + u) * (1 - h)) by (apply Rmult_le_compat_r; lra).
    nra. }
  assert (L : 1 <= q * B).
  { assert (A : k * (1 - u) <= q * (1 + u)) by nra.
    apply Rmult_le_reg_r with ((1 - u) * (1 - h)); [lra|].
    rewrite Rmult_assoc, EB.
    assert ((1 - h) * (1 - u) <= k * (1 - u)) by (apply Rmult_le_compat_r; lra). lra. }
  apply Rabs_le; split; [|lra].
  assert (0 <= (B - 1) * (B - 1)) by apply Rle_0_sqr.
  nra.
Qed.

Lemma uro_small : uro < 1.
Proof.
  assert (FB : (2 <= prec < emax)%Z) by exact Fm.
  unfold uro; rewrite <- Rinv_1; apply Rinv_lt_contravar; [rewrite Rmult_1_l; apply pow_lt; lra|].
  apply Rlt_pow_R1; [lra|lia].
Qed.

Lemma sigmoid_error (h : R) x : 0 <= h < 1 -> fvalid x -> finite x ->
  let z := if SFleb f64_zero x then SFopp x else x in
  let e := lib Lexp z in
  fvalid e -> finite e -> f64_real e <= 1 ->
  Rabs (f64_real e - exp (f64_real z)) <= h * exp (f64_real z) ->
  (SFleb f64_zero x = false -> / 2 ^ Z.to_nat (emax - 3) <= f64_real e) ->
  Rabs (f64_real (sigmoid x) - / (1 + exp (- f64_real x)))
    <= ((1 + uro) / ((1 - uro) * (1 - h)) - 1) * / (1 + exp (- f64_real x)).
Proof.
  assert (FB : (2 <= prec < emax)%Z) by exact Fm.
  intros Hh V Fx z e Ve Fe He Acc Und.
  assert (F1 : finite (foz 1)) by (exact one_finite).
  assert (Hu := uro_pos); assert (Hu' := uro_small).
  assert (Px := exp_pos (f64_real z)); apply Raux.Rabs_le_inv in Acc.
  assert (Be : 0 <= f64_real e <= 1) by nra.
  destruct (one_plus e Ve Fe Be) as (Vs & Fs & Es & Bs & Ds).
  destruct (rnd_sum (foz 1) e one_valid Ve) as (t & Ht & Et); rewrite one_real in Et.
  rewrite Et in Es; set (s := SFadd prec emax (foz 1) e) in *.
  set (P := exp (f64_real z)) in *; set (ev := f64_real e) in *.
  assert (Tb := Ht); apply Raux.Rabs_le_inv in Tb.
  assert (Small : / 2 ^ Z.to_nat (emax - 2) <= / 2).
  { apply Rinv_le_contravar; [lra|]; rewrite <- (pow_1 2) at 1; apply Rle_pow; [lra|lia]. }
  unfold sigmoid; cbn [fle fzero fone fadd fdiv fneg flib S64s float_scalar].
  subst z; destruct (SFleb f64_zero x) eqn:L.
  - destruct (quotient (foz 1) s one_valid F1 Vs) as (Vq & Fq & Eq); [lra|rewrite one_real; lra|].
    fold e s; rewrite Eq, one_real, Es.
    replace (exp (- f64_real x)) with P by (unfold P; rewrite opp_real; reflexivity).
    assert (H1 : / 2 <= 1 / ((1 + ev) * (1 + t))).
    { rewrite Es in Bs; apply Rmult_le_reg_r with ((1 + ev) * (1 + t)); [lra|].
      unfold Rdiv; rewrite Rmult_assoc, Rinv_l by lra; lra. }
    destruct (rnd_rel (1 / ((1 + ev) * (1 + t)))) as (r & Hr & Er); [right; rewrite Rabs_pos_eq; lra|].
    rewrite Er.
    assert (B := factors h uro ((1 + P) / (1 + ev)) r t Hh (conj (Rlt_le _ _ Hu) Hu')).
    replace (1 / ((1 + ev) * (1 + t)) * (1 + r) - / (1 + P))
      with (((1 + P) / (1 + ev) * (1 + r) / (1 + t) - 1) * / (1 + P)) by (field; lra).
    assert (Pp : 0 < / (1 + P)) by (apply Rinv_0_lt_compat; lra).
    rewrite Rabs_mult, (Rabs_pos_eq (/ (1 + P))) by lra.
    apply Rmult_le_compat_r; [lra|]; apply B; auto.
    + apply Rmult_le_reg_r with (1 + ev); [lra|].
      unfold Rdiv; rewrite Rmult_assoc, Rinv_l by lra; nra.
    + apply Rmult_le_reg_r with (1 + ev); [lra|].
      replace ((1 + P) / (1 + ev) * (1 - h) * (1 + ev)) with ((1 + P) * (1 - h)) by (field; lra); nra.
  - destruct (quotient e s Ve Fe Vs) as (Vq & Fq & Eq); [lra|fold ev; lra|].
    fold e s; rewrite Eq, Es; fold ev.
    specialize (Und eq_refl).
    assert (Pu : 0 < / 2 ^ Z.to_nat (emax - 3)) by (apply Rinv_0_lt_compat, pow_lt; lra).
    assert (Dbl : / 2 ^ Z.to_nat (emax - 2) = / 2 ^ Z.to_nat (emax - 3) * / 2).
    { rewrite <- Rinv_mult; f_equal; replace (Z.to_nat (emax - 2)) with (S (Z.to_nat (emax - 3))) by lia; rewrite <- tech_pow_Rmult; ring. }
    assert (H1 : / 2 ^ Z.to_nat (emax - 2) <= ev / ((1 + ev) * (1 + t))).
    { rewrite Es in Bs; apply Rmult_le_reg_r with ((1 + ev) * (1 + t)); [lra|].
      unfold Rdiv; rewrite Rmult_assoc, Rinv_l by lra; rewrite Dbl.
      assert (/ 2 ^ Z.to_nat (emax - 3) * / 2 * ((1 + ev) * (1 + t)) <= / 2 ^ Z.to_nat (emax - 3) * / 2 * 2)
        by (apply Rmult_le_compat_l; lra); lra. }
    destruct (rnd_rel (ev / ((1 + ev) * (1 + t)))) as (r & Hr & Er); [right; rewrite Rabs_pos_eq; lra|].
    rewrite Er.
    assert (Ex : exp (- f64_real x) = / P) by (unfold P; rewrite exp_Ropp; reflexivity).
    rewrite Ex.
    assert (B := factors h uro (ev * (1 + P) / (P * (1 + ev))) r t Hh (conj (Rlt_le _ _ Hu) Hu')).
    replace (/ (1 + / P)) with (P / (1 + P)) by (field; lra).
    replace (ev / ((1 + ev) * (1 + t)) * (1 + r) - P / (1 + P))
      with ((ev * (1 + P) / (P * (1 + ev)) * (1 + r) / (1 + t) - 1) * (P / (1 + P))) by (field; lra).
    assert (Pp : 0 < P / (1 + P)) by (apply Rdiv_lt_0_compat; lra).
    rewrite Rabs_mult, (Rabs_pos_eq (P / (1 + P))) by lra.
    assert (Pd : 0 < P * (1 + ev)) by (apply Rmult_lt_0_compat; lra).
    apply Rmult_le_compat_r; [lra|]; apply B; auto.
    + apply Rmult_le_reg_r with (P * (1 + ev)); [lra|].
      replace (ev * (1 + P) / (P * (1 + ev)) * (P * (1 + ev))) with (ev * (1 + P)) by (field; lra).
      assert (0 <= ev * P) by (apply Rmult_le_pos; lra); nra.
    + apply Rmult_le_reg_r with (P * (1 + ev)); [lra|].
      replace (ev * (1 + P) / (P * (1 + ev)) * (1 - h) * (P * (1 + ev))) with (ev * (1 + P) * (1 - h))
        by (field; lra).
      assert (0 <= ev * P) by (apply Rmult_le_pos; lra).
      assert (ev * (1 - h) <= P) by nra. nra.
Qed.
End Sigmoid.

End Formats.

(** The float [2^-54]. *)
Definition tiny : f64 := S754_finite false 4503599627370496 (-106).

Lemma tiny_real : f64_real tiny = / 2 ^ 54.
Proof.
  unfold tiny, f64_real.
  replace (IZR (Z.pos 4503599627370496)) with (powerRZ 2 52) by (rewrite <- pow_powerRZ with (n := 52%nat); simpl; lra).
  rewrite !Rmult_1_l, <- powerRZ_add by lra; reflexivity.
Qed.

Lemma tiny_lost : SFsub 53 1024 (f64_of_Z 1) tiny = f64_of_Z 1.
Proof. vm_compute; reflexivity. Qed.

Lemma erfc_small64 powf lib :
  let S := f64_scalar powf lib in
  forall (m : node f64) c c' v ix, vwf v -> evaluate m c = (c', Ok v) ->
  in_box (dims (vshape v)) ix ->
  f64_valid (lib Lerf (vat f64_zero v ix)) -> 0 < f64_real (lib Lerf (vat f64_zero v ix)) <= / 2 ^ 54 ->
  exists e w, evaluate (Un Erf m) c = (c', Ok e) /\ evaluate (erfc m) c = (c', Ok w) /\
    vat f64_zero w ix = f64_of_Z 1 /\
    SFsub 53 1024 (f64_of_Z 1) (vat f64_zero w ix) = f64_zero /\
    f64_real (vat f64_zero e ix) <> 0.
Proof.
  intros S m c c' v ix W E Bx V B; rewrite <- tiny_real in B.
  exact (erfc_small (prec := 53) (emax := 1024) powf lib tiny m c c' v ix (eq_refl true) tiny_lost W E Bx V B).
Qed.
