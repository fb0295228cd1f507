(** Relative accuracy, in 64-bit floating point, of expressions that do not subtract. *)
From Coq Require Import List Arith ZArith Reals SpecFloat Lia Lra.
Import ListNotations.
From Verif Require Import Base Shapes Scalar Buffers Spec Contraction Node Eval Types Instances
  Vocab Math Real_math Code_math Index_facts Buffers_facts Spec_facts
  Contraction_facts Contraction_entries Match_facts Eval_facts Progress_facts Math_facts Code_claims
  Float_math Float_facts Float_claims.
Local Open Scope R_scope.

(** Formats: precision and largest exponent. *)
Section Formats.
Context {prec emax : Z} {Fm : Format prec emax}.
Notation rnd := (Float_facts.rnd prec emax).
Notation uro := (Float_facts.uro prec).
Notation uro_pos := (Float_facts.uro_pos (prec := prec)).
Notation fvalid := (float_valid prec emax).
Notation foz := (float_of_Z prec emax).
Notation from_zero := (Float_claims.from_zero (prec := prec) (emax := emax)).
Notation one_real := (Float_claims.one_real (prec := prec) (emax := emax)).
Notation one_valid := (Float_claims.one_valid (prec := prec) (emax := emax)).
Notation two_real := (Float_claims.two_real (prec := prec) (emax := emax)).
Notation two_valid := (Float_claims.two_valid (prec := prec) (emax := emax)).
Notation two_finite := (Float_claims.two_finite (prec := prec) (emax := emax)).
Notation one_finite := (Float_claims.one_finite (prec := prec) (emax := emax)).
Notation abs_real := (Float_claims.abs_real (prec := prec) (emax := emax)).
Notation small_int := (Float_claims.small_int (prec := prec) (emax := emax)).

Definition shrink (k : nat) : R := (1 - uro) ^ k.

Lemma uro_small : uro < 1.
Proof.
  assert (FB : (2 <= prec < emax)%Z) by exact Fm.
  unfold uro; rewrite <- Rinv_1; apply Rinv_lt_contravar; [rewrite Rmult_1_l; apply pow_lt; lra|].
  apply Rlt_pow_R1; [lra|lia].
Qed.

Lemma shrink_pos k : 0 < shrink k.
Proof. apply pow_lt; assert (U := uro_small); lra. Qed.

Lemma shrink_one k : shrink k <= 1.
Proof.
  assert (U := uro_small); assert (V := uro_pos); assert (K := pow_incr (1 - uro) 1 k).
  rewrite pow1 in K; apply K; lra.
Qed.

Lemma shrink_add k l : shrink (k + l) = shrink k * shrink l.
Proof. apply pow_add. Qed.

Lemma shrink_S k : shrink (S k) = (1 - uro) * shrink k.
Proof. reflexivity. Qed.

Lemma shrink_le k l : (k <= l)%nat -> shrink l <= shrink k.
Proof.
  intro H; replace l with (k + (l - k))%nat by lia; rewrite shrink_add.
  assert (A := shrink_one (l - k)); assert (B := shrink_pos k); nra.
Qed.

(** One rounding. *)
Lemma one_rounding d : Rabs d <= uro -> 1 - uro <= 1 + d /\ (1 + d) * (1 - uro) <= 1.
Proof.
  intro H; assert (A := Rle_abs d); assert (B := Rle_abs (- d)); rewrite Rabs_Ropp in B.
  assert (U := uro_pos); assert (V := uro_small); split; [lra|nra].
Qed.

(** [x] approximates the non-negative number [e] with [k] roundings. *)
Definition near (k : nat) (x : f64) (e a : R) : Prop :=
  fvalid x /\ a = e /\ 0 <= e /\
  (finite x -> e * shrink k <= f64_real x /\ f64_real x * shrink k <= e).

Lemma near_pos k x e a : near k x e a -> finite x -> 0 <= f64_real x.
Proof.
  intros (_ & _ & E & H) Fi; destruct (H Fi) as [L _]; assert (Q := shrink_pos k); nra.
Qed.

Lemma near_nonneg k x e a : near k x e a -> 0 <= a.
Proof. intros (_ & -> & H & _); exact H. Qed.

Lemma near_le k l x e a : near k x e a -> (k <= l)%nat -> near l x e a.
Proof.
  intros N L; assert (P := near_pos _ _ _ _ N); destruct N as (V & -> & E & H).
  split; auto; split; auto; split; auto; intro Fi; destruct (H Fi) as [H1 H2]; specialize (P Fi).
  assert (Q := shrink_le k l L); split; nra.
Qed.

Lemma near_leaf x : fvalid x -> 0 <= f64_real x -> near 0 x (f64_real x) (Rabs (f64_real x)).
Proof.
  intros V H; split; auto; split; [apply Rabs_pos_eq; exact H|]; split; auto.
  intros _; unfold shrink; simpl; lra.
Qed.

Lemma near_zero : near 0 f64_zero 0 0.
Proof. split; [reflexivity|]; split; auto; split; [lra|]; intros _; unfold shrink; simpl; lra. Qed.

Lemma near_one : near 0 (foz 1) 1 1.
Proof.
  assert (K := near_leaf _ one_valid); rewrite one_real in K; rewrite Rabs_pos_eq in K by lra; apply K; lra.
Qed.

Lemma near_from_zero k x e a : near k x e a -> near k (SFadd prec emax f64_zero x) (0 + e) (0 + a).
Proof.
  intros (V & -> & H & K); destruct (from_zero x) as (Er & Vr & Fr).
  rewrite !Rplus_0_l; split; auto; split; auto; split; auto; rewrite Er; intro Fi; apply K, Fr; exact Fi.
Qed.

(** The rounded result of an exact operation on approximations. *)
Lemma near_round k (r X e d : R) : 0 <= X -> Rabs d <= uro -> r = X * (1 + d) ->
  e * shrink k <= X -> X * shrink k <= e -> e * shrink (S k) <= r /\ r * shrink (S k) <= e.
Proof.
  intros HX Hd -> H1 H2; destruct (one_rounding d Hd) as [D1 D2]; rewrite shrink_S.
  assert (Q := shrink_pos k); assert (U := uro_small); split.
  - apply Rle_trans with (X * (1 - uro)); [|apply Rmult_le_compat_l; auto].
    replace (e * ((1 - uro) * shrink k)) with (e * shrink k * (1 - uro)) by ring.
    apply Rmult_le_compat_r; lra.
  - replace (X * (1 + d) * ((1 - uro) * shrink k)) with (X * shrink k * ((1 + d) * (1 - uro))) by ring.
    assert (0 <= X * shrink k) by (apply Rmult_le_pos; lra); nra.
Qed.

Lemma near_add k x e a y f b : near k x e a -> near k y f b ->
  near (S k) (SFadd prec emax x y) (e + f) (a + b).
Proof.
  intros N N'; assert (P := near_pos _ _ _ _ N); assert (P' := near_pos _ _ _ _ N').
  destruct N as (V & -> & E & H), N' as (V' & -> & E' & H').
  destruct (add_real x y V V') as (Vs & Es & _).
  split; auto; split; auto; split; [lra|]; intro Fi; destruct (finite_add _ _ Fi) as [Fx Fy].
  destruct (H Fx) as [H1 H2], (H' Fy) as [H3 H4], (rnd_sum x y V V') as (d & Hd & Ed).
  specialize (P Fx); specialize (P' Fy).
  apply (near_round k _ (f64_real x + f64_real y) (e + f) d); auto; try lra; rewrite (Es Fi); exact Ed.
Qed.

Lemma near_mul k l x e a y f b : near k x e a -> near l y f b -> (normal_product_in emax) x y ->
  near (S (k + l)) (SFmul prec emax x y) (e * f) (a * b).
Proof.
  intros N N' M; assert (P := near_pos _ _ _ _ N); assert (P' := near_pos _ _ _ _ N').
  destruct N as (V & -> & E & H), N' as (V' & -> & E' & H').
  destruct (mul_real x y V V') as (Vs & Es & _).
  split; auto; split; auto; split; [apply Rmult_le_pos; auto|]; intro Fi.
  destruct (finite_mul _ _ Fi) as [Fx Fy].
  destruct (H Fx) as [H1 H2], (H' Fy) as [H3 H4], (rnd_rel _ M) as (d & Hd & Ed).
  specialize (P Fx); specialize (P' Fy); assert (Q := shrink_pos k); assert (Q' := shrink_pos l).
  apply (near_round (k + l) _ (f64_real x * f64_real y) (e * f) d); auto.
  - apply Rmult_le_pos; auto.
  - rewrite (Es Fi); exact Ed.
  - rewrite shrink_add; replace (e * f * (shrink k * shrink l)) with ((e * shrink k) * (f * shrink l)) by ring.
    apply Rmult_le_compat; auto; apply Rmult_le_pos; lra.
  - rewrite shrink_add.
    replace (f64_real x * f64_real y * (shrink k * shrink l))
      with ((f64_real x * shrink k) * (f64_real y * shrink l)) by ring.
    apply Rmult_le_compat; auto; apply Rmult_le_pos; lra.
Qed.

Lemma finite_div x y : finite y -> f64_real y <> 0 -> finite (SFdiv prec emax x y) -> finite x.
Proof. destruct x as [sx|sx| |], y as [sy|sy| |]; simpl; auto. Qed.

Lemma near_div k l x e a y f b : near k x e a -> near l y f b -> (normal_quotient_in emax) x y ->
  near (S (k + l)) (SFdiv prec emax x y) (e / f) (a / b).
Proof.
  intros N N' [M0 M]; assert (P := near_pos _ _ _ _ N); assert (P' := near_pos _ _ _ _ N').
  destruct N as (V & -> & E & H), N' as (V' & -> & E' & H').
  destruct (div_real x y V V' M0) as (Vs & Es & _); assert (Fy := finite_real _ M0).
  destruct (H' Fy) as [H3 H4]; specialize (P' Fy).
  assert (Q := shrink_pos k); assert (Q' := shrink_pos l).
  set (X := f64_real x) in *; set (Y := f64_real y) in *.
  assert (Yp : 0 < Y) by lra.
  assert (fp : 0 < f) by (assert (0 < Y * shrink l) by (apply Rmult_lt_0_compat; auto); lra).
  split; auto; split; auto; split; [apply Rmult_le_pos; [auto|left; apply Rinv_0_lt_compat; exact fp]|].
  intro Fi; assert (Fx := finite_div x y Fy M0 Fi); destruct (H Fx) as [H1 H2]; specialize (P Fx).
  destruct (rnd_rel _ M) as (d & Hd & Ed).
  apply (near_round (k + l) _ (X / Y) (e / f) d); auto.
  - apply Rmult_le_pos; [auto|left; apply Rinv_0_lt_compat; exact Yp].
  - rewrite (Es Fi); exact Ed.
  - rewrite shrink_add; apply Rmult_le_reg_r with (Y * f); [apply Rmult_lt_0_compat; auto|].
    replace (e / f * (shrink k * shrink l) * (Y * f)) with ((e * shrink k) * (Y * shrink l)) by (field; lra).
    replace (X / Y * (Y * f)) with (X * f) by (field; lra).
    apply Rmult_le_compat; auto; apply Rmult_le_pos; lra.
  - rewrite shrink_add; apply Rmult_le_reg_r with (Y * f); [apply Rmult_lt_0_compat; auto|].
    replace (X / Y * (shrink k * shrink l) * (Y * f)) with ((X * shrink k) * (f * shrink l)) by (field; lra).
    replace (e / f * (Y * f)) with (e * Y) by (field; lra).
    apply Rmult_le_compat; auto; apply Rmult_le_pos; lra.
Qed.

Lemma near_double k x e a : near k x e a ->
  near k (SFmul prec emax (SFadd prec emax (foz 1) (foz 1)) x) ((1 + 1) * e) ((1 + 1) * a).
Proof.
  intros (V & -> & E & H); destruct (mul_real _ x two_valid V) as (Vs & Es & _).
  split; auto; split; auto; split; [lra|]; intro Fi; rewrite (Es Fi), two_real.
  destruct (finite_mul _ _ Fi) as [_ Fx]; rewrite double_exact by exact V.
  destruct (H Fx) as [H1 H2]; split; nra.
Qed.

Lemma near_abs k x e a : near k x e a -> near k (SFabs x) (Rabs e) a.
Proof.
  intro N; assert (P := near_pos _ _ _ _ N); destruct N as (V & -> & E & H).
  destruct (abs_real x) as (Er & Vr & Fr); rewrite (Rabs_pos_eq e) by exact E.
  split; auto; split; auto; split; auto; intro Fi; apply Fr in Fi.
  rewrite Er, Rabs_pos_eq by auto; auto.
Qed.

Section Positive.
Variables (pow : f64 -> f64 -> f64) (lib : libfn -> f64 -> f64) (inf : R) (sp : libfn -> R -> R).
#[local] Instance s64p : Scalar f64 := float_scalar prec emax pow lib.
Variable c : ctx f64.

Definition always (_ : R) : Prop := True.

Lemma product_sym x y : (normal_product_in emax) x y -> (normal_product_in emax) y x.
Proof. unfold normal_product_in; rewrite (Rmult_comm (f64_real y)); auto. Qed.

Lemma quotient_follows k l (ta tb : tensor f64) (ea eb aa ab : tensor R) :
  follows near k ta ea aa -> follows near l tb eb ab ->
  (tdims ta = [] \/ tdims tb = [] \/ tdims ta = tdims tb) ->
  (forall ix, in_box (tdims (@crossed f64 (SFdiv prec emax) ta tb)) ix ->
     let (x, y) := dividend_divisor ta tb ix in (normal_quotient_in emax) x y) ->
  follows near (S (k + l)) (@crossed f64 (SFdiv prec emax) ta tb) (crossed Rdiv ea eb) (crossed Rdiv aa ab).
Proof.
  intros H1 H2 D HQ.
  assert (G : forall dx dy, tdims ta = dx -> tdims tb = dy ->
    follows near (S (k + l)) (@crossed f64 (SFdiv prec emax) ta tb) (crossed Rdiv ea eb) (crossed Rdiv aa ab)).
  2:{ eapply G; reflexivity. }
  intros dx dy Dx Dy; unfold crossed, dividend_divisor in *.
  assert (E1 := H1); assert (E2 := H2); destruct E1 as (De & Da & _), E2 as (De' & Da' & _).
  rewrite De, De', Da, Da' in *; rewrite Dx, Dy in *.
  destruct dx as [|d dx]; [destruct dy as [|d1 [|d2 dy]]|].
  3:{ apply (pointwise_follows near k l (S (k + l)) (fun x y => SFdiv prec emax y x)
               (fun x y => Rdiv y x) (fun x y => Rdiv y x)
               ta tb ea eb aa ab H1 H2); [left; exact Dx|].
      intros ix x e a y f b Bx -> -> -> -> P1 P2; rewrite Nat.add_comm.
      apply near_div; auto; exact (HQ ix Bx). }
  all: apply (pointwise_follows near k l (S (k + l)) (SFdiv prec emax) Rdiv Rdiv ta tb ea eb aa ab H1 H2);
       [rewrite Dx, Dy; auto|];
       intros ix x e a y f b Bx -> -> -> -> P1 P2; apply near_div; auto; exact (HQ ix Bx).
Qed.

Lemma tree_near n :
  ctx_wf c -> node_wf n -> subtraction_free n -> agrees c n -> no_underflow_in c emax n ->
  inputs_all (fun x => fvalid x /\ 0 <= f64_real x) c n ->
  follows near (roundings c n) (steps c n) (real_value inf sp c n) (magnitude c n).
Proof.
  intros Wc W Ar Ag G [Iv Ic]; induction n; try contradiction.
  - (* Var *)
    unfold real_value, magnitude; cbn [steps node_through roundings].
    unfold var_tensor, ctx_through; destruct (c i) as [v|] eqn:E; cbn [option_map].
    + apply leaf_follows; [exact (Wc i v E)|].
      intros d ix Bx; destruct (Iv i v E d ix Bx); apply near_leaf; auto.
    + split; [reflexivity|split; [reflexivity|intros; apply near_zero]].
  - (* Const *)
    apply leaf_follows; [exact W|]; intros d ix Bx; destruct (Ic d ix Bx); apply near_leaf; auto.
  - (* Un *)
    assert (Gm : no_underflow_in c emax n) by (destruct u; try contradiction; exact G).
    assert (Am : subtraction_free n) by (destruct u; try contradiction; exact Ar).
    destruct (IHn W Am Ag Gm Ic) as (De & Da & H).
    unfold real_value, magnitude in *; cbn [steps node_through] in *.
    split; [exact De|split; [exact Da|]]; cbn [tdims tat] in *; intros ix Bx.
    assert (K := H ix Bx).
    destruct u; try contradiction; cbn [roundings un_fn] in *; unfold ftwo in *;
      cbn [fsub fadd fone fmul fneg fabs s64p float_scalar R_scalar size_scalar] in *.
    + apply near_add; auto; eapply near_le; [apply near_one|lia].
    + apply near_double; auto.
    + rewrite (Rabs_pos_eq (tat (@steps R size_scalar _ _) ix)) by (eapply near_nonneg; exact K).
      apply near_abs; auto.
  - (* Sum *)
    destruct (IHn W Ar Ag G Ic) as (De & Da & H).
    unfold real_value, magnitude in *; cbn [steps node_through roundings] in *.
    split; [reflexivity|split; [reflexivity|]]; cbn [tdims tat] in *; intros ix Bx.
    rewrite De, Da.
    apply (sum_follows pow lib inf sp near always near_le near_nonneg (fun _ _ _ _ => Logic.I) near_zero
             near_from_zero (fun k x e a y f b p q _ => near_add k x e a y f b p q)).
    + intros jx Hj; apply H; rewrite all_ix_iproduct in Hj; apply in_iproduct; exact Hj.
    + exact Logic.I.
  - (* Add *)
    destruct G as (G1 & G2), W as [W1 W2], Ar as [A1 A2], Ic as [I1 I2], Ag as (Ag1 & Ag2 & D).
    assert (H1 := IHn1 W1 A1 Ag1 G1 I1); assert (H2 := IHn2 W2 A2 Ag2 G2 I2).
    apply (crossed_follows near always (Nat.max (roundings c n1) (roundings c n2))
             (Nat.max (roundings c n1) (roundings c n2)) _ _ Rplus Rplus (fun _ _ => True)); auto;
      try (eapply follows_le; [exact near_le|eauto|lia]); try (intros; exact Logic.I);
      intros; apply near_add; auto.
  - (* Mul *)
    destruct G as (G1 & G2 & GM), W as [W1 W2], Ar as [A1 A2], Ic as [I1 I2], Ag as (Ag1 & Ag2 & D).
    assert (H1 := IHn1 W1 A1 Ag1 G1 I1); assert (H2 := IHn2 W2 A2 Ag2 G2 I2).
    apply (crossed_follows near always (roundings c n1) (roundings c n2) _ _ Rmult Rmult (normal_product_in emax)); auto;
      try (intros; exact Logic.I).
    + intros; apply near_mul; auto.
    + intros; cbn [roundings]; replace (1 + roundings c n1 + roundings c n2)%nat
        with (S (roundings c n2 + roundings c n1)) by lia; apply near_mul; auto using product_sym.
  - (* Div *)
    destruct G as (G1 & G2 & GM), W as [W1 W2], Ar as [A1 A2], Ic as [I1 I2], Ag as (Ag1 & Ag2 & D).
    assert (H1 := IHn1 W1 A1 Ag1 G1 I1); assert (H2 := IHn2 W2 A2 Ag2 G2 I2).
    apply quotient_follows; auto.
  - (* Contract *)
    destruct G as (G1 & G2 & GM), W as [W1 W2], Ar as [A1 A2], Ic as [I1 I2].
    destruct axes as [|axes].
    + destruct Ag as (Ag1 & Ag2).
      assert (H1 := IHn1 W1 A1 Ag1 G1 I1); assert (H2 := IHn2 W2 A2 Ag2 G2 I2).
      apply (outer_follows pow lib inf sp near (normal_product_in emax) always
               (fun k l x e a y f b p q r _ => near_mul k l x e a y f b p q r) product_sym); auto.
      intros; exact Logic.I.
    + destruct Ag as (Ag1 & Ag2 & D).
      assert (H1 := IHn1 W1 A1 Ag1 G1 I1); assert (H2 := IHn2 W2 A2 Ag2 G2 I2).
      apply (inner_follows pow lib inf sp near (normal_product_in emax) always near_le near_nonneg
               (fun _ _ _ _ => Logic.I) near_zero near_from_zero
               (fun k x e a y f b p q _ => near_add k x e a y f b p q)
               (fun k l x e a y f b p q r _ => near_mul k l x e a y f b p q r)); auto.
      intros; exact Logic.I.
Qed.

Lemma relative_error (c' : ctx f64) n v ix :
  ctx_wf c -> node_wf n -> written c n -> subtraction_free n ->
  inputs_all (fun x => fvalid x /\ 0 <= f64_real x) c n ->
  no_underflow_in c emax n -> evaluate n c = (c', Ok v) ->
  in_box (dims (vshape v)) ix -> finite (vat f64_zero v ix) ->
  tat (real_value inf sp c n) ix * (1 - / 2 ^ Z.to_nat prec) ^ roundings c n <= f64_real (vat f64_zero v ix) /\
  f64_real (vat f64_zero v ix) * (1 - / 2 ^ Z.to_nat prec) ^ roundings c n <= tat (real_value inf sp c n) ix.
Proof.
  intros Wc W Hw A I N H Bx Fi.
  destruct (steps_claim c c' n v Wc W Hw H) as (-> & Wv & D & E).
  destruct (tree_near n Wc W A (evaluate_agrees c n Wc c v W Hw H) N I) as (_ & _ & K).
  rewrite D in Bx; destruct (K ix Bx) as (_ & _ & _ & L).
  change (vat f64_zero v ix) with (vat fzero v ix) in *; rewrite (E ix Bx) in *; exact (L Fi).
Qed.

Lemma relative_pos (c' : ctx f64) n v ix :
  ctx_wf c -> node_wf n -> written c n -> subtraction_free n ->
  inputs_all (fun x => fvalid x /\ 0 <= f64_real x) c n ->
  no_underflow_in c emax n -> evaluate n c = (c', Ok v) ->
  in_box (dims (vshape v)) ix -> finite (vat f64_zero v ix) ->
  0 <= tat (real_value inf sp c n) ix /\
  (f64_real (vat f64_zero v ix) = 0 <-> tat (real_value inf sp c n) ix = 0).
Proof.
  intros Wc W Hw A I N H Bx Fi.
  destruct (relative_error c' n v ix Wc W Hw A I N H Bx Fi) as [L1 L2].
  destruct (steps_claim c c' n v Wc W Hw H) as (-> & _ & D & _).
  destruct (tree_near n Wc W A (evaluate_agrees c n Wc c v W Hw H) N I) as (_ & _ & K).
  rewrite D in Bx; destruct (K ix Bx) as (_ & _ & P & _); split; [exact P|].
  assert (Q := shrink_pos (roundings c n)); change ((1 - / 2 ^ Z.to_nat prec) ^ roundings c n) with (shrink (roundings c n)) in *.
  split; intro Z; rewrite Z in *; nra.
Qed.

Lemma bernoulli k : 1 - INR k * uro <= shrink k.
Proof.
  induction k as [|k IH]; [unfold shrink; simpl; lra|].
  rewrite S_INR, shrink_S; assert (U := uro_pos); assert (V := uro_small); assert (Nk := pos_INR k).
  destruct (Rle_dec 0 (1 - INR k * uro)) as [P|P]; [nra|].
  assert (Q := shrink_pos k); nra.
Qed.

Lemma relative_gamma (c' : ctx f64) n v ix :
  ctx_wf c -> node_wf n -> written c n -> subtraction_free n ->
  inputs_all (fun x => fvalid x /\ 0 <= f64_real x) c n ->
  no_underflow_in c emax n -> evaluate n c = (c', Ok v) ->
  in_box (dims (vshape v)) ix -> finite (vat f64_zero v ix) ->
  INR (roundings c n) * / 2 ^ Z.to_nat prec < 1 ->
  Rabs (f64_real (vat f64_zero v ix) - tat (real_value inf sp c n) ix)
    <= INR (roundings c n) * / 2 ^ Z.to_nat prec / (1 - INR (roundings c n) * / 2 ^ Z.to_nat prec)
       * tat (real_value inf sp c n) ix.
Proof.
  intros Wc W Hw A I N H Bx Fi Hk.
  destruct (relative_error c' n v ix Wc W Hw A I N H Bx Fi) as [L1 L2].
  destruct (relative_pos c' n v ix Wc W Hw A I N H Bx Fi) as [Pe _].
  assert (Be := bernoulli (roundings c n)); change (/ 2 ^ Z.to_nat prec) with uro in *.
  change ((1 - uro) ^ roundings c n) with (shrink (roundings c n)) in *.
  set (e := tat _ ix) in *; set (X := f64_real _) in *; set (q := shrink _) in *; set (k := INR _) in *.
  assert (Qp : 0 < q) by apply shrink_pos; assert (U := uro_pos); assert (Nk : 0 <= k) by apply pos_INR.
  assert (PX : 0 <= X) by (apply Rle_trans with (2 := L1); apply Rmult_le_pos; lra).
  assert (Q0 : 0 <= k * uro) by (apply Rmult_le_pos; lra).
  apply Rmult_le_reg_r with (1 - k * uro); [lra|].
  replace (k * uro / (1 - k * uro) * e * (1 - k * uro)) with (k * uro * e) by (field; lra).
  assert (Up : X * (1 - k * uro) <= e) by (apply Rle_trans with (2 := L2); apply Rmult_le_compat_l; lra).
  assert (Lo : e * (1 - k * uro) <= X) by (apply Rle_trans with (2 := L1); apply Rmult_le_compat_l; lra).
  unfold Rabs; destruct (Rcase_abs (X - e)) as [Hn|Hn]; nra.
Qed.
End Positive.

Section Mean.
Variables (pow : f64 -> f64 -> f64) (lib : libfn -> f64 -> f64).
#[local] Instance s64m : Scalar f64 := float_scalar prec emax pow lib.

(** The weighted mean. *)
Lemma mean_error (xs ws : list f64) (c : ctx f64) i j p q s :
  ctx_wf c -> (forall k v, c k = Some v -> entries_all (fun x => fvalid x /\ 0 <= f64_real x) v) ->
  c i = Some (VArr [length xs] (AN (map AF xs))) -> c j = Some (VArr [length xs] (AN (map AF ws))) ->
  length xs = length ws -> xs <> [] ->
  Forall (fun p => (normal_product_in emax) (fst p) (snd p)) (combine xs ws) ->
  evaluate (Contract 1 (Var i) (Var j)) c = (c, Ok (VScal p)) ->
  evaluate (Sum (Var j)) c = (c, Ok (VScal q)) -> (normal_quotient_in emax) p q ->
  evaluate (Div (Contract 1 (Var i) (Var j)) (Sum (Var j))) c = (c, Ok (VScal s)) -> finite s ->
  let e := fold_right Rplus 0 (map (fun p => f64_real (fst p) * f64_real (snd p)) (combine xs ws))
           / fold_right Rplus 0 (map f64_real ws) in
  e * (1 - / 2 ^ Z.to_nat prec) ^ (2 * length xs) <= f64_real s /\
  f64_real s * (1 - / 2 ^ Z.to_nat prec) ^ (2 * length xs) <= e.
Proof.
  intros Wc V Ei Ej Le Ne N Hp Hq Nq H Fi.
  assert (Ti : forall g, @var_tensor f64 g c i = Tensor [length xs] (vat fzero (VArr [length xs] (AN (map AF xs))))).
  { intro g; unfold var_tensor; rewrite Ei; reflexivity. }
  assert (Tj : forall g, @var_tensor f64 g c j = Tensor [length xs] (vat fzero (VArr [length xs] (AN (map AF ws))))).
  { intro g; unfold var_tensor; rewrite Ej; reflexivity. }
  set (d := Contract 1 (Var i) (Var j)) in *.
  assert (Wr : written c d).
  { split; [exact Logic.I|split; [exact Logic.I|]]; left; cbn [steps]; rewrite Ti; discriminate. }
  assert (Nu : no_underflow_in c emax d).
  { split; [exact Logic.I|split; [exact Logic.I|]]; cbn [steps]; rewrite Ti, Tj; cbn [tdims tat].
    intros ix jx Bx By [Q|Q]; [discriminate|].
    apply box1_inv in Bx; destruct Bx as (k & -> & Hk); apply box1_inv in By; destruct By as (k' & -> & Hk').
    cbn [last hd] in Q; subst k'; rewrite !vat_arr.
    rewrite Forall_forall in N; apply (N (nth k xs fzero, nth k ws fzero)).
    rewrite <- combine_nth by exact Le; apply nth_In; rewrite combine_length; lia. }
  assert (Bn : in_box [] []) by (apply in_box_nil; reflexivity).
  destruct (steps_claim c c d (VScal p) Wc (conj Logic.I Logic.I) Wr Hp) as (_ & _ & Dp & Ep).
  destruct (steps_claim c c (Sum (Var j)) (VScal q) Wc Logic.I Logic.I Hq) as (_ & _ & Dq & Eq).
  cbn [dims vshape bty_of bty_shape] in Dp, Dq; rewrite <- Dp in Ep; rewrite <- Dq in Eq.
  specialize (Ep [] Bn); specialize (Eq [] Bn); cbn [vat] in Ep, Eq.
  assert (Nd : no_underflow_in c emax (Div d (Sum (Var j)))).
  { split; [exact Nu|split; [exact Logic.I|]]; intros ix _; unfold dividend_divisor, at_bc.
    rewrite <- Dp, <- Dq, <- Ep, <- Eq; exact Nq. }
  assert (K := relative_error pow lib 0 (fun _ x => x) c c (Div d (Sum (Var j))) (VScal s) [] Wc
                 (conj (conj Logic.I Logic.I) Logic.I) (conj Wr Logic.I)
                 (conj (conj Logic.I Logic.I) Logic.I)
                 (conj V (conj (conj Logic.I Logic.I) Logic.I)) Nd H Bn Fi).
  assert (Ro : roundings c (Div d (Sum (Var j))) = (2 * length xs)%nat).
  { subst d; cbn [roundings steps]; rewrite Ti, Tj; unfold depth; cbn [tdims last Nat.add].
    rewrite vec_ix, map_length, seq_length; destruct xs; [congruence|cbn [length]; lia]. }
  change (s64p pow lib) with s64m in K; rewrite Ro in K; subst d.
  unfold real_value in K; cbn [steps node_through vat] in K.
  unfold var_tensor, ctx_through in K; rewrite Ei, Ej in K; cbn [option_map vmap] in K.
  rewrite !arr_map_leaves in K; unfold tensor_of in K.
  cbn [vshape bty_of bty_shape dims] in K; unfold inner_steps, inner, crossed, pointwise, at_bc in K.
  cbn [tdims tat last length Nat.sub app] in K.
  unfold sum_over in K; cbn [fadd fmul fdiv fzero R_scalar firstn skipn app removelast tl tdims tat] in K.
  rewrite !vec_ix, !fold_sum, !Rplus_0_l, !(map_map (fun i : nat => [i])) in K.
  assert (Q : map (fun k => vat 0 (VArr [length xs] (AN (map AF (map f64_real xs)))) [k] *
                  vat 0 (VArr [length xs] (AN (map AF (map f64_real ws)))) [k]) (seq 0 (length xs)) =
    map (fun p => f64_real (fst p) * f64_real (snd p)) (combine xs ws)).
  { rewrite <- (combine_through _ _ f64_real xs ws Le Rmult).
    rewrite <- (zip_seq _ _ _ Rmult 0 0) by (rewrite !map_length; exact Le).
    rewrite map_length; apply map_ext; intro k; rewrite !vat_arr; reflexivity. }
  assert (Q' : map (fun k => vat 0 (VArr [length xs] (AN (map AF (map f64_real ws)))) [k]) (seq 0 (length xs)) =
    map f64_real ws).
  { transitivity (map (fun k => nth k (map f64_real ws) 0) (seq 0 (length (map f64_real ws)))).
    - rewrite map_length, <- Le; apply map_ext; intro k; rewrite vat_arr; reflexivity.
    - apply seq_nth. }
  rewrite Q, Q' in K; exact K.
Qed.
End Mean.

End Formats.
