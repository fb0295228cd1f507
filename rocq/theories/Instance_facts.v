(** The integers and the reals are exact; the unary operators over the reals mean what they say. *)
From Coq Require Import Reals ZArith Lra Lia List Bool Ring_theory ZArithRing RealField.
From Verif Require Import Base Scalar Instances Math Real_math.

Lemma Z_exact : @exact Z Z_scalar.
Proof.
  constructor; simpl.
  - exact Zth.
  - intros x y; apply Z.eqb_eq.
  - intro n; f_equal; induction n as [|n IH]; auto; rewrite Nat2Z.inj_succ, IH; simpl; lia.
  - intro x; unfold Z_pow; rewrite Z.ltb_irrefl; apply Z.pow_0_r.
  - intro y; unfold Z_pow; destruct (Z.ltb_spec y 0); simpl; auto; apply Z.pow_1_l; auto.
  - intros y H; apply Z.leb_gt in H; unfold Z_pow; destruct (Z.ltb_spec y 0); [lia|].
    apply Z.pow_0_l; auto.
Qed.

Local Open Scope R_scope.

Lemma int_part_IZR z : Int_part (IZR z) = z.
Proof. unfold Int_part; rewrite <- (tech_up (IZR z) (z + 1)); rewrite ?plus_IZR; try lra; lia. Qed.

Lemma R_pow_int x z : R_pow x (IZR z) = powerRZ x z.
Proof.
  unfold R_pow; rewrite int_part_IZR; destruct (Req_EM_T (IZR z) (IZR z)); auto; congruence.
Qed.

Lemma R_pow_pos x y : 0 < x -> R_pow x y = Rpower x y.
Proof.
  intro H; unfold R_pow; destruct (Req_EM_T y (IZR (Int_part y))) as [E|E].
  - rewrite E at 2; rewrite powerRZ_Rpower; auto.
  - destruct (Req_EM_T x 0); auto; lra.
Qed.

Lemma powerRZ_1 z : powerRZ 1 z = 1.
Proof. destruct z; simpl; auto; rewrite pow1; auto; apply Rinv_1. Qed.

Lemma R_pow_two x : R_pow x (1 + 1) = x * x.
Proof. replace (1 + 1) with (IZR 2) by (simpl; lra); rewrite R_pow_int; simpl; ring. Qed.

Section R.
Variables (inf : R) (sp : libfn -> R -> R).

Lemma R_exact : @exact R (R_scalar inf sp).
Proof.
  constructor; simpl.
  - exact RTheory.
  - intros x y; unfold R_eqb; destruct (Req_EM_T x y); split; auto; discriminate.
  - intro n; f_equal; induction n as [|n IH]; auto.
    change (Nat.iter (S n) (fun a => a + 1) 0) with (Nat.iter n (fun a => a + 1) 0 + 1).
    rewrite <- IH, S_INR; auto.
  - intro x; change 0 with (IZR 0); rewrite R_pow_int; reflexivity.
  - intro y; unfold R_pow; destruct (Req_EM_T y (IZR (Int_part y))); [apply powerRZ_1|].
    destruct (Req_EM_T 1 0); [lra|]; unfold Rpower; rewrite ln_1, Rmult_0_r; apply exp_0.
  - intros y H; unfold R_leb in H; destruct (Rle_dec y 0) as [L|L]; [discriminate|].
    unfold R_pow; destruct (Req_EM_T y (IZR (Int_part y))) as [E|E].
    + assert (P : (0 < Int_part y)%Z) by (apply lt_IZR; lra).
      destruct (Int_part y) as [|p|p] eqn:Q; try lia; simpl; apply pow_i; lia.
    + destruct (Req_EM_T 0 0); auto; congruence.
Qed.

Lemma real_un_fn u x : @un_fn R (R_scalar inf sp) u x = real_un inf sp u x.
Proof.
  destruct u; unfold un_fn, real_un, ftwo, is_zero, sigmoid;
    cbn [fzero fone finf fadd fsub fmul fdiv fpow fneg fabs fsignum flib feq fle R_scalar R_lib];
    auto; try ring.
  - apply R_pow_two.
  - unfold R_eqb; destruct (Req_EM_T x 0); auto.
  - unfold R_eqb, R_sign; destruct (Req_EM_T x 0) as [->|N]; destruct (Rlt_dec _ 0); try lra;
      destruct (Rlt_dec _ _); lra.
  - unfold Rmax; destruct (Rle_dec x (- x)); [rewrite Rabs_left1|rewrite Rabs_right]; lra.
  - unfold R_leb; destruct (Rle_dec x 0), (Rlt_dec 0 x); auto; lra.
  - unfold R_leb; destruct (Rle_dec 0 x).
    + unfold Rdiv; ring.
    + assert (0 < exp x) by apply exp_pos; rewrite exp_Ropp; field; lra.
  - unfold arcsinh; repeat f_equal; ring.
  - unfold tanh, sinh, cosh; field.
    assert (0 < exp x) by apply exp_pos; assert (0 < exp (- x)) by apply exp_pos; lra.
Qed.

End R.
