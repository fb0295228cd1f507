(** Absence of overflow, in the form used by Properties_float.v. *)
From Coq Require Import List Arith ZArith Reals SpecFloat Bool Lia Lra.
Import ListNotations.
From Verif Require Import Base Shapes Scalar Buffers Spec Contraction Node Eval Types Instances
  Vocab Math Code_math Float_math Index_facts Buffers_facts Spec_facts Contraction_facts
  Contraction_entries Match_facts Eval_facts Progress_facts Math_facts Code_claims Float_facts
  Float_claims.
Local Open Scope R_scope.

(** Formats: precision and largest exponent. *)
Section Formats.
Context {prec emax : Z} {Fm : Format prec emax}.
Notation rnd := (Float_facts.rnd prec emax).
Notation uro := (Float_facts.uro prec).
Notation uro_pos := (Float_facts.uro_pos (prec := prec)).
Notation fvalid := (float_valid prec emax).
Notation foz := (float_of_Z prec emax).
Notation good := (Float_claims.good (prec := prec) (emax := emax)).
Notation grow_le := (Float_claims.grow_le (prec := prec)).
Notation grow := (Float_claims.grow (prec := prec)).
Notation from_zero := (Float_claims.from_zero (prec := prec) (emax := emax)).
Notation one_real := (Float_claims.one_real (prec := prec) (emax := emax)).
Notation one_valid := (Float_claims.one_valid (prec := prec) (emax := emax)).
Notation two_real := (Float_claims.two_real (prec := prec) (emax := emax)).
Notation two_valid := (Float_claims.two_valid (prec := prec) (emax := emax)).
Notation two_finite := (Float_claims.two_finite (prec := prec) (emax := emax)).
Notation one_finite := (Float_claims.one_finite (prec := prec) (emax := emax)).
Notation abs_real := (Float_claims.abs_real (prec := prec) (emax := emax)).
Notation small_int := (Float_claims.small_int (prec := prec) (emax := emax)).

Lemma top_real : Raux.bpow Zaux.radix2 emax = 2 ^ Z.to_nat emax.
Proof.
  assert (FB : (2 <= prec < emax)%Z) by exact Fm.
  rewrite <- (Raux.IZR_Zpower Zaux.radix2 emax) by lia.
  rewrite pow_IZR; f_equal; rewrite Z2Nat.id by lia; reflexivity.
Qed.

Section Room.
Variables (K : nat) (b : R).
Hypothesis room : (1 + uro) ^ K * b < 2 ^ Z.to_nat emax.

(** As [good], and finite as long as no more than [K] roundings are behind. *)
Definition roomy (k : nat) (x : f64) (e a : R) : Prop := good k x e a /\ ((k <= K)%nat -> finite x).
Definition below (a : R) : Prop := a <= b.

Lemma room_for k q a : (k <= K)%nat -> 0 <= a -> below a -> Rabs q <= (1 + uro) ^ k * a ->
  Rabs q < Raux.bpow Zaux.radix2 emax.
Proof.
  intros L N Ba H; rewrite top_real; apply Rle_lt_trans with (2 := room), Rle_trans with (1 := H).
  assert (G := grow_le k K L); assert (G' := grow k).
  apply Rmult_le_compat; auto; lra.
Qed.

Lemma roomy_le k l x e a : roomy k x e a -> (k <= l)%nat -> roomy l x e a.
Proof. intros [G F] L; split; [exact (good_le _ _ _ _ _ G L)|intro; apply F; lia]. Qed.

Lemma roomy_nonneg k x e a : roomy k x e a -> 0 <= a.
Proof. intros [G _]; exact (good_nonneg _ _ _ _ G). Qed.

Lemma roomy_sum k X Y a c d : Rabs X <= (1 + uro) ^ k * a -> Rabs Y <= (1 + uro) ^ k * c ->
  Rabs d <= uro -> Rabs ((X + Y) * (1 + d)) <= (1 + uro) ^ S k * (a + c).
Proof.
  intros H1 H2 Hd; rewrite Rabs_mult; replace ((1 + uro) ^ S k * (a + c))
    with (((1 + uro) ^ k * a + (1 + uro) ^ k * c) * (1 + uro)) by (cbn [Rpow_def.pow]; ring).
  apply Rmult_le_compat; auto using Rabs_pos.
  - apply Rle_trans with (1 := Rabs_triang _ _); lra.
  - apply Rle_trans with (1 := Rabs_triang _ _); rewrite Rabs_R1; lra.
Qed.

Lemma roomy_add k x e a y f c : roomy k x e a -> roomy k y f c -> below (a + c) ->
  roomy (S k) (SFadd prec emax x y) (e + f) (a + c).
Proof.
  intros [G F] [G' F'] Bs; split; [apply good_add; auto|]; intro L.
  assert (Fx := F ltac:(lia)); assert (Fy := F' ltac:(lia)).
  assert (V := proj1 G); assert (V' := proj1 G').
  destruct (add_real x y V V') as (_ & _ & Fs), (rnd_sum x y V V') as (d & Hd & Ed).
  apply Fs; auto; rewrite Ed; apply (room_for (S k) _ (a + c)); auto.
  - assert (N := good_nonneg _ _ _ _ G); assert (N' := good_nonneg _ _ _ _ G'); lra.
  - apply roomy_sum; [exact (good_mag _ _ _ _ G Fx)|exact (good_mag _ _ _ _ G' Fy)|exact Hd].
Qed.

Lemma roomy_sub k x e a y f c : roomy k x e a -> roomy k y f c -> below (a + c) ->
  roomy (S k) (SFsub prec emax x y) (e - f) (a + c).
Proof.
  intros [G F] [G' F'] Bs; split; [apply good_sub; auto|]; intro L.
  assert (Fx := F ltac:(lia)); assert (Fy := F' ltac:(lia)).
  assert (V := proj1 G); assert (V' := proj1 G').
  destruct (sub_real x y V V') as (_ & _ & Fs), (rnd_sum x (SFopp y) V (opp_valid _ V')) as (d & Hd & Ed).
  rewrite opp_real in Ed; apply Fs; auto; unfold Rminus; rewrite Ed; apply (room_for (S k) _ (a + c)); auto.
  - assert (N := good_nonneg _ _ _ _ G); assert (N' := good_nonneg _ _ _ _ G'); lra.
  - apply roomy_sum; [exact (good_mag _ _ _ _ G Fx)|rewrite Rabs_Ropp; exact (good_mag _ _ _ _ G' Fy)|exact Hd].
Qed.

Lemma roomy_mul k l x e a y f c : roomy k x e a -> roomy l y f c -> (normal_product_in emax) x y -> below (a * c) ->
  roomy (S (k + l)) (SFmul prec emax x y) (e * f) (a * c).
Proof.
  intros [G F] [G' F'] Nm Bs; split; [apply good_mul; auto|]; intro L.
  assert (Fx := F ltac:(lia)); assert (Fy := F' ltac:(lia)).
  assert (V := proj1 G); assert (V' := proj1 G').
  assert (N := good_nonneg _ _ _ _ G); assert (N' := good_nonneg _ _ _ _ G').
  destruct (mul_real x y V V') as (_ & _ & Fs), (rnd_rel _ Nm) as (d & Hd & Ed).
  apply Fs; auto; rewrite Ed; apply (room_for (S (k + l)) _ (a * c)); auto.
  - apply Rmult_le_pos; auto.
  - replace ((1 + uro) ^ S (k + l) * (a * c))
      with ((((1 + uro) ^ k * a) * ((1 + uro) ^ l * c)) * (1 + uro)) by (cbn [Rpow_def.pow]; rewrite pow_add; ring).
    rewrite Rabs_mult; apply Rmult_le_compat; auto using Rabs_pos.
    + rewrite Rabs_mult; apply Rmult_le_compat; auto using Rabs_pos;
        [exact (good_mag _ _ _ _ G Fx)|exact (good_mag _ _ _ _ G' Fy)].
    + apply Rle_trans with (1 := Rabs_triang _ _); rewrite Rabs_R1; lra.
Qed.

Lemma roomy_double k x e a : roomy k x e a -> below ((1 + 1) * a) ->
  roomy k (SFmul prec emax (SFadd prec emax (foz 1) (foz 1)) x) ((1 + 1) * e) ((1 + 1) * a).
Proof.
  intros [G F] Bs; split; [apply good_double; auto|]; intro L.
  assert (Fx := F L); assert (V := proj1 G); assert (N := good_nonneg _ _ _ _ G).
  destruct (mul_real _ x two_valid V) as (_ & _ & Fs); rewrite two_real in Fs.
  apply Fs; auto using two_finite; rewrite double_exact by exact V.
  apply (room_for k _ ((1 + 1) * a)); auto; [lra|].
  rewrite Rabs_mult, Rabs_pos_eq by lra; assert (J := good_mag _ _ _ _ G Fx); lra.
Qed.

Lemma roomy_leaf x : fvalid x -> finite x -> roomy 0 x (f64_real x) (Rabs (f64_real x)).
Proof. intros V Fx; split; [apply good_leaf; exact V|auto]. Qed.
End Room.

Section Overflow.
Variables (pow : f64 -> f64 -> f64) (lib : libfn -> f64 -> f64) (inf : R) (sp : libfn -> R -> R).
#[local] Instance s64o : Scalar f64 := float_scalar prec emax pow lib.

Lemma roomy_guarded b c n : arithmetic n -> no_underflow_in c emax n -> parts_within b c n ->
  guarded (prec := prec) (emax := emax) pow lib (normal_product_in emax) (below b) c n.
Proof.
  induction n; intros A H Q; try contradiction; cbn [guarded]; (split; [apply Q|]); try exact I;
    cbn [arithmetic no_underflow_in] in *; destruct Q as [_ Q].
  - destruct u; try contradiction; auto. destruct H; auto.
  - auto.
  - destruct A, H, Q; auto.
  - destruct A, H, Q; auto.
  - destruct A as [A1 A2], H as (N1 & N2 & N3), Q; auto.
  - destruct A as [A1 A2], H as (N1 & N2 & N3), Q; auto.
Qed.

Lemma no_overflow (c c' : ctx f64) n v b ix :
  ctx_wf c -> node_wf n -> written c n -> arithmetic n ->
  inputs_all (fun x => fvalid x /\ finite x) c n -> no_underflow_in c emax n ->
  2 <= b -> parts_within b c n -> (1 + / 2 ^ Z.to_nat prec) ^ roundings c n * b < 2 ^ Z.to_nat emax ->
  evaluate n c = (c', Ok v) -> in_box (dims (vshape v)) ix ->
  finite (vat f64_zero v ix) /\
  Rabs (f64_real (vat f64_zero v ix) - tat (real_value inf sp c n) ix)
    <= ((1 + / 2 ^ Z.to_nat prec) ^ roundings c n - 1) * tat (magnitude c n) ix.
Proof.
  intros Wc W Hw A I N Two Q Room H Bx.
  assert (Fi : finite (vat f64_zero v ix)).
  2:{ split; [exact Fi|]; eapply forward_error; eauto.
      eapply inputs_weaken; [|exact I]; intros x [V _]; exact V. }
  destruct (steps_claim c c' n v Wc W Hw H) as (-> & Wv & D & E).
  assert (Ag := evaluate_agrees c n Wc c v W Hw H).
  change (/ 2 ^ Z.to_nat prec) with uro in Room.
  destruct (tree_follows (prec := prec) (emax := emax) pow lib inf sp (roomy (roundings c n)) (normal_product_in emax) (below b)) with (c := c) (n := n)
    as (_ & _ & K); auto.
  - exact (roomy_le _).
  - exact (roomy_nonneg _).
  - unfold below; intros; lra.
  - split; [|intros; exact Logic.I].
    split; [reflexivity|]; split; [rewrite Rabs_R0; lra|]; intros _; simpl; rewrite Rminus_0_r, Rabs_R0; lra.
  - assert (K := roomy_leaf (roundings c n) _ one_valid); rewrite one_real in K.
    rewrite Rabs_pos_eq in K by lra; apply K; exact one_finite.
  - intros k x e a [G F]; split; [apply good_from_zero; exact G|].
    intro L; apply (from_zero x), F, L.
  - intros; eapply roomy_add; eauto.
  - intros; eapply roomy_sub; eauto.
  - intros; eapply roomy_mul; eauto.
  - intros; eapply roomy_double; eauto.
  - intros k x e a [G F]; split; [apply good_neg; exact G|]; intro L; apply opp_finite, F, L.
  - intros k x e a [G F]; split; [apply good_abs; exact G|]; intro L; apply (abs_real x), F, L.
  - intros x y; unfold normal_product_in; rewrite (Rmult_comm (f64_real y)); auto.
  - unfold below; intros a Na Sa; destruct (Rle_lt_dec 1 a); [nra|lra].
  - apply roomy_guarded; auto.
  - eapply inputs_weaken; [|exact I]; intros x [V Fx]; apply roomy_leaf; auto.
  - rewrite D in Bx; destruct (K ix Bx) as (_ & F).
    change (vat f64_zero v ix) with (vat fzero v ix); rewrite (E ix Bx); apply F, Nat.le_refl.
Qed.

Lemma no_overflow_plain (c c' : ctx f64) n v ix :
  ctx_wf c -> node_wf n -> written c n -> arithmetic n ->
  inputs_all (fun x => fvalid x /\ finite x) c n -> no_underflow_in c emax n ->
  parts_within (2 ^ Z.to_nat (emax - 1)) c n -> INR (roundings c n) < 2 ^ Z.to_nat (prec - 1) ->
  evaluate n c = (c', Ok v) -> in_box (dims (vshape v)) ix ->
  finite (vat f64_zero v ix) /\
  Rabs (f64_real (vat f64_zero v ix) - tat (real_value inf sp c n) ix)
    <= ((1 + / 2 ^ Z.to_nat prec) ^ roundings c n - 1) * tat (magnitude c n) ix.
Proof.
  intros Wc W Hw A I N Q L H Bx.
  assert (FB : (2 <= prec < emax)%Z) by exact Fm.
  assert (T1 : Z.to_nat (emax - 1) = S (Z.to_nat (emax - 2))) by lia.
  assert (T2 : Z.to_nat emax = S (Z.to_nat (emax - 1))) by lia.
  assert (T3 : Z.to_nat prec = S (Z.to_nat (prec - 1))) by lia.
  assert (P1 : 1 <= 2 ^ Z.to_nat (emax - 2)) by (apply pow_R1_Rle; lra).
  assert (P2 : 2 ^ Z.to_nat (emax - 1) = 2 * 2 ^ Z.to_nat (emax - 2)) by (rewrite T1; reflexivity).
  assert (P3 : 2 ^ Z.to_nat emax = 2 * 2 ^ Z.to_nat (emax - 1)) by (rewrite T2; reflexivity).
  apply (no_overflow c c' n v (2 ^ Z.to_nat (emax - 1)) ix); auto; [lra|].
  rewrite P3; apply Rmult_lt_compat_r; [lra|].
  assert (J : INR (roundings c n) * / 2 ^ Z.to_nat prec < / 2).
  { apply Rmult_lt_reg_r with (2 ^ Z.to_nat prec); [apply pow_lt; lra|].
    rewrite Rmult_assoc, Rinv_l by (apply pow_nonzero; lra).
    replace (2 ^ Z.to_nat prec) with (2 * 2 ^ Z.to_nat (prec - 1)) by (rewrite T3; reflexivity); lra. }
  assert (Nn : 0 <= INR (roundings c n) * / 2 ^ Z.to_nat prec).
  { apply Rmult_le_pos; [apply pos_INR|left; apply Rinv_0_lt_compat, pow_lt; lra]. }
  assert (Hf : / 2 < 1) by lra.
  assert (G := gamma_bound (prec := prec) _ (Rlt_trans _ _ _ J Hf)).
  set (g := INR (roundings c n) * / 2 ^ Z.to_nat prec) in *.
  assert (J' : g / (1 - g) < 1).
  { apply Rmult_lt_reg_r with (1 - g); [lra|]; unfold Rdiv; rewrite Rmult_assoc, Rinv_l; lra. }
  match type of G with ?a - 1 <= _ => change (a < 2); set (q := a) in * end; lra.
Qed.
End Overflow.

End Formats.
