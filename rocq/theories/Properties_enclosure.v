(** Certified results in floating point (property C82): evaluation in any binary format, against the
    exact real value with a bound on the error computed alongside (Enclosure_math.v). *)
From Coq Require Import List Arith ZArith Reals SpecFloat Lia Lra.
Import ListNotations.
From Verif Require Import Base Shapes Scalar Buffers Spec Contraction Node Eval Types Instances
  Vocab Math Real_math Code_math Float_math Enclosure_math Float_facts Float_claims Enclosure_claims.
Local Open Scope R_scope.

(** C82: for trees of all operators but those that decide by a comparison: the first components of the
    running bounds are the exact value of the expression; wherever the second is a number, the entry
    computed by [evaluate] is finite and no further from the exact value than that.  Nothing is assumed
    on overflow, underflow or divisors. *)
Theorem C82_enclosure : forall (prec emax : Z), (2 <= prec < emax)%Z ->
  forall (a b inf : R) (sp : libfn -> R -> R) (pow : f64 -> f64 -> f64) (lib : libfn -> f64 -> f64),
  accurate prec emax a b pow lib ->
  let S := float_scalar prec emax pow lib in
  forall (c c' : ctx f64) (n : node f64) (v : value f64) ix,
  ctx_wf c -> node_wf n -> written c n -> branch_free n ->
  inputs_all (fun x => float_valid prec emax x /\ finite x) c n ->
  evaluate n c = (c', Ok v) -> in_box (dims (vshape v)) ix ->
  fst (tat (error_bounds prec emax a b inf sp c n) ix) = tat (real_value inf sp c n) ix /\
  forall e, snd (tat (error_bounds prec emax a b inf sp c n) ix) = Some e ->
    finite (vat f64_zero v ix) /\
    Rabs (f64_real (vat f64_zero v ix) - tat (real_value inf sp c n) ix) <= e.
Proof. exact @enclosed. Qed.
Print Assumptions C82_enclosure.

(** Without library functions nothing needs to be known about them. *)
Theorem C82_arithmetic : forall (prec emax : Z), (2 <= prec < emax)%Z ->
  forall (inf : R) (sp : libfn -> R -> R) (pow : f64 -> f64 -> f64) (lib : libfn -> f64 -> f64),
  let S := float_scalar prec emax pow lib in
  forall (c c' : ctx f64) (n : node f64) (v : value f64) ix,
  ctx_wf c -> node_wf n -> written c n -> library_free n ->
  inputs_all (fun x => float_valid prec emax x /\ finite x) c n ->
  evaluate n c = (c', Ok v) -> in_box (dims (vshape v)) ix ->
  fst (tat (error_bounds prec emax 0 0 inf sp c n) ix) = tat (real_value inf sp c n) ix /\
  forall e, snd (tat (error_bounds prec emax 0 0 inf sp c n) ix) = Some e ->
    finite (vat f64_zero v ix) /\
    Rabs (f64_real (vat f64_zero v ix) - tat (real_value inf sp c n) ix) <= e.
Proof. exact @enclosed_arithmetic. Qed.
Print Assumptions C82_arithmetic.

(** ** Concrete cases *)
Section Examples.
Variable sp : libfn -> R -> R.

Definition tenth : f64 := S754_finite false 7205759403792794 (-56).
Definition fifth : f64 := S754_finite false 7205759403792794 (-55).
Definition huge : f64 := S754_finite false 9007199254740991 971.
Definition rho : ctx f64 := fun i => match i with
  | 0%nat => Some (VScal tenth) | 1%nat => Some (VScal fifth) | 2%nat => Some (VScal huge) | _ => None end.

Lemma reals : f64_real tenth = 7205759403792794 / 72057594037927936 /\
  f64_real fifth = 7205759403792794 / 36028797018963968.
Proof. unfold f64_real, tenth, fifth; simpl; lra. Qed.

Lemma rho_wf : ctx_wf rho.
Proof. intros [|[|[|i]]] v E; inversion E; exact Logic.I. Qed.

Lemma top_large : 1000 <= top 1024.
Proof.
  unfold top; apply Rle_trans with (2 ^ 10); [simpl; lra|apply Rle_pow; [lra|]].
  change 1024%Z with (Z.of_nat 1024); rewrite Nat2Z.id; lia.
Qed.

Lemma tiny_small : 0 < half_tiny 53 1024 <= / 2 ^ 60.
Proof.
  split; [apply (tiny_pos (prec := 53) (emax := 1024))|]; unfold half_tiny.
  apply Rinv_le_contravar; [apply pow_lt; lra|apply Rle_pow; [lra|]].
  change (1024 + 53 - 2)%Z with (Z.of_nat 1075); rewrite Nat2Z.id; lia.
Qed.

Lemma ulp_value : half_ulp 53 = / 9007199254740992.
Proof. unfold half_ulp; simpl; lra. Qed.

Lemma capped_le m e : Rabs m + e < 1000 -> capped 1024 m e = Some e.
Proof. intro H; unfold capped; destruct (Rlt_dec _ _) as [|N]; auto; assert (T := top_large); lra. Qed.

Lemma rounding_le t m e d : 0 <= e -> 0 <= t -> e + half_ulp 53 * (Rabs m + e) + t <= d -> Rabs m + d < 1000 ->
  exists e', after_rounding 53 1024 t m e = Some e' /\ 0 <= e' <= d.
Proof.
  intros He Ht Hd Hm; assert (U : 0 < half_ulp 53) by (rewrite ulp_value; lra).
  assert (A := Rabs_pos m); assert (B : 0 <= half_ulp 53 * (Rabs m + e)) by (apply Rmult_le_pos; lra).
  unfold after_rounding; rewrite capped_le by lra; destruct (Req_EM_T e 0), (small_whole 53 m); eexists; split; eauto; lra.
Qed.

(** [exp x + y * y / x] at 0.1 and 0.2, with correctly rounded functions: all conditions hold, the
    error is certified to be below [2^-48]. *)
Definition tree : node f64 := Add (Un Exp (Var 0%nat)) (Div (Mul (Var 1%nat) (Var 1%nat)) (Var 0%nat)).
Example C82_example :
  let pow := fun x _ => nearest (prec := 53) (emax := 1024) (f64_real x * f64_real x) in
  let lib := fun f x => nearest (prec := 53) (emax := 1024) (R_lib (fun _ y => y) f (f64_real x)) in
  let S := float_scalar 53 1024 pow lib in
  accurate 53 1024 (half_ulp 53) (half_tiny 53 1024) pow lib /\
  ctx_wf rho /\ node_wf tree /\ written rho tree /\ branch_free tree /\
  inputs_all (fun x => f64_valid x /\ finite x) rho tree /\
  (exists s, evaluate tree rho = (rho, Ok (VScal s))) /\
  exists e, snd (tat (error_bounds 53 1024 (half_ulp 53) (half_tiny 53 1024) 0 sp rho tree) []) = Some e /\
    e <= / 2 ^ 48.
Proof.
  cbn zeta; split; [exact (nearest_accurate (prec := 53) (emax := 1024))|].
  split; [exact rho_wf|]. split; [cbn; auto|]. split; [cbn; auto|]. split; [cbn; auto|].
  split.
  { split; [|cbn; auto]; intros [|[|[|i]]] v E d ix Bx; inversion E; subst v; split; try reflexivity; exact Logic.I. }
  split; [eexists; reflexivity|].
  destruct reals as [R0 R1]; destruct tiny_small as [T0 T1]; assert (U := ulp_value).
  assert (T2 : half_tiny 53 1024 <= / 1000000000000000000) by (apply Rle_trans with (1 := T1); simpl; lra); clear T1.
  unfold error_bounds, tree; cbn -[f64_real half_ulp half_tiny after_rounding after_library exp Rdiv].
  rewrite R0, R1; set (x := 7205759403792794 / 72057594037927936); set (y := 7205759403792794 / 36028797018963968).
  assert (Hx : / 10 <= x <= / 9) by (unfold x; lra); assert (Hy : / 5 <= y <= 21 / 100) by (unfold y; lra).
  clearbody x y.
  assert (Ex : 0 < exp x <= 3).
  { split; [apply exp_pos|]; apply Rle_trans with (exp 1); [left; apply exp_increasing; lra|apply exp_le_3]. }
  unfold after_library; rewrite Rplus_0_r, Rminus_eq_0 by auto; rewrite capped_le by (rewrite U, Rabs_pos_eq; lra).
  unfold multiplied; cbn [fst snd both_bounds].
  destruct (rounding_le (half_tiny 53 1024) (y * y) (Rabs y * 0 + Rabs y * 0 + 0 * 0) (/ 100000000000000000)) as (e1 & -> & E1); try lra.
  { rewrite U, !Rmult_0_r, !Rplus_0_r, Rabs_pos_eq by nra; nra. }
  { rewrite Rabs_pos_eq by nra; nra. }
  unfold divided; cbn [fst snd both_bounds]; destruct (Rlt_dec 0 (Rabs x)) as [_|N]; [|rewrite Rabs_pos_eq in N by lra; lra].
  set (z := y * y) in *; assert (Hz : 0 < z <= / 20) by (unfold z; nra); clearbody z.
  assert (Q : (e1 * Rabs x + Rabs z * 0) / ((Rabs x - 0) * Rabs x) = e1 / x) by (rewrite Rabs_pos_eq by lra; field; lra).
  assert (Ix : 0 < / x <= 10).
  { split; [apply Rinv_0_lt_compat; lra|]; replace 10 with (/ / 10) by lra; apply Rinv_le_contravar; lra. }
  assert (Qe : 0 <= e1 / x <= / 10000000000000000) by (unfold Rdiv; nra).
  assert (Qz : 0 <= z / x <= 1) by (unfold Rdiv; nra).
  rewrite Q; destruct (rounding_le (half_tiny 53 1024) (z / x) (e1 / x) (/ 1000000000000000)) as (e2 & -> & E2); try lra.
  { rewrite U, Rabs_pos_eq by lra; lra. }
  { rewrite Rabs_pos_eq by lra; lra. }
  unfold added; cbn [fst snd both_bounds]; rewrite (Rabs_pos_eq (exp x)) by lra.
  set (e3 := 0 + half_ulp 53 * (exp x + 0) + half_tiny 53 1024).
  assert (E3 : 0 <= e3 <= / 1000000000000000) by (unfold e3; rewrite U; lra); clearbody e3.
  destruct (exactly_zero (exp x) e3); [exists e2; split; [reflexivity|lra]|].
  destruct (exactly_zero (z / x) e2); [exists e3; split; [reflexivity|lra]|].
  destruct (rounding_le 0 (exp x + z / x) (e3 + e2) (1 / 400000000000000)) as (e4 & E4 & E5); try lra.
  { rewrite U, Rabs_pos_eq by lra; lra. }
  { rewrite Rabs_pos_eq by lra; lra. }
  exists e4; split; [exact E4|lra].
Qed.

(** No slack to speak of: the error of [1 + 2^-53] is [2^-53], the bound [2^-53 (1 + 2^-53)]. *)
Example C82_tight : forall (pow : f64 -> f64 -> f64) (lib : libfn -> f64 -> f64),
  let S := float_scalar 53 1024 pow lib in
  let one := S754_finite false 4503599627370496 (-52) in
  let c : ctx f64 := fun i => match i with
    | 0%nat => Some (VScal one) | _ => Some (VScal (S754_finite false 4503599627370496 (-105))) end in
  let n := Add (Var 0%nat) (Var 1%nat) in
  ctx_wf c /\ node_wf n /\ written c n /\ library_free n /\
  inputs_all (fun x => float_valid 53 1024 x /\ finite x) c n /\ evaluate n c = (c, Ok (VScal one)) /\
  snd (tat (error_bounds 53 1024 0 0 0 sp c n) []) =
    Some (Rabs (f64_real one - tat (real_value 0 sp c n) []) * (1 + half_ulp 53)).
Proof.
  cbn zeta; intros pow lib.
  split; [intros [|i] v E; inversion E; exact Logic.I|].
  split; [cbn; auto|]. split; [cbn; auto|]. split; [cbn; auto|].
  split.
  { split; [|cbn; auto]; intros [|i] v E d ix Bx; inversion E; subst v; split; try reflexivity; exact Logic.I. }
  split; [vm_compute; reflexivity|].
  assert (R0 : f64_real (S754_finite false 4503599627370496 (-52)) = 1) by (unfold f64_real; simpl; lra).
  assert (R1 : f64_real (S754_finite false 4503599627370496 (-105)) = / 9007199254740992) by (unfold f64_real; simpl; lra).
  unfold error_bounds, real_value; cbn -[f64_real added half_ulp]; rewrite R0, R1, ulp_value; unfold added; cbn [fst snd both_bounds].
  unfold exactly_zero, R_eqb; destruct (Req_EM_T 1 0); [lra|]; destruct (Req_EM_T (/ 9007199254740992) 0); [lra|]; cbn [andb].
  unfold after_rounding; rewrite ulp_value.
  destruct (small_whole 53 (1 + / 9007199254740992)) eqn:W.
  - unfold small_whole in W; destruct (Req_EM_T _ _) as [E|]; [|discriminate].
    exfalso; revert E; generalize (Int_part (1 + / 9007199254740992)); intros k E.
    assert (1 < k)%Z by (apply lt_IZR; lra); assert (k < 2)%Z by (apply lt_IZR; lra); lia.
  - rewrite (Rabs_pos_eq (1 + _)) by lra; rewrite capped_le by (rewrite Rabs_pos_eq; lra).
    replace (1 - (1 + / 9007199254740992)) with (- / 9007199254740992) by ring.
    rewrite Rabs_Ropp, Rabs_pos_eq by lra; destruct (Req_EM_T _ _); f_equal; lra.
Qed.

(** Overflow is noticed: the square of the largest number is infinite, and there is no bound. *)
Example C82_overflow : forall (pow : f64 -> f64 -> f64) (lib : libfn -> f64 -> f64),
  let S := float_scalar 53 1024 pow lib in
  let n := Mul (Var 2%nat) (Var 2%nat) in
  ctx_wf rho /\ node_wf n /\ written rho n /\ library_free n /\
  inputs_all (fun x => float_valid 53 1024 x /\ finite x) rho n /\
  evaluate n rho = (rho, Ok (VScal (S754_infinity false))) /\
  snd (tat (error_bounds 53 1024 0 0 0 sp rho n) []) = None.
Proof.
  cbn zeta; intros pow lib; split; [exact rho_wf|].
  split; [cbn; auto|]. split; [cbn; auto|]. split; [cbn; auto|].
  split.
  { split; [|cbn; auto]; intros [|[|[|i]]] v E d ix Bx; inversion E; subst v; split; try reflexivity; exact Logic.I. }
  split; [vm_compute; reflexivity|].
  unfold error_bounds; cbn -[f64_real multiplied]; unfold multiplied; cbn [fst snd both_bounds].
  assert (H : 2 ^ 513 <= f64_real huge).
  { unfold huge, f64_real; apply Rle_trans with (1 * powerRZ 2 971).
    - rewrite Rmult_1_l; change 971%Z with (Z.of_nat 971); rewrite <- pow_powerRZ; apply Rle_pow; [lra|lia].
    - apply Rmult_le_compat_r; [apply powerRZ_le; lra|lra]. }
  set (x := f64_real huge) in *; clearbody x.
  assert (P : 0 < 2 ^ 513) by (apply pow_lt; lra).
  assert (L : top 1024 < x * x).
  { unfold top; change (Z.to_nat 1024) with 1024%nat; apply Rlt_le_trans with (2 ^ 513 * 2 ^ 513); [|nra].
    rewrite <- pow_add; apply Rlt_pow; [lra|lia]. }
  assert (T := top_large).
  assert (C : forall e, 0 <= e -> capped 1024 (x * x) e = None).
  { intros e He; unfold capped; destruct (Rlt_dec _ _) as [N|]; auto; rewrite Rabs_pos_eq in N by nra; lra. }
  assert (W : small_whole 53 (x * x) = false).
  { unfold small_whole; destruct (Req_EM_T _ _) as [E|]; auto; apply Z.leb_gt.
    revert E; generalize (Int_part (x * x)); intros k E; assert (2 ^ 53 < k)%Z; [|lia].
    apply lt_IZR; rewrite <- E; apply Rle_lt_trans with (2 := L); unfold top; change (Z.to_nat 1024) with 1024%nat.
    replace (IZR (2 ^ 53)) with (2 ^ 53) by (simpl; lra); apply Rle_pow; [lra|lia]. }
  unfold after_rounding; rewrite W, !Rmult_0_r, !Rplus_0_r, Rplus_0_l.
  assert (U := ulp_value); assert (Ti := tiny_small); assert (A := Rabs_pos (x * x)).
  destruct (Req_EM_T 0 0); apply C; rewrite U; lra.
Qed.
End Examples.
