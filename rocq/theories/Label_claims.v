(** Proofs of C98: the logistic regression example on labels drawn with the true probabilities. *)
From Coq Require Import List Arith ZArith Reals Bool Lia Lra.
Import ListNotations.
From Verif Require Import Base Shapes Scalar Buffers Spec Contraction Node Eval Instances Real_math Program_math
  Programs Programs_facts Programs_claims Mean_math Mean_claims Drift_claims Ascent_claims Label_math.
Local Open Scope R_scope.

Section Labels.
Variables (tw : list R) (pool : list (list R)).
Hypothesis NE : pool <> [].

Lemma pool_size : 0 < INR (length pool).
Proof. apply lt_0_INR; destruct pool; [contradiction|cbn; lia]. Qed.

Lemma average_le {A} (f g : A -> R) l : (forall a, In a l -> f a <= g a) -> average f l <= average g l.
Proof.
  intro H; destruct l as [|a l]; [unfold average, Rdiv; rewrite !total_nil; lra|].
  apply Rmult_le_compat_r; [left; apply Rinv_0_lt_compat, lt_0_INR; cbn; lia|apply total_le, H].
Qed.

Lemma average_const k : average (fun _ => k) pool = k.
Proof. unfold average; rewrite total_const; assert (P := pool_size); field; lra. Qed.

Lemma logit_unit z : 0 < logit z < 1.
Proof. apply (logit_range 0 (fun _ _ => 0)). Qed.

Lemma expected_le n : forall f g,
  (forall d, length d = n -> Forall (fun p => In (fst p) pool) d -> f d <= g d) ->
  expected tw pool n f <= expected tw pool n g.
Proof.
  induction n as [|n IH]; intros f g H; cbn [expected]; [apply H; auto|].
  apply average_le; intros xs I; assert (L := logit_unit (ip xs tw)).
  apply Rplus_le_compat; (apply Rmult_le_compat_l; [lra|]); apply IH; intros d Ld Fd; apply H; cbn; auto.
Qed.

Lemma expected_ext n f g :
  (forall d, length d = n -> Forall (fun p => In (fst p) pool) d -> f d = g d) ->
  expected tw pool n f = expected tw pool n g.
Proof. intro H; apply Rle_antisym; apply expected_le; intros d L Fd; rewrite H by assumption; lra. Qed.

Lemma expected_const n k : expected tw pool n (fun _ => k) = k.
Proof.
  induction n as [|n IH]; cbn [expected]; [reflexivity|].
  transitivity (average (fun _ : list R => k) pool); [|apply average_const].
  unfold average; f_equal; apply total_ext; intros xs _; rewrite IH; ring.
Qed.

Lemma expected_linear n : forall k f g,
  expected tw pool n (fun d => f d + k * g d) = expected tw pool n f + k * expected tw pool n g.
Proof.
  induction n as [|n IH]; intros k f g; cbn [expected]; [reflexivity|].
  unfold average, Rdiv; rewrite (Rmult_comm k), Rmult_assoc, (Rmult_comm (/ _) k), <- Rmult_assoc, <- Rmult_plus_distr_r.
  f_equal; rewrite (Rmult_comm _ k), <- total_scale, <- total_plus; apply total_ext; intros xs _.
  rewrite (IH k (fun d => f ((xs, true) :: d)) (fun d => g ((xs, true) :: d))),
    (IH k (fun d => f ((xs, false) :: d)) (fun d => g ((xs, false) :: d))); ring.
Qed.

Variables (rate m : R).
Hypothesis Hr : 0 <= rate.
Hypothesis Hm : Forall (fun xs => length xs = length tw /\ ip xs xs <= m) pool.

Fixpoint errors (ws : list R) (rest : list (list R * bool)) : R :=
  match rest with
  | [] => 0
  | (xs, b) :: rest' => (logit (ip xs ws) - logit (ip xs tw)) ^ 2 + errors (climb rate ws xs b) rest'
  end.

Notation c := (rate * (8 - rate * m)).

Lemma label_step ws xs : length ws = length tw -> length xs = length tw -> ip xs xs <= m ->
  let q := logit (ip xs tw) in
  q * dist2 (climb rate ws xs true) tw + (1 - q) * dist2 (climb rate ws xs false) tw <=
  dist2 ws tw - c * (logit (ip xs ws) - q) ^ 2 + rate * rate * m / 4.
Proof.
  intros Lw Lx Hx q; unfold climb; rewrite !dist_move by congruence; fold q; cbn [label].
  assert (Q := logit_unit (ip xs tw)); fold q in Q; set (p := logit (ip xs ws)); assert (S := ip_self xs).
  assert (K : (p - q) * (ip xs ws - ip xs tw) >= 4 * (p - q) ^ 2).
  { unfold p, q; destruct (Rle_dec (ip xs ws) (ip xs tw)) as [H|H].
    - assert (L := logit_slope _ _ H); nra.
    - assert (L := logit_slope (ip xs tw) (ip xs ws) ltac:(lra)); nra. }
  set (z := ip xs ws - ip xs tw) in *; set (n := ip xs xs) in *; set (D := dist2 ws tw).
  replace (q * (D + 2 * (rate * (1 - p)) * z + rate * (1 - p) * (rate * (1 - p)) * n) +
    (1 - q) * (D + 2 * (rate * (0 - p)) * z + rate * (0 - p) * (rate * (0 - p)) * n))
    with (D - 2 * (rate * ((p - q) * z)) + rate * rate * (n * (q * (1 - q) + (p - q) ^ 2))) by ring.
  assert (A : rate * (4 * (p - q) ^ 2) <= rate * ((p - q) * z)) by (apply Rmult_le_compat_l; lra).
  assert (V : 0 <= (p - q) ^ 2) by (rewrite <- Rsqr_pow2; apply Rle_0_sqr).
  assert (W : q * (1 - q) <= / 4) by (assert (R0 := Rle_0_sqr (q - / 2)); unfold Rsqr in R0; nra).
  assert (B : n * (q * (1 - q) + (p - q) ^ 2) <= m * (/ 4 + (p - q) ^ 2)) by (apply Rmult_le_compat; nra).
  assert (B' : rate * rate * (n * (q * (1 - q) + (p - q) ^ 2)) <= rate * rate * (m * (/ 4 + (p - q) ^ 2)))
    by (apply Rmult_le_compat_l; [nra|exact B]).
  lra.
Qed.

Lemma label_run n : forall ws, length ws = length tw ->
  expected tw pool n (fun d => dist2 (climb_all rate ws d) tw + c * errors ws d) <=
  dist2 ws tw + INR n * (rate * rate * m / 4).
Proof.
  induction n as [|n IH]; intros ws Lw; [cbn [expected INR]; unfold climb_all; cbn [fold_left errors]; lra|].
  cbn [expected]; rewrite S_INR.
  apply Rle_trans with (average (fun _ : list R => dist2 ws tw + (INR n + 1) * (rate * rate * m / 4)) pool);
    [apply average_le; intros xs I|rewrite average_const; lra].
  rewrite Forall_forall in Hm; destruct (Hm xs I) as [Lx Hx].
  assert (Q := logit_unit (ip xs tw)); assert (S := label_step ws xs Lw Lx Hx); cbv zeta in S.
  assert (G : forall b, expected tw pool n (fun d => dist2 (climb_all rate ws ((xs, b) :: d)) tw + c * errors ws ((xs, b) :: d)) <=
    dist2 (climb rate ws xs b) tw + INR n * (rate * rate * m / 4) + c * (logit (ip xs ws) - logit (ip xs tw)) ^ 2).
  { intro b; rewrite (expected_ext n _ (fun d => (dist2 (climb_all rate (climb rate ws xs b) d) tw + c * errors (climb rate ws xs b) d)
      + c * (logit (ip xs ws) - logit (ip xs tw)) ^ 2 * 1)).
    - rewrite expected_linear, expected_const.
      assert (H := IH (climb rate ws xs b) ltac:(unfold climb; rewrite move_length; congruence)); lra.
    - intros d _ _; unfold climb_all; cbn [fold_left fst snd errors]; ring. }
  assert (G1 := G true); assert (G0 := G false); set (q := logit (ip xs tw)) in *.
  match goal with |- q * ?a + (1 - q) * ?b <= _ => set (e1 := a) in *; set (e0 := b) in * end.
  assert (q * e1 <= q * (dist2 (climb rate ws xs true) tw + INR n * (rate * rate * m / 4) + c * (logit (ip xs ws) - q) ^ 2))
    by (apply Rmult_le_compat_l; [lra|exact G1]).
  assert ((1 - q) * e0 <= (1 - q) * (dist2 (climb rate ws xs false) tw + INR n * (rate * rate * m / 4) + c * (logit (ip xs ws) - q) ^ 2))
    by (apply Rmult_le_compat_l; [lra|exact G0]).
  lra.
Qed.

Lemma errors_nonneg rest : forall ws, 0 <= errors ws rest.
Proof.
  induction rest as [|[xs b] rest IH]; intro ws; cbn [errors]; [lra|].
  assert (H := IH (climb rate ws xs b)); assert (Q := Rle_0_sqr (logit (ip xs ws) - logit (ip xs tw))); rewrite Rsqr_pow2 in Q; lra.
Qed.

Variable ws : list R.
Hypothesis Lw : length ws = length tw.
Variable out : list (list R * bool) -> list R.
Variables (inf : R) (sp : libfn -> R -> R).
Notation RS := (R_scalar inf sp).
Hypothesis Out : forall d, Forall (fun p => In (fst p) pool) d ->
  @logistic_run R RS (@logistic_auto R RS) rate ws d = Ok (out d).

Lemma out_is d : Forall (fun p => In (fst p) pool) d -> out d = climb_all rate ws d.
Proof.
  intro F; assert (E := logistic_run_climb inf sp (@logistic_auto R RS) rate d (or_introl eq_refl) ws).
  assert (L : Forall (fun p => length (fst p) = length ws) d).
  { eapply Forall_impl; [|exact F]; intros p I; rewrite Forall_forall in Hm; rewrite Lw; apply (Hm _ I). }
  specialize (E L).
  assert (X : Ok (out d) = Ok (climb_all rate ws d) :> res err (list R)) by (rewrite <- (Out d F); exact E).
  injection X; auto.
Qed.

Lemma error_is rest : forall seen, Forall (fun p => In (fst p) pool) seen -> Forall (fun p => In (fst p) pool) rest ->
  prediction_error out tw seen rest = errors (climb_all rate ws seen) rest.
Proof.
  induction rest as [|[xs b] rest IH]; intros seen Fs Fr; cbn [prediction_error errors]; [reflexivity|].
  inversion Fr as [|? ? I Fr']; subst; rewrite (out_is seen Fs); f_equal.
  assert (F1 : Forall (fun p => In (fst p) pool) (seen ++ [(xs, b)])) by (apply Forall_app; split; [exact Fs|apply Forall_cons; [exact I|apply Forall_nil]]).
  rewrite (IH _ F1 Fr').
  f_equal; unfold climb_all; rewrite fold_left_app; reflexivity.
Qed.

Lemma label_means n : rate * m <= 8 ->
  expected tw pool n (fun d => dist2 (out d) tw) <= dist2 ws tw + INR n * (rate ^ 2 * m / 4) /\
  c * expected tw pool n (prediction_error out tw []) <= dist2 ws tw + INR n * (rate ^ 2 * m / 4).
Proof.
  intro H; assert (R := label_run n ws Lw); rewrite expected_linear in R.
  replace (rate ^ 2) with (rate * rate) by ring.
  assert (E1 : expected tw pool n (fun d => dist2 (out d) tw) = expected tw pool n (fun d => dist2 (climb_all rate ws d) tw))
    by (apply expected_ext; intros d _ F; rewrite (out_is d F); reflexivity).
  assert (E2 : expected tw pool n (prediction_error out tw []) = expected tw pool n (errors ws))
    by (apply expected_ext; intros d _ F; apply (error_is d [] (Forall_nil _) F)).
  rewrite E1, E2.
  assert (P1 : 0 <= expected tw pool n (fun d => dist2 (climb_all rate ws d) tw)).
  { rewrite <- (expected_const n 0); apply expected_le; intros; apply dist_nonneg. }
  assert (P2 : 0 <= expected tw pool n (errors ws)).
  { rewrite <- (expected_const n 0); apply expected_le; intros; apply errors_nonneg. }
  assert (C : 0 <= c) by (apply Rmult_le_pos; lra).
  assert (0 <= c * expected tw pool n (errors ws)) by (apply Rmult_le_pos; assumption).
  split; lra.
Qed.
End Labels.

Lemma points_in n k xs : In xs (points n k) -> length xs = n /\ Forall (fun x => 0 <= x <= 1) xs.
Proof.
  intro I; assert (G : Forall (fun x => 0 <= x <= 1) (grid k)).
  { apply Forall_forall; intros x H; apply in_map_iff in H as (i & <- & H); apply in_seq in H.
    assert (A := pos_INR i); assert (B : INR i < INR k) by (apply lt_INR; lia).
    split; [apply Rmult_le_pos; [exact A|left; apply Rinv_0_lt_compat; lra]|].
    apply Rmult_le_reg_r with (INR k); [lra|]; unfold Rdiv; rewrite Rmult_assoc, Rinv_l by lra; lra. }
  apply (sequences_in _ n (grid k) xs G I).
Qed.

Lemma points_nonempty n k : (1 <= k)%nat -> points n k <> [].
Proof.
  intros H E; assert (L := sequences_length n (grid k)); unfold points in E; rewrite E, grid_length in L; cbn in L.
  assert (P : 0 < INR k ^ n) by (apply pow_lt, lt_0_INR; lia); lra.
Qed.

Lemma label_program tw k n (out : list (list R * bool) -> list R) inf sp :
  let RS := R_scalar inf sp in
  length tw = 5%nat -> Forall (fun x => 0 <= x <= 1) tw -> (1 <= k)%nat -> Z.of_nat n = 1000000%Z ->
  (forall d, Forall (fun p => In (fst p) (points 5 k)) d ->
     @logistic_run R RS (@logistic_auto R RS) (5 / 10000) (repeat 0 5) d = Ok (out d)) ->
  expected tw (points 5 k) n (fun d => dist2 (out d) tw) <= ip tw tw + 4 / 10 /\
  expected tw (points 5 k) n (fun d => prediction_error out tw [] d / INR n) <= 133 / 100000.
Proof.
  intros RS Lt Ht Hk Hn Out.
  assert (Nn : INR n = 1000000) by (rewrite INR_IZR_INZ, Hn; reflexivity).
  assert (Hm : Forall (fun xs => length xs = length tw /\ ip xs xs <= 5) (points 5 k)).
  { apply Forall_forall; intros xs I; destruct (points_in 5 k xs I) as [L U]; split; [congruence|].
    replace 5 with (INR (length xs)) by (rewrite L; simpl; lra); apply unit_draw, U. }
  destruct (label_means tw (points 5 k) (points_nonempty 5 k Hk) (5 / 10000) 5 ltac:(lra) Hm (repeat 0 5)
    ltac:(rewrite repeat_length; congruence) out inf sp Out n ltac:(lra)) as [D E].
  assert (Z : dist2 (repeat 0 5) tw = ip tw tw).
  { rewrite <- Lt; clear; induction tw as [|t l IH]; cbn [length repeat dist2 ip]; [reflexivity|rewrite IH; ring]. }
  assert (U : ip tw tw <= 5) by (replace 5 with (INR (length tw)) by (rewrite Lt; simpl; lra); apply unit_draw, Ht).
  rewrite Z, Nn in D, E; split; [lra|].
  assert (L := expected_linear tw (points 5 k) n (/ INR n) (fun _ => 0) (prediction_error out tw [])).
  rewrite (expected_const tw (points 5 k) (points_nonempty 5 k Hk) n 0), Rplus_0_l in L.
  rewrite (expected_ext tw (points 5 k) n _ (fun d => 0 + / INR n * prediction_error out tw [] d)) by (intros; unfold Rdiv; ring).
  rewrite L, Nn; set (x := expected _ _ _ _) in *; lra.
Qed.

Lemma label_all inf sp tw ws pool rate m n :
  let RS := R_scalar inf sp in
  pool <> [] -> 0 <= rate -> rate * m <= 8 -> length ws = length tw ->
  Forall (fun xs => length xs = length tw /\ ip xs xs <= m) pool ->
  exists out : list (list R * bool) -> list R,
    (forall d, Forall (fun p => In (fst p) pool) d ->
       @logistic_run R RS (@logistic_auto R RS) rate ws d = Ok (out d)) /\
    expected tw pool n (fun d => dist2 (out d) tw) <= dist2 ws tw + INR n * (rate ^ 2 * m / 4) /\
    rate * (8 - rate * m) * expected tw pool n (prediction_error out tw []) <= dist2 ws tw + INR n * (rate ^ 2 * m / 4).
Proof.
  intros RS NE Hr H8 Lw Hm; exists (climb_all rate ws).
  assert (O : forall d, Forall (fun p => In (fst p) pool) d ->
       @logistic_run R RS (@logistic_auto R RS) rate ws d = Ok (climb_all rate ws d)).
  { intros d F; apply logistic_run_climb; [left; reflexivity|].
    eapply Forall_impl; [|exact F]; intros p I; rewrite Forall_forall in Hm; rewrite Lw; apply (Hm _ I). }
  split; [exact O|apply (label_means tw pool NE rate m Hr Hm ws Lw _ inf sp O n H8)].
Qed.

Lemma label_example inf sp tw k n :
  let RS := R_scalar inf sp in
  length tw = 5%nat -> Forall (fun x => 0 <= x <= 1) tw -> (1 <= k)%nat -> Z.of_nat n = 1000000%Z ->
  exists out : list (list R * bool) -> list R,
    (forall d, Forall (fun p => In (fst p) (points 5 k)) d ->
       @logistic_run R RS (@logistic_auto R RS) (5 / 10000) (repeat 0 5) d = Ok (out d)) /\
    expected tw (points 5 k) n (fun d => dist2 (out d) tw) <= ip tw tw + 4 / 10 /\
    expected tw (points 5 k) n (fun d => prediction_error out tw [] d / INR n) <= 133 / 100000.
Proof.
  intros RS Lt Ht Hk Hn; exists (climb_all (5 / 10000) (repeat 0 5)).
  assert (O : forall d, Forall (fun p => In (fst p) (points 5 k)) d ->
       @logistic_run R RS (@logistic_auto R RS) (5 / 10000) (repeat 0 5) d = Ok (climb_all (5 / 10000) (repeat 0 5) d)).
  { intros d F; apply logistic_run_climb; [left; reflexivity|].
    eapply Forall_impl; [|exact F]; intros p I; rewrite repeat_length; apply (points_in 5 k _ I). }
  split; [exact O|apply (label_program tw k n _ inf sp Lt Ht Hk Hn O)].
Qed.

Lemma expected_mean tw pool n : pool <> [] ->
  (forall k, expected tw pool n (fun _ => k) = k) /\
  (forall f g k, expected tw pool n (fun d => f d + k * g d) = expected tw pool n f + k * expected tw pool n g) /\
  (forall f g, (forall d, length d = n -> Forall (fun p => In (fst p) pool) d -> f d <= g d) ->
     expected tw pool n f <= expected tw pool n g).
Proof.
  intro NE; split; [|split]; intros; [apply expected_const, NE|apply expected_linear|apply expected_le; assumption].
Qed.
