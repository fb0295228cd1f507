(** Proofs of C99: the logistic regression example in f64, on draws as likely as they are. *)
From Coq Require Import List Arith ZArith Reals SpecFloat Bool Lia Lra.
From Flocq Require Import Core.
Import ListNotations.
From Verif Require Import Base Shapes Scalar Buffers Spec Contraction Node Eval Instances Real_math Program_math Float_math
  Programs Programs_facts Programs_claims Float_facts Float_claims Enclosure_claims Special_claims Mean_math Mean_claims Drift_math Drift_claims Ascent_math Ascent_claims
  Label_claims Chance_math.
Local Open Scope R_scope.

(** Means. *)
Section Means.
Context {A : Type}.
Variables (chance : A -> R) (pool : list A).
Hypothesis Hc : Forall (fun a => 0 <= chance a <= 1) pool.

Lemma mean_le n : forall f g, (forall d, drawn_from pool n d -> f d <= g d) ->
  mean_over chance pool n f <= mean_over chance pool n g.
Proof.
  induction n as [|n IH]; intros f g H; cbn [mean_over]; [apply H; split; auto|].
  apply average_le; intros a I; rewrite Forall_forall in Hc; assert (L := Hc a I).
  apply Rplus_le_compat; (apply Rmult_le_compat_l; [lra|]); apply IH; intros d [Ld Fd]; apply H; split; cbn; auto.
Qed.

Lemma mean_ext n f g : (forall d, drawn_from pool n d -> f d = g d) -> mean_over chance pool n f = mean_over chance pool n g.
Proof. intro H; apply Rle_antisym; apply mean_le; intros d D; rewrite H by assumption; lra. Qed.

Lemma mean_const n k : pool <> [] -> mean_over chance pool n (fun _ => k) = k.
Proof.
  clear Hc; intro NE; induction n as [|n IH]; cbn [mean_over]; [reflexivity|].
  unfold average; rewrite (total_ext _ (fun _ => k)) by (intros a _; rewrite IH; ring).
  rewrite total_const; assert (P : 0 < INR (length pool)) by (apply lt_0_INR; destruct pool; [contradiction|cbn; lia]); field; lra.
Qed.

Lemma mean_linear n : forall k f g,
  mean_over chance pool n (fun d => f d + k * g d) = mean_over chance pool n f + k * mean_over chance pool n g.
Proof.
  induction n as [|n IH]; intros k f g; cbn [mean_over]; [reflexivity|].
  unfold average, Rdiv; rewrite (Rmult_comm k), Rmult_assoc, (Rmult_comm (/ _) k), <- Rmult_assoc, <- Rmult_plus_distr_r.
  f_equal; rewrite (Rmult_comm _ k), <- total_scale, <- total_plus; apply total_ext; intros xs _.
  rewrite (IH k (fun d => f ((xs, true) :: d)) (fun d => g ((xs, true) :: d))),
    (IH k (fun d => f ((xs, false) :: d)) (fun d => g ((xs, false) :: d))); ring.
Qed.

(** A bound on every first draw, on average over its label, bounds the mean. *)
Lemma mean_step n f k (h : A -> bool -> R) : pool <> [] ->
  (forall a b, In a pool -> mean_over chance pool n (fun d => f ((a, b) :: d)) <= h a b) ->
  (forall a, In a pool -> chance a * h a true + (1 - chance a) * h a false <= k) ->
  mean_over chance pool (S n) f <= k.
Proof.
  intros NE H1 H2; cbn [mean_over]; apply Rle_trans with (average (fun _ : A => k) pool).
  - apply average_le; intros a I; apply Rle_trans with (2 := H2 a I); rewrite Forall_forall in Hc; assert (L := Hc a I).
    apply Rplus_le_compat; (apply Rmult_le_compat_l; [lra|]); apply H1, I.
  - unfold average; rewrite total_const; assert (P : 0 < INR (length pool)) by (apply lt_0_INR; destruct pool; [contradiction|cbn; lia]).
    right; field; lra.
Qed.
End Means.

Lemma dot_difference xs ws tw : length xs = length ws -> length tw = length ws ->
  (ip xs ws - ip xs tw) * (ip xs ws - ip xs tw) <= ip xs xs * dist2 ws tw.
Proof.
  intros L Lt; assert (K : forall k, 0 <= dist2 ws tw + 2 * k * (ip xs ws - ip xs tw) + k * k * ip xs xs).
  { intro k; rewrite <- (dist_move k ws xs tw L Lt); apply dist_nonneg. }
  assert (P := ip_self xs); assert (W := dist_nonneg ws tw).
  set (n := ip xs xs) in *; set (p := ip xs ws - ip xs tw) in *; set (w := dist2 _ _) in *.
  destruct P as [P|P].
  - assert (H := K (- p / n)).
    replace (w + 2 * (- p / n) * p + - p / n * (- p / n) * n) with ((n * w - p * p) / n) in H by (field; lra).
    assert (H0 : 0 <= (n * w - p * p) / n * n) by (apply Rmult_le_pos; lra).
    unfold Rdiv in *; rewrite Rmult_assoc, Rinv_l in H0 by lra; lra.
  - rewrite <- P in *; destruct (Req_dec p 0) as [->|N]; [lra|].
    exfalso; assert (H1 := K (- (w + 1) / p)).
    replace (w + 2 * (- (w + 1) / p) * p + - (w + 1) / p * (- (w + 1) / p) * 0) with (- w - 2) in H1 by (field; exact N); lra.
Qed.

(** The exact run on draws whose labels have about the true probabilities. *)
Section Exact.
Variables (tw : list R) (pool : list (list f64)) (chance : list f64 -> R) (rate m e B : R).
Notation val := (map f64_real).
Hypothesis NE : pool <> [].
Hypothesis Hr : 0 <= rate.
Hypothesis H8 : rate * m <= 8.
Hypothesis He : 0 <= e.
Hypothesis HB : 0 <= B.
Hypothesis Hc : Forall (fun xs => 0 <= chance xs <= 1) pool.
Hypothesis Hp : Forall (fun xs => length xs = length tw /\ ip (val xs) (val xs) <= m /\ Rabs (ip (val xs) tw) <= B /\
  Rabs (chance xs - logit (ip (val xs) tw)) <= e) pool.

Lemma pool_in xs : In xs pool -> length xs = length tw /\ ip (val xs) (val xs) <= m /\ Rabs (ip (val xs) tw) <= B /\
  Rabs (chance xs - logit (ip (val xs) tw)) <= e.
Proof. intro I; exact (proj1 (Forall_forall _ _) Hp xs I). Qed.

Notation c := (rate * (8 - rate * m)).
Definition per_draw : R := rate * rate * m / 4 + rate * e * (4 * B + 16).

Lemma chance_step ws xs : length ws = length tw -> In xs pool -> Rabs (ip (val xs) ws) <= B ->
  let q := chance xs in
  q * dist2 (climb rate ws (val xs) true) tw + (1 - q) * dist2 (climb rate ws (val xs) false) tw <=
  dist2 ws tw - c * (logit (ip (val xs) ws) - logit (ip (val xs) tw)) ^ 2 + per_draw.
Proof.
  intros Lw I Bw q; assert (Q := proj1 (Forall_forall _ _) Hc xs I); destruct (pool_in xs I) as (Lx & Hx & Bt & Hq); cbv beta in Q; fold q in Q, Hq.
  unfold climb; rewrite !dist_move by (rewrite ?map_length; congruence); cbn [label].
  assert (R := logit_unit (ip (val xs) tw)); set (r := logit (ip (val xs) tw)) in *.
  assert (P := logit_unit (ip (val xs) ws)); set (p := logit (ip (val xs) ws)) in *; assert (S := ip_self (val xs)).
  assert (K : (p - r) * (ip (val xs) ws - ip (val xs) tw) >= 4 * (p - r) ^ 2).
  { unfold p, r; destruct (Rle_dec (ip (val xs) ws) (ip (val xs) tw)) as [H|H].
    - assert (L := logit_slope _ _ H); nra.
    - assert (L := logit_slope (ip (val xs) tw) (ip (val xs) ws) ltac:(lra)); nra. }
  assert (Z : Rabs (ip (val xs) ws - ip (val xs) tw) <= 2 * B).
  { apply Rabs_le_inv in Bw; apply Rabs_le_inv in Bt; apply Rabs_le; lra. }
  set (z := ip (val xs) ws - ip (val xs) tw) in *; set (n := ip (val xs) (val xs)) in *; set (D := dist2 ws tw).
  clearbody z n D p r q.
  replace (q * (D + 2 * (rate * (1 - p)) * z + rate * (1 - p) * (rate * (1 - p)) * n) +
    (1 - q) * (D + 2 * (rate * (0 - p)) * z + rate * (0 - p) * (rate * (0 - p)) * n))
    with (D - 2 * (rate * ((p - r) * z)) + 2 * (rate * ((q - r) * z)) + rate * rate * (n * (q * (1 - q) + (p - q) ^ 2))) by ring.
  assert (A : rate * (4 * (p - r) ^ 2) <= rate * ((p - r) * z)) by (apply Rmult_le_compat_l; lra).
  assert (E : (q - r) * z <= e * (2 * B)).
  { apply Rle_trans with (Rabs ((q - r) * z)); [apply Rle_abs|rewrite Rabs_mult; apply Rmult_le_compat; try apply Rabs_pos; assumption]. }
  assert (E' : rate * ((q - r) * z) <= rate * (e * (2 * B))) by (apply Rmult_le_compat_l; assumption).
  assert (V : 0 <= (p - r) ^ 2) by (rewrite <- Rsqr_pow2; apply Rle_0_sqr).
  assert (W : q * (1 - q) <= / 4) by (assert (R0 := Rle_0_sqr (q - / 2)); unfold Rsqr in R0; nra).
  assert (W0 : 0 <= q * (1 - q)) by (apply Rmult_le_pos; lra).
  assert (V' : 0 <= (p - q) ^ 2 <= (p - r) ^ 2 + 2 * e).
  { split; [rewrite <- Rsqr_pow2; apply Rle_0_sqr|].
    replace ((p - q) ^ 2) with ((p - r) ^ 2 + (q - r) * (q + r - 2 * p)) by ring.
    assert ((q - r) * (q + r - 2 * p) <= e * 2); [|lra].
    apply Rle_trans with (Rabs ((q - r) * (q + r - 2 * p))); [apply Rle_abs|rewrite Rabs_mult].
    apply Rmult_le_compat; try apply Rabs_pos; [exact Hq|apply Rabs_le; lra]. }
  assert (M : n * (q * (1 - q) + (p - q) ^ 2) <= m * (/ 4 + ((p - r) ^ 2 + 2 * e))) by (apply Rmult_le_compat; lra).
  assert (M' : rate * rate * (n * (q * (1 - q) + (p - q) ^ 2)) <= rate * rate * (m * (/ 4 + ((p - r) ^ 2 + 2 * e))))
    by (apply Rmult_le_compat_l; [apply Rmult_le_pos; assumption|exact M]).
  assert (X : rate * rate * (m * (2 * e)) <= 16 * (rate * e)).
  { replace (rate * rate * (m * (2 * e))) with (2 * (rate * m) * (rate * e)) by ring.
    apply Rmult_le_compat_r; [apply Rmult_le_pos; assumption|lra]. }
  unfold per_draw; lra.
Qed.

Notation growth := (rate * (6 / 10 + rate * m)).
Notation norm ws := (dist2 ws (repeat 0 (length ws))).

(** Room for the weights to grow over [n] draws. *)
Definition room (n : nat) (ws : list R) : Prop := length ws = length tw /\ m * (norm ws + INR n * growth) <= B * B.

Lemma m_pos : 0 <= m.
Proof.
  destruct pool as [|xs l]; [contradiction|]; inversion Hp as [|? ? H _]; subst.
  assert (S := ip_self (val xs)); lra.
Qed.

Lemma growth_pos : 0 <= growth.
Proof. assert (M := m_pos); apply Rmult_le_pos; [exact Hr|assert (0 <= rate * m) by (apply Rmult_le_pos; assumption); lra]. Qed.

Lemma room_logit n ws xs : room n ws -> In xs pool -> Rabs (ip (val xs) ws) <= B.
Proof.
  intros [Lw H] I; destruct (pool_in xs I) as (Lx & Hx & _).
  assert (S := dot_square (val xs) ws ltac:(rewrite map_length; congruence)); assert (P := ip_self (val xs)).
  assert (Pd := dist_nonneg ws (repeat 0 (length ws))).
  assert (Q : 0 <= INR n * growth) by (apply Rmult_le_pos; [apply pos_INR|apply growth_pos]).
  assert (ip (val xs) (val xs) * norm ws <= m * (norm ws + INR n * growth)) by (apply Rmult_le_compat; lra).
  rewrite <- (Rabs_pos_eq B HB); apply Rsqr_le_abs_0; unfold Rsqr; lra.
Qed.

Lemma room_step n ws xs b : room (S n) ws -> In xs pool -> room n (climb rate ws (val xs) b).
Proof.
  intros [Lw H] I; destruct (pool_in xs I) as (Lx & Hx & _).
  assert (L : length (climb rate ws (val xs) b) = length ws) by (apply move_length; rewrite map_length; congruence).
  split; [congruence|]; rewrite L; rewrite S_INR in H.
  assert (G := climb_grows rate ws (val xs) b m Hr ltac:(rewrite map_length; congruence) Hx).
  apply Rle_trans with (2 := H); apply Rmult_le_compat_l; [apply m_pos|lra].
Qed.

Notation errors := (errors tw rate).

Lemma chance_run n : forall ws, room n ws ->
  mean_over chance pool n (fun d => dist2 (climb_all rate ws (real_draws d)) tw + c * errors ws (real_draws d)) <=
  dist2 ws tw + INR n * per_draw.
Proof.
  induction n as [|n IH]; intros ws Rm; [cbn [mean_over INR]; unfold climb_all; cbn [real_draws map fold_left Label_claims.errors]; lra|].
  rewrite S_INR.
  apply (mean_step chance pool Hc n _ _ (fun xs b => dist2 (climb rate ws (val xs) b) tw + INR n * per_draw +
    c * (logit (ip (val xs) ws) - logit (ip (val xs) tw)) ^ 2) NE).
  - intros xs b I.
    rewrite (mean_ext chance pool Hc n _ (fun d => (dist2 (climb_all rate (climb rate ws (val xs) b) (real_draws d)) tw +
      c * errors (climb rate ws (val xs) b) (real_draws d)) + c * (logit (ip (val xs) ws) - logit (ip (val xs) tw)) ^ 2 * 1)).
    + rewrite mean_linear, mean_const by exact NE.
      assert (H := IH (climb rate ws (val xs) b) (room_step n ws xs b Rm I)); lra.
    + intros d _; unfold climb_all, real_draws; cbn [map fold_left fst snd Label_claims.errors]; ring.
  - intros xs I; assert (S := chance_step ws xs (proj1 Rm) I (room_logit _ ws xs Rm I)); cbv zeta in S; lra.
Qed.

(** Whether the weights are ever further than the root of [l] from the true ones. *)
Definition strays (l : R) (ws : list R) : bool := if Rlt_dec l (dist2 ws tw) then true else false.
Fixpoint far (l : R) (ws : list R) (d : list (list R * bool)) : bool :=
  strays l ws || match d with [] => false | (xs, b) :: rest => far l (climb rate ws xs b) rest end.

Lemma chance_far l n : 0 <= l -> forall ws, room n ws ->
  l * probability chance pool n (fun d => far l ws (real_draws d)) <= dist2 ws tw + INR n * per_draw.
Proof.
  intro Hl; assert (K0 : 0 <= per_draw).
  { assert (M := m_pos); unfold per_draw; assert (0 <= rate * rate * m) by (repeat apply Rmult_le_pos; assumption).
    assert (0 <= rate * e * (4 * B + 16)) by (repeat apply Rmult_le_pos; lra); lra. }
  assert (Ind : forall (n : nat) ev, l * probability chance pool n ev <= l).
  { intros n' ev; rewrite <- (Rmult_1_r l) at 2; apply Rmult_le_compat_l; [exact Hl|].
    unfold probability; apply Rle_trans with (mean_over chance pool n' (fun _ => 1)); [|rewrite mean_const by exact NE; lra].
    apply mean_le; [exact Hc|]; intros d _; destruct (ev d); lra. }
  assert (Stray : forall (n : nat) ws, strays l ws = true -> forall ev, l * probability chance pool n ev <= dist2 ws tw + INR n * per_draw).
  { intros n' ws E ev; assert (H := Ind n' ev); assert (0 <= INR n' * per_draw) by (apply Rmult_le_pos; [apply pos_INR|exact K0]).
    unfold strays in E; destruct (Rlt_dec l (dist2 ws tw)); [lra|discriminate]. }
  induction n as [|n IH]; intros ws Rm.
  - destruct (strays l ws) eqn:E; [apply Stray, E|]; unfold probability; cbn [mean_over real_draws map far INR]; rewrite E; cbn [orb].
    assert (P := dist_nonneg ws tw); lra.
  - destruct (strays l ws) eqn:E; [apply Stray, E|]; rewrite S_INR; unfold probability.
    assert (Sc : l * mean_over chance pool (S n) (fun d => if far l ws (real_draws d) then 1 else 0) =
      mean_over chance pool (S n) (fun d => 0 + l * (if far l ws (real_draws d) then 1 else 0))).
    { rewrite (mean_linear chance pool (S n) l (fun _ => 0)), mean_const by exact NE; ring. }
    rewrite Sc.
    apply (mean_step chance pool Hc n _ _ (fun xs b => dist2 (climb rate ws (val xs) b) tw + INR n * per_draw) NE).
    + intros xs b I; apply Rle_trans with (2 := IH (climb rate ws (val xs) b) (room_step n ws xs b Rm I)).
      unfold probability.
      rewrite (mean_linear chance pool n l (fun _ => 0)), mean_const, Rplus_0_l by exact NE; right; f_equal.
      apply mean_ext; [exact Hc|]; intros d _; cbn [real_draws map far fst snd]; rewrite E; reflexivity.
    + intros xs I; assert (S := chance_step ws xs (proj1 Rm) I (room_logit _ ws xs Rm I)); cbv zeta in S.
      assert (Q : 0 <= c * (logit (ip (val xs) ws) - logit (ip (val xs) tw)) ^ 2).
      { apply Rmult_le_pos; [apply Rmult_le_pos; lra|rewrite <- Rsqr_pow2; apply Rle_0_sqr]. }
      lra.
Qed.

Lemma near_calm l b C : 0 <= b <= C -> m * l <= (C - b) * (C - b) -> Forall (fun xs => Rabs (ip (val xs) tw) <= b) pool ->
  forall d ws, length ws = length tw -> Forall (fun p => In (fst p) pool) d -> far l ws (real_draws d) = false ->
  calm C rate ws (real_draws d).
Proof.
  intros Hb Hl Hbt; induction d as [|[xs y] d IH]; intros ws Lw Hd E; [exact Logic.I|].
  inversion Hd as [|? ? I Hd']; subst; cbn [fst] in I; cbn [real_draws map far fst snd] in E.
  apply orb_false_iff in E as [E1 E2]; unfold strays in E1; destruct (Rlt_dec l (dist2 ws tw)) as [|N]; [discriminate|].
  rewrite Forall_forall in Hbt; destruct (pool_in xs I) as (Lx & Hx & _); assert (T := Hbt xs I).
  cbn [real_draws map calm fst snd]; split.
  - assert (S := dot_difference (val xs) ws tw ltac:(rewrite map_length; congruence) ltac:(congruence)).
    assert (P := ip_self (val xs)); assert (Pd := dist_nonneg ws tw).
    assert (ip (val xs) (val xs) * dist2 ws tw <= m * l) by (apply Rmult_le_compat; lra).
    assert (Z : Rabs (ip (val xs) ws - ip (val xs) tw) <= C - b).
    { rewrite <- (Rabs_pos_eq (C - b)) by lra; apply Rsqr_le_abs_0; unfold Rsqr; lra. }
    apply Rabs_le_inv in Z; apply Rabs_le_inv in T; apply Rabs_le; lra.
  - apply IH; [unfold climb; rewrite move_length; rewrite ?map_length; congruence|exact Hd'|exact E2].
Qed.
End Exact.

Lemma calm_prefix C rate d1 d2 : forall ws, calm C rate ws (d1 ++ d2) -> calm C rate ws d1.
Proof. induction d1 as [|[xs b] d1 IH]; intros ws H; [exact Logic.I|]; destruct H as [H1 H2]; split; [exact H1|apply IH, H2]. Qed.

(** The floats. *)
Section Floats.
Variables (pow : f64 -> f64 -> f64) (lib : libfn -> f64 -> f64).
Notation FS := (f64_scalar pow lib).
Hypothesis Good : good_exp (lib Lexp).
Hypothesis Unit : unit_exp (lib Lexp).
#[local] Notation u := (/ 2 ^ 53).
#[local] Notation val := (map f64_real).

Lemma chance_near tw xs : length xs = length tw -> (length tw <= 30)%nat -> Forall unit_float tw -> Forall unit_float xs ->
  let p := @logistic_chance f64 FS tw xs in
  f64_valid p /\ finite p /\ 0 <= f64_real p <= 1 /\ Rabs (f64_real p - logit (ip (val xs) (val tw))) <= 262 * u.
Proof.
  intros L N Ht Hx p; assert (U := u_val).
  assert (P := product_near pow lib 1 xs tw ltac:(lra) Hx Ht L ltac:(lia)).
  destruct (near_holds _ _ _ P) as (zr & Hz & Ez).
  assert (Sn := sigmoid_near pow lib Good _ _ Hz); destruct Sn as (V & Fi & E).
  split; [exact V|split; [exact Fi|split]].
  - assert (NN : @dotted f64 FS xs tw <> S754_nan) by (destruct Hz as (_ & F & _); intro Q; change (finite (@dotted f64 FS xs tw)) in F; rewrite Q in F; exact F).
    destruct (sigmoid_f64_range (prec := 53) (emax := 1024) pow lib Unit (@dotted f64 FS xs tw) (proj1 Hz) NN) as (_ & _ & R1 & R2).
    unfold p, logistic_chance; destruct (SFleb f64_zero (@dotted f64 FS xs tw)).
    + specialize (R1 eq_refl); change (/ 2 <= f64_real (@sigmoid f64 FS (@dotted f64 FS xs tw)) <= 1) in R1; lra.
    + specialize (R2 eq_refl); change (0 <= f64_real (@sigmoid f64 FS (@dotted f64 FS xs tw)) <= / 2) in R2; lra.
  - change (Rabs (f64_real p - logit zr) <= 14 * u) in E.
    assert (Lp := logit_lipschitz zr (ip (val xs) (val tw))); unfold per_term in Ez.
    assert (T := Rabs_triang (f64_real p - logit zr) (logit zr - logit (ip (val xs) (val tw)))).
    replace (f64_real p - logit zr + (logit zr - logit (ip (val xs) (val tw)))) with (f64_real p - logit (ip (val xs) (val tw))) in T by ring.
    lra.
Qed.

Variables (hand : bool) (rate : f64) (ws tw : list f64) (pool : list (list f64)) (n : nat) (m : R).
Hypothesis Vr : f64_valid rate.
Hypothesis Fr : finite rate.
Hypothesis Br : 0 <= f64_real rate <= / 1000.
Hypothesis N : (length ws <= 30)%nat.
Hypothesis Hw : Forall unit_float ws.
Hypothesis Lt : length tw = length ws.
Hypothesis Ht : Forall unit_float tw.
Hypothesis NE : pool <> [].
Hypothesis Hp : Forall (fun xs => length xs = length ws /\ Forall unit_float xs /\ ip (val xs) (val xs) <= m) pool.
Hypothesis Hm : m <= 30.
Hypothesis Hn : INR n <= 10 ^ 10.
Hypothesis Hr : INR n * f64_real rate <= 510.

Notation rr := (f64_real rate).
Notation chance := (fun xs => f64_real (@logistic_chance f64 FS tw xs)).
Notation run := (@logistic_run f64 FS (if hand then @logistic_by_hand f64 FS else @logistic_auto f64 FS) rate ws).
Notation K := (262 * u).

Lemma in_pool xs : In xs pool -> length xs = length ws /\ Forall unit_float xs /\ ip (val xs) (val xs) <= m.
Proof. intro I; exact (proj1 (Forall_forall _ _) Hp xs I). Qed.

Lemma chance_range : Forall (fun xs => 0 <= chance xs <= 1) pool.
Proof.
  apply Forall_forall; intros xs I; destruct (in_pool xs I) as (L & Ux & _).
  apply (chance_near tw xs ltac:(congruence) ltac:(lia) Ht Ux).
Qed.

Lemma pool_facts : Forall (fun xs => length xs = length (val tw) /\ ip (val xs) (val xs) <= m /\ Rabs (ip (val xs) (val tw)) <= 103 /\
  Rabs (chance xs - logit (ip (val xs) (val tw))) <= K) pool.
Proof.
  apply Forall_forall; intros xs I; destruct (in_pool xs I) as (L & Ux & M); rewrite map_length.
  split; [congruence|split; [exact M|split]].
  - assert (Bi := ip_bound 1 xs ltac:(lra) tw Ux Ht).
    assert (Kx : INR (length xs) <= 30) by (replace 30 with (INR 30) by (simpl; lra); apply le_INR; lia); lra.
  - apply (chance_near tw xs ltac:(congruence) ltac:(lia) Ht Ux).
Qed.

Lemma m_range : 0 <= m.
Proof.
  assert (X : exists xs, In xs pool) by (clear Hp; destruct pool as [|xs q]; [contradiction|exists xs; left; reflexivity]).
  destruct X as [xs I]; destruct (in_pool xs I) as (_ & _ & M); assert (S := ip_self (val xs)); lra.
Qed.

Lemma rate_small : rr * m <= 3 / 100.
Proof. assert (M := m_range); apply Rle_trans with (/ 1000 * 30); [apply Rmult_le_compat; lra|lra]. Qed.

Lemma start_room : room (val tw) rr m 103 n (val ws).
Proof.
  assert (M := m_range); assert (Rm := rate_small); split; [rewrite !map_length; congruence|].
  assert (D0 : forall l : list f64, Forall unit_float l -> dist2 (val l) (repeat 0 (length l)) <= INR (length l)).
  { induction l as [|x l IH]; intro H; [cbn; lra|]; inversion H as [|? ? (_ & _ & X) H']; subst.
    cbn [map length repeat dist2]; change (length (x :: l)) with (S (length l)); rewrite S_INR; specialize (IH H').
    apply Rabs_le_inv in X; nra. }
  rewrite map_length; specialize (D0 ws Hw).
  assert (Kw : INR (length ws) <= 30) by (replace 30 with (INR 30) by (simpl; lra); apply le_INR; lia).
  assert (G : INR n * (rr * (6 / 10 + rr * m)) <= 510 * (63 / 100)).
  { rewrite <- Rmult_assoc; apply Rmult_le_compat; [apply Rmult_le_pos; [apply pos_INR|lra]|assert (0 <= rr * m) by (apply Rmult_le_pos; lra); lra|exact Hr|lra]. }
  assert (P := dist_nonneg (val ws) (repeat 0 (length ws))).
  assert (P' : 0 <= INR n * (rr * (6 / 10 + rr * m))).
  { apply Rmult_le_pos; [apply pos_INR|apply Rmult_le_pos; [lra|]]; assert (0 <= rr * m) by (apply Rmult_le_pos; lra); lra. }
  apply Rle_trans with (30 * (30 + 510 * (63 / 100))); [apply Rmult_le_compat; lra|lra].
Qed.

Lemma per_draw_small : per_draw rr m K 103 <= rr ^ 2 * m / 4 + rr / 2 ^ 36.
Proof.
  unfold per_draw; replace (rr ^ 2 * m / 4) with (rr * rr * m / 4) by field; apply Rplus_le_compat_l.
  unfold Rdiv; rewrite !Rmult_assoc; apply Rmult_le_compat_l; [lra|].
  replace (/ 2 ^ 36) with (131072 * u) by (replace (2 ^ 53) with (131072 * 2 ^ 36) by ring; field; apply pow_nonzero; lra).
  assert (U := u_val); lra.
Qed.

Variables (l b : R).
Hypothesis Hauto : hand = true \/
  0 <= b <= 29 /\ 0 <= l /\ m * l <= (29 - b) * (29 - b) /\ Forall (fun xs => Rabs (ip (val xs) (val tw)) <= b) pool.

Definition bad (d : list (list f64 * bool)) : bool := if hand then false else far (val tw) rr l (val ws) (real_draws d).
Definition learnt (d : list (list f64 * bool)) : list f64 := match run d with Ok o => o | _ => [] end.
Notation exact d := (climb_all rr (val ws) (real_draws d)).

Lemma track d rest inf sp : drawn_from pool n (d ++ rest) -> bad (d ++ rest) = false ->
  run d = Ok (learnt d) /\ Forall finite (learnt d) /\ length (learnt d) = length ws /\ length (exact d) = length ws /\
  @logistic_run R (R_scalar inf sp) (@logistic_auto R (R_scalar inf sp)) rr (val ws) (real_draws d) = Ok (exact d) /\
  dist2 (val (learnt d)) (exact d) <= (INR (length d) / 2 ^ 41) ^ 2.
Proof.
  intros [Ld Fd] Hb; assert (Fd' := proj1 (proj1 (Forall_app _ _ _) Fd)).
  assert (Nd : INR (length d) <= INR n) by (apply le_INR; rewrite <- Ld, app_length; lia).
  assert (P0 := pos_INR (length d)).
  assert (Dd : Forall (fun p => length (fst p) = length ws /\ Forall unit_float (fst p)) d).
  { eapply Forall_impl; [|exact Fd']; intros p I; destruct (in_pool _ I) as (H1 & H2 & _); auto. }
  assert (Dr : Forall (fun p : list R * bool => length (fst p) = length (val ws)) (real_draws d)).
  { apply Forall_forall; intros p I; apply in_map_iff in I as (p' & <- & I); rewrite Forall_forall in Dd.
    cbn [fst]; rewrite !map_length; apply (Dd p' I). }
  destruct (ascent_runs pow lib inf sp Good hand rate ws d Vr Fr Br N Hw Dd ltac:(lra)) as (out & ex & E & Ex & Fi & Lo & Le & Bd).
  - apply Rle_trans with (INR n * rr); [apply Rmult_le_compat_r; lra|exact Hr].
  - destruct Hauto as [H|(H1 & H2 & H3 & H4)]; [left; exact H|].
    destruct hand eqn:Eh; [left; reflexivity|right].
    apply (calm_prefix 29 rr (real_draws d) (real_draws rest)).
    unfold real_draws; rewrite <- map_app; fold (real_draws (d ++ rest)).
    apply (near_calm (val tw) pool chance rr m K 103 pool_facts l b 29 H1 H3 H4); [rewrite !map_length; congruence|exact Fd|].
    unfold bad in Hb; rewrite Eh in Hb; exact Hb.
  - assert (X := logistic_run_climb inf sp (@logistic_auto R (R_scalar inf sp)) rr (real_draws d) (or_introl eq_refl) (val ws) Dr).
    assert (Y : Ok ex = Ok (exact d) :> res err (list R)) by (rewrite <- Ex; exact X).
    injection Y as ->; unfold learnt; rewrite E; auto 7.
Qed.

Lemma float_close rest : forall seen, drawn_from pool n (seen ++ rest) -> bad (seen ++ rest) = false ->
  float_error learnt tw seen rest <= errors (val tw) rr (exact seen) (real_draws rest) + INR (length rest) * (INR n / 2 ^ 36).
Proof.
  induction rest as [|[xs y] rest IH]; intros seen D Hb; [cbn [float_error real_draws map errors length INR]; lra|].
  destruct (track seen ((xs, y) :: rest) 0 (fun _ _ => 0) D Hb) as (_ & Fi & Lo & Le & _ & Bd).
  assert (Ns : INR (length seen) <= INR n) by (apply le_INR; destruct D as [D _]; rewrite <- D, app_length; lia).
  assert (I : In xs pool) by (destruct D as [_ D]; rewrite Forall_forall in D; apply (D (xs, y)), in_or_app; right; left; reflexivity).
  destruct (in_pool xs I) as (Lx & Ux & _).
  replace (seen ++ (xs, y) :: rest) with ((seen ++ [(xs, y)]) ++ rest) in * by (rewrite <- app_assoc; reflexivity).
  specialize (IH (seen ++ [(xs, y)]) D Hb).
  assert (Ec : exact (seen ++ [(xs, y)]) = climb rr (exact seen) (val xs) y).
  { unfold climb_all, real_draws; rewrite map_app, fold_left_app; reflexivity. }
  rewrite Ec in IH.
  cbn [float_error real_draws map errors fst snd]; change (length ((xs, y) :: rest)) with (S (length rest)); rewrite S_INR.
  fold (real_draws rest).
  set (a := ip (val xs) (val (learnt seen))); set (c0 := ip (val xs) (exact seen)) in *; set (r := logit (ip (val xs) (val tw))) in *.
  assert (P0 := pos_INR n); assert (Ps := pos_INR (length seen)); assert (P41 : 0 < / 2 ^ 41) by (apply Rinv_0_lt_compat; lra).
  assert (A : Rabs (a - c0) <= 30 * (INR n / 2 ^ 41)).
  { apply Rle_trans with (INR (length xs) * (INR (length seen) / 2 ^ 41)).
    - apply dot_close; [exact Ux|rewrite map_length; congruence|congruence|apply Rmult_le_pos; lra|].
      replace (INR (length seen) / 2 ^ 41 * (INR (length seen) / 2 ^ 41)) with ((INR (length seen) / 2 ^ 41) ^ 2) by ring; exact Bd.
    - apply Rmult_le_compat; [apply pos_INR|apply Rmult_le_pos; lra| |apply Rmult_le_compat_r; lra].
      replace 30 with (INR 30) by (simpl; lra); apply le_INR; lia. }
  assert (Lp := logit_lipschitz a c0); assert (Ra := logit_unit a); assert (Rc := logit_unit c0); assert (Rr := logit_unit (ip (val xs) (val tw))); fold r in Rr.
  assert (Sq : (logit a - r) ^ 2 <= (logit c0 - r) ^ 2 + INR n / 2 ^ 36).
  { replace ((logit a - r) ^ 2) with ((logit c0 - r) ^ 2 + (logit a - logit c0) * (logit a + logit c0 - 2 * r)) by ring.
    apply Rplus_le_compat_l; apply Rle_trans with (Rabs ((logit a - logit c0) * (logit a + logit c0 - 2 * r))); [apply Rle_abs|].
    rewrite Rabs_mult; apply Rle_trans with (30 * (INR n / 2 ^ 41) / 4 * 2).
    - apply Rmult_le_compat; try apply Rabs_pos; [lra|apply Rabs_le; lra].
    - replace (INR n / 2 ^ 36) with (32 * (INR n / 2 ^ 41)) by (replace (2 ^ 41) with (32 * 2 ^ 36) by ring; field; apply pow_nonzero; lra).
      assert (0 <= INR n / 2 ^ 41) by (apply Rmult_le_pos; lra); lra. }
  lra.
Qed.

Notation bound := (dist2 (val ws) (val tw) + INR n * (rr ^ 2 * m / 4 + rr / 2 ^ 36)).

Lemma K_pos : 0 <= K.
Proof. assert (U := u_val); lra. Qed.

Lemma bound_ge : dist2 (val ws) (val tw) + INR n * per_draw rr m K 103 <= bound.
Proof. apply Rplus_le_compat_l, Rmult_le_compat_l; [apply pos_INR|apply per_draw_small]. Qed.

Lemma bad_rare : 0 <= l -> l * probability chance pool n bad <= bound.
Proof.
  intro Hl; assert (M := m_range); assert (Rm := rate_small); unfold bad; destruct hand.
  - unfold probability; rewrite mean_const by exact NE; assert (P := dist_nonneg (val ws) (val tw)).
    assert (0 <= INR n * (rr ^ 2 * m / 4 + rr / 2 ^ 36)); [|lra].
    apply Rmult_le_pos; [apply pos_INR|]; assert (0 < / 2 ^ 36) by (apply Rinv_0_lt_compat; lra).
    assert (0 <= rr ^ 2 * m) by (apply Rmult_le_pos; [apply pow_le|]; lra); assert (0 <= rr / 2 ^ 36) by (apply Rmult_le_pos; lra); lra.
  - apply Rle_trans with (2 := bound_ge).
    apply (chance_far (val tw) pool chance rr m K 103 NE (proj1 Br) ltac:(lra) K_pos ltac:(lra) chance_range pool_facts l n Hl (val ws) start_room).
Qed.

Lemma learns : rr * (8 - rr * m) *
    (mean_over chance pool n (fun d => if bad d then 0 else float_error learnt tw [] d) - INR n ^ 2 / 2 ^ 36) <= bound.
Proof.
  assert (M := m_range); assert (Rm := rate_small); apply Rle_trans with (2 := bound_ge).
  assert (Hc := chance_range).
  assert (Rn := chance_run (val tw) pool chance rr m K 103 NE (proj1 Br) ltac:(lra) K_pos ltac:(lra) Hc pool_facts n (val ws) start_room).
  rewrite mean_linear in Rn.
  assert (P : 0 <= mean_over chance pool n (fun d => dist2 (exact d) (val tw))).
  { rewrite <- (mean_const chance pool n 0 NE); apply mean_le; [exact Hc|]; intros d _; apply dist_nonneg. }
  assert (P0 := pos_INR n); assert (P36 : 0 < / 2 ^ 36) by (apply Rinv_0_lt_compat; lra).
  assert (Le : mean_over chance pool n (fun d => if bad d then 0 else float_error learnt tw [] d) <=
    mean_over chance pool n (fun d => errors (val tw) rr (val ws) (real_draws d)) + INR n ^ 2 / 2 ^ 36).
  { apply Rle_trans with (mean_over chance pool n (fun d => errors (val tw) rr (val ws) (real_draws d) + 1 * (INR n ^ 2 / 2 ^ 36)));
      [|rewrite (mean_linear chance pool n 1 _ (fun _ => INR n ^ 2 / 2 ^ 36)), mean_const by exact NE; lra].
    apply mean_le; [exact Hc|]; intros d D; rewrite Rmult_1_l.
    assert (Sq : 0 <= INR n ^ 2 / 2 ^ 36) by (apply Rmult_le_pos; [apply pow_le; exact P0|lra]).
    destruct (bad d) eqn:Hb; [assert (E := errors_nonneg (val tw) rr (real_draws d) (val ws)); lra|].
    apply Rle_trans with (1 := float_close d [] D Hb); destruct D as [Ld _]; rewrite Ld.
    change (exact []) with (val ws); right; f_equal; field; apply pow_nonzero; lra. }
  apply Rle_trans with (rr * (8 - rr * m) * mean_over chance pool n (fun d => errors (val tw) rr (val ws) (real_draws d))); [|lra].
  apply Rmult_le_compat_l; [apply Rmult_le_pos; lra|lra].
Qed.
End Floats.

Lemma sequences_nonempty {A} (q : list A) k : q <> [] -> sequences k q <> [].
Proof.
  intros H E; assert (L := sequences_length k q); rewrite E in L; cbn [length] in L; change (INR 0) with 0 in L.
  assert (0 < INR (length q) ^ k); [|lra]; apply pow_lt, lt_0_INR; destruct q; [contradiction|cbn; lia].
Qed.

Lemma float_points_nonempty k j : float_points k j <> [].
Proof.
  apply sequences_nonempty; unfold float_grid; assert (P := Nat.pow_nonzero 2 j ltac:(lia)).
  revert P; generalize (2 ^ j)%nat; intros [|q] P; [contradiction|]; discriminate.
Qed.

Lemma float_points_units k j : (j <= 53)%nat -> Forall (fun xs => length xs = k /\ Forall unit_float xs) (float_points k j).
Proof. intro J; apply Forall_forall; intros xs I; exact (sequences_in unit_float k _ xs (proj2 (float_grid_real j J)) I). Qed.

(** examples/logistic.rs, and the same loop with the gradient of benches/logistic.rs by hand. *)
Section Program.
Variables (pow : f64 -> f64 -> f64) (lib : libfn -> f64 -> f64).
Notation FS := (f64_scalar pow lib).
Hypothesis Good : good_exp (lib Lexp).
Hypothesis Unit : unit_exp (lib Lexp).
#[local] Notation val := (map f64_real).
Notation chance tw := (fun xs => f64_real (@logistic_chance f64 FS tw xs)).

Lemma chance_pool (hand : bool) tw n pool : pool <> [] -> Forall (fun xs => length xs = 5%nat /\ Forall unit_float xs) pool ->
  length tw = 5%nat -> Forall unit_float tw -> Z.of_nat n = 1000000%Z ->
  exists (out : list (list f64 * bool) -> list f64) (rare : list (list f64 * bool) -> bool),
    (hand = true -> forall d, rare d = false) /\
    (forall inf sp d rest, drawn_from pool n (d ++ rest) -> rare (d ++ rest) = false ->
       @logistic_run f64 FS (if hand then @logistic_by_hand f64 FS else @logistic_auto f64 FS) small_rate (repeat f64_zero 5) d = Ok (out d) /\
       Forall finite (out d) /\
       exists exact, @logistic_run R (R_scalar inf sp) (@logistic_auto R (R_scalar inf sp)) (f64_real small_rate) (repeat 0 5) (real_draws d) = Ok exact /\
         Forall2 (fun x r => Rabs (f64_real x - r) <= 46 / 10 ^ 8) (out d) exact) /\
    probability (chance tw) pool n rare <= 5 / 100 /\
    mean_over (chance tw) pool n (fun d => if rare d then 0 else float_error out tw [] d / INR n) <= 135 / 100000.
Proof.
  intros NE Gp L5 Ht Hn; destruct small_rate_real as (Vr & Fr & Br).
  assert (Nn : INR n = 1000000) by (rewrite INR_IZR_INZ, Hn; reflexivity).
  set (ws := repeat f64_zero 5); assert (Lw : length tw = length ws) by exact L5.
  assert (Hp : Forall (fun xs => length xs = length ws /\ Forall unit_float xs /\ ip (val xs) (val xs) <= 5) pool).
  { apply Forall_forall; intros xs I; rewrite Forall_forall in Gp; destruct (Gp xs I) as [Lx Ux].
    split; [exact Lx|split; [exact Ux|]]; assert (Q := unit_square xs Ux); rewrite Lx in Q; simpl INR in Q; lra. }
  assert (Hb : Forall (fun xs => Rabs (ip (val xs) (val tw)) <= 5) pool).
  { apply Forall_forall; intros xs I; rewrite Forall_forall in Hp; destruct (Hp xs I) as (Lx & Ux & _).
    assert (Bi := ip_bound 1 xs ltac:(lra) tw Ux Ht); rewrite Lx in Bi; change (INR (length ws)) with (1 + 1 + 1 + 1 + 1) in Bi; lra. }
  assert (Hn' : INR n <= 10 ^ 10) by (rewrite Nn; lra).
  assert (Hr : INR n * f64_real small_rate <= 510) by (rewrite Nn; lra).
  assert (Au : hand = true \/ 0 <= 5 <= 29 /\ 0 <= 115 /\ 5 * 115 <= (29 - 5) * (29 - 5) /\
    Forall (fun xs => Rabs (ip (val xs) (val tw)) <= 5) pool) by (right; split; [lra|split; [lra|split; [lra|exact Hb]]]).
  assert (Bs : 0 <= f64_real small_rate <= / 1000) by lra.
  assert (N5 : (length ws <= 30)%nat) by (cbn; lia).
  exists (learnt pow lib hand small_rate ws), (bad hand small_rate ws tw 115).
  split; [intros -> d; reflexivity|split].
  - intros inf sp d rest D Hbad.
    destruct (track pow lib Good Unit hand small_rate ws tw pool n 5 Vr Fr Bs N5 (zero_units 5) Lw Ht Hp
      Hn' Hr 115 5 Au d rest inf sp D Hbad) as (E & Fi & Lo & Le & Ex & Bd).
    split; [exact E|split; [exact Fi|]]; eexists; split; [exact Ex|].
    apply coordinates; [lra|congruence|]; apply Rle_trans with (1 := Bd).
    assert (Nd : INR (length d) <= 1000000) by (rewrite <- Nn; apply le_INR; destruct D as [D _]; rewrite <- D, app_length; lia).
    assert (P0 := pos_INR (length d)); assert (P41 : 0 < / 2 ^ 41) by (apply Rinv_0_lt_compat; lra).
    assert (Q0 : 0 <= INR (length d) / 2 ^ 41) by (apply Rmult_le_pos; lra).
    assert (Q : INR (length d) / 2 ^ 41 <= 46 / 10 ^ 8).
    { apply Rle_trans with (1000000 / 2 ^ 41); [apply Rmult_le_compat_r; lra|lra]. }
    rewrite <- Rsqr_pow2; unfold Rsqr; apply Rmult_le_compat; assumption.
  - assert (Hc := chance_range pow lib Good Unit ws tw pool 5 N5 Lw Ht Hp).
    assert (D5 : dist2 (val ws) (val tw) <= 5).
    { replace (val ws) with (val (repeat f64_zero (length tw))) by (rewrite L5; reflexivity).
      rewrite (dist_zero tw); assert (Q := unit_square tw Ht); rewrite L5 in Q; simpl INR in Q; lra. }
    set (r := f64_real small_rate) in *.
    assert (R2 : r ^ 2 <= (5001 / 10 ^ 7) ^ 2) by (apply pow_incr; lra).
    assert (Bd : dist2 (val ws) (val tw) + INR n * (r ^ 2 * 5 / 4 + r / 2 ^ 36) <= 5313 / 1000).
    { rewrite Nn; assert (r / 2 ^ 36 <= 5001 / 10 ^ 7 / 2 ^ 36) by (apply Rmult_le_compat_r; [left; apply Rinv_0_lt_compat|]; lra).
      apply Rle_trans with (5 + 1000000 * ((5001 / 10 ^ 7) ^ 2 * 5 / 4 + 5001 / 10 ^ 7 / 2 ^ 36)); lra. }
    split.
    + assert (P := bad_rare pow lib Good Unit hand small_rate ws tw pool n 5 Bs N5 (zero_units 5) Lw Ht NE Hp
        ltac:(lra) Hr 115 5 Au ltac:(lra)).
      set (pr := probability _ _ _ _) in *; fold r in P; lra.
    + assert (P := learns pow lib Good Unit hand small_rate ws tw pool n 5 Vr Fr Bs N5 (zero_units 5) Lw Ht NE Hp
        ltac:(lra) Hn' Hr 115 5 Au).
      fold r in P.
      rewrite (mean_ext (chance tw) pool Hc n _ (fun d => 0 + / INR n * (if bad hand small_rate ws tw 115 d then 0 else
        float_error (learnt pow lib hand small_rate ws) tw [] d)))
        by (intros d _; destruct (bad hand small_rate ws tw 115 d); unfold Rdiv; ring).
      rewrite (mean_linear (chance tw) pool n (/ INR n) (fun _ => 0)), mean_const by exact NE.
      set (mo := mean_over _ _ _ _) in *; rewrite Nn in *.
      assert (C : 4999 / 10 ^ 7 * (7997 / 1000) <= r * (8 - r * 5)) by (apply Rmult_le_compat; lra).
      destruct (Rle_dec mo (1000000 ^ 2 / 2 ^ 36)) as [H|H]; [lra|].
      assert (Q : 4999 / 10 ^ 7 * (7997 / 1000) * (mo - 1000000 ^ 2 / 2 ^ 36) <= 5313 / 1000).
      { apply Rle_trans with (r * (8 - r * 5) * (mo - 1000000 ^ 2 / 2 ^ 36)); [apply Rmult_le_compat_r; lra|lra]. }
      lra.
Qed.
Lemma chance_program (hand : bool) tw n : length tw = 5%nat -> Forall unit_float tw -> Z.of_nat n = 1000000%Z ->
  exists (out : list (list f64 * bool) -> list f64) (rare : list (list f64 * bool) -> bool),
    (hand = true -> forall d, rare d = false) /\
    (forall inf sp d rest, drawn_from (float_points 5 53) n (d ++ rest) -> rare (d ++ rest) = false ->
       @logistic_run f64 FS (if hand then @logistic_by_hand f64 FS else @logistic_auto f64 FS) small_rate (repeat f64_zero 5) d = Ok (out d) /\
       Forall finite (out d) /\
       exists exact, @logistic_run R (R_scalar inf sp) (@logistic_auto R (R_scalar inf sp)) (f64_real small_rate) (repeat 0 5) (real_draws d) = Ok exact /\
         Forall2 (fun x r => Rabs (f64_real x - r) <= 46 / 10 ^ 8) (out d) exact) /\
    probability (chance tw) (float_points 5 53) n rare <= 5 / 100 /\
    mean_over (chance tw) (float_points 5 53) n (fun d => if rare d then 0 else float_error out tw [] d / INR n) <= 135 / 100000.
Proof. exact (chance_pool hand tw n (float_points 5 53) (float_points_nonempty 5 53) (float_points_units 5 53 (le_n 53))). Qed.
End Program.

Lemma nearest_unit : unit_exp (fun x => @nearest 53 1024 (exp (f64_real x))).
Proof.
  intros x V Lx; destruct (nearest_real (prec := 53) (emax := 1024) (exp (f64_real x))) as [Vn Nr].
  assert (P := exp_pos (f64_real x)).
  assert (H : f64_real x <= 0).
  { destruct x as [s|s| |s k e]; cbn [f64_real]; try lra; [].
    assert (Q : 0 < IZR (Zpos k) * powerRZ 2 e) by (apply Rmult_lt_0_compat; [apply IZR_lt; lia|apply powerRZ_lt; lra]).
    destruct s; [cbn; cbn in Q; lra|discriminate Lx]. }
  assert (P1 : exp (f64_real x) <= 1).
  { rewrite <- exp_0; destruct H as [H|H]; [left; apply exp_increasing, H|rewrite H; lra]. }
  destruct (fl_error (exp (f64_real x))) as [E L]; [rewrite Rabs_pos_eq; lra|].
  destruct (Nr L) as [Fn En]; split; [exact Vn|split; [exact Fn|]]; rewrite En.
  split.
  - rewrite <- (Float_facts.rnd_id (prec := 53) (emax := 1024) 0) by apply generic_format_0; apply Float_facts.rnd_le; lra.
  - rewrite <- (Float_facts.rnd_id (prec := 53) (emax := 1024) 1) by apply (one_format (prec := 53) (emax := 1024)); apply Float_facts.rnd_le; lra.
Qed.

Lemma chance_general (pow : f64 -> f64 -> f64) (lib : libfn -> f64 -> f64) (hand : bool) rate ws tw pool n m l b :
  let FS := f64_scalar pow lib in
  let chance := fun xs => f64_real (@logistic_chance f64 FS tw xs) in
  let bound := dist2 (map f64_real ws) (map f64_real tw) + INR n * (f64_real rate ^ 2 * m / 4 + f64_real rate / 2 ^ 36) in
  good_exp (lib Lexp) -> unit_exp (lib Lexp) ->
  f64_valid rate -> finite rate -> 0 <= f64_real rate <= / 1000 ->
  (length ws <= 30)%nat -> Forall unit_float ws -> length tw = length ws -> Forall unit_float tw -> pool <> [] ->
  Forall (fun xs => length xs = length ws /\ Forall unit_float xs /\ ip (map f64_real xs) (map f64_real xs) <= m) pool ->
  m <= 30 -> INR n <= 10 ^ 10 -> INR n * f64_real rate <= 510 ->
  (hand = true \/ 0 <= b <= 29 /\ 0 <= l /\ m * l <= (29 - b) * (29 - b) /\
    Forall (fun xs => Rabs (ip (map f64_real xs) (map f64_real tw)) <= b) pool) -> 0 <= l ->
  exists (out : list (list f64 * bool) -> list f64) (rare : list (list f64 * bool) -> bool),
    (hand = true -> forall d, rare d = false) /\
    (forall inf sp d rest, drawn_from pool n (d ++ rest) -> rare (d ++ rest) = false ->
       @logistic_run f64 FS (if hand then @logistic_by_hand f64 FS else @logistic_auto f64 FS) rate ws d = Ok (out d) /\
       Forall finite (out d) /\
       exists exact,
         @logistic_run R (R_scalar inf sp) (@logistic_auto R (R_scalar inf sp)) (f64_real rate) (map f64_real ws) (real_draws d) = Ok exact /\
         dist2 (map f64_real (out d)) exact <= (INR (length d) / 2 ^ 41) ^ 2) /\
    l * probability chance pool n rare <= bound /\
    f64_real rate * (8 - f64_real rate * m) *
      (mean_over chance pool n (fun d => if rare d then 0 else float_error out tw [] d) - INR n ^ 2 / 2 ^ 36) <= bound.
Proof.
  intros FS chance bound G U Vr Fr Br N Hw Lt Ht NE Hp Hm Hn Hr Au Hl.
  exists (learnt pow lib hand rate ws), (bad hand rate ws tw l).
  split; [intros -> d; reflexivity|split; [|split]].
  - intros inf sp d rest D Hb.
    destruct (track pow lib G U hand rate ws tw pool n m Vr Fr Br N Hw Lt Ht Hp Hn Hr l b Au d rest inf sp D Hb) as (E & Fi & _ & _ & Ex & Bd).
    split; [exact E|split; [exact Fi|eexists; split; [exact Ex|exact Bd]]].
  - exact (bad_rare pow lib G U hand rate ws tw pool n m Br N Hw Lt Ht NE Hp Hm Hr l b Au Hl).
  - exact (learns pow lib G U hand rate ws tw pool n m Vr Fr Br N Hw Lt Ht NE Hp Hm Hn Hr l b Au).
Qed.
