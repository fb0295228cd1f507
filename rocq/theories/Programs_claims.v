(** The example programs over the reals and over 64-bit floats. *)
From Coq Require Import List Arith ZArith Reals Bool SpecFloat Lia Lra.
Import ListNotations.
From Verif Require Import Base Shapes Scalar Buffers Spec Contraction Node Eval Instances
  Float_math Real_math Program_math Programs Programs_facts Scalar_claims.

(** Multiplication of 64-bit floats. *)
Section Floats.
Local Open Scope Z_scope.

Lemma SFmul_comm x y : SFmul 53 1024 x y = SFmul 53 1024 y x.
Proof.
  destruct x as [[]|[]| |[] m e], y as [[]|[]| |[] m' e']; cbn [SFmul xorb];
    rewrite ?(Pos.mul_comm m'), ?(Z.add_comm e'); reflexivity.
Qed.

Lemma digits_mul52 m : Zpos (digits2_pos (4503599627370496 * m)) = Zpos (digits2_pos m) + 52.
Proof. simpl Pos.mul; cbn [digits2_pos]; lia. Qed.

Lemma SFmul_one x : valid_binary 53 1024 x = true -> SFmul 53 1024 (f64_of_Z 1) x = x.
Proof.
  destruct x as [[]|[]| |s m e]; intro V; try reflexivity.
  unfold valid_binary, bounded in V; apply andb_true_iff in V as [C B]; unfold canonical_mantissa in C.
  apply Zeq_bool_eq in C; apply Zle_bool_imp_le in B.
  change (f64_of_Z 1) with (S754_finite false 4503599627370496 (-52)); cbn [SFmul xorb].
  unfold binary_round_aux, shr_fexp; cbn [Zdigits2]; rewrite digits_mul52.
  replace (Z.pos (digits2_pos m) + 52 + (-52 + e)) with (Z.pos (digits2_pos m) + e) by lia.
  rewrite C; replace (e - (-52 + e)) with 52 by lia.
  assert (H : shr (shr_record_of_loc (Z.pos (4503599627370496 * m)) loc_Exact) (-52 + e) 52 =
              (Build_shr_record (Zpos m) false false, e)).
  { unfold shr, shr_record_of_loc.
    change (Z.pos (4503599627370496 * m)) with (Z.pos (m~0~0~0~0~0~0~0~0~0~0~0~0~0~0~0~0~0~0~0~0~0~0~0~0~0~0~0~0~0~0~0~0~0~0~0~0~0~0~0~0~0~0~0~0~0~0~0~0~0~0~0~0)).
    replace (-52 + e + 52) with e by lia; reflexivity. }
  rewrite H; cbn [shr_m loc_of_shr_record round_nearest_even shr_record_of_loc Zdigits2].
  rewrite C, Z.sub_diag; cbn [shr shr_m]; rewrite (proj2 (Z.leb_le _ _) B); destruct s; reflexivity.
Qed.
End Floats.

(** The three gradients of linear regression, for scalars with a commutative product and a unit. *)
Section Same.
Context {F : Type} {S : Scalar F}.
Variable good : F -> Prop.
Hypothesis Z : is_zero fzero = true.
Hypothesis COMM : forall x y : F, fmul x y = fmul y x.
Hypothesis UNIT : forall x : F, good x -> fmul fone x = x.

Lemma gradients_same xs ws y :
  length xs = length ws -> Forall good xs ->
  exists g, linear_auto (xyw xs y ws) = Ok (array1 g) /\ linear_by_hand (xyw xs y ws) = Ok (array1 g) /\
            linear_raw (xyw xs y ws) = Ok (array1 g) /\ length g = length ws.
Proof.
  intros L G; set (e := fmul ftwo (fsub (dotted xs ws) y)).
  exists (map (fun x => fmul x e) xs).
  rewrite (auto_linear _ _ _ L Z), (hand_linear _ _ _ L), (raw_linear _ _ _ L), map_length.
  split; [|split; [|split; [reflexivity|exact L]]]; do 2 f_equal; apply map_ext_in; intros x Hx.
  - rewrite (COMM x fone), UNIT; [apply COMM|apply (proj1 (Forall_forall _ _) G), Hx].
  - apply COMM.
Qed.

Lemma runs_same rate tw ws draws :
  Forall (fun xs => length xs = length ws /\ Forall good xs) draws ->
  exists ws', linear_run linear_auto rate tw ws draws = Ok ws' /\
              linear_run linear_by_hand rate tw ws draws = Ok ws' /\
              linear_run linear_raw rate tw ws draws = Ok ws' /\ length ws' = length ws.
Proof.
  intro D.
  destruct (run_same linear_auto linear_by_hand rate tw
              (fun xs => length xs = length ws /\ Forall good xs) draws ws) as (w1 & A & B & L1).
  - intros xs ws' y [Lx G] Lw; destruct (gradients_same xs ws' y) as (g & E1 & E2 & E3 & Lg);
      [congruence|exact G|]; exists g; rewrite Lg; auto.
  - exact D.
  - destruct (run_same linear_auto linear_raw rate tw
                (fun xs => length xs = length ws /\ Forall good xs) draws ws) as (w2 & A' & B' & L2).
    + intros xs ws' y [Lx G] Lw; destruct (gradients_same xs ws' y) as (g & E1 & E2 & E3 & Lg);
        [congruence|exact G|]; exists g; rewrite Lg; auto.
    + exact D.
    + rewrite A in A'; injection A' as <-; exists w1; auto.
Qed.
End Same.

Lemma float_runs_same pow lib rate tw ws draws :
  let S := f64_scalar pow lib in
  Forall (fun xs => length xs = length ws /\ Forall (fun x => valid_binary 53 1024 x = true) xs) draws ->
  exists ws', linear_run linear_auto rate tw ws draws = Ok ws' /\
              linear_run linear_by_hand rate tw ws draws = Ok ws' /\
              linear_run linear_raw rate tw ws draws = Ok ws' /\ length ws' = length ws.
Proof.
  intros S; apply runs_same; [reflexivity|apply SFmul_comm|apply SFmul_one].
Qed.

Lemma float_gradients_same pow lib xs ws y :
  let S := f64_scalar pow lib in
  length xs = length ws -> Forall (fun x => valid_binary 53 1024 x = true) xs ->
  exists g, linear_auto (xyw xs y ws) = Ok (array1 g) /\ linear_by_hand (xyw xs y ws) = Ok (array1 g) /\
            linear_raw (xyw xs y ws) = Ok (array1 g) /\ length g = length ws.
Proof.
  intros S; apply gradients_same; [reflexivity|apply SFmul_comm|apply SFmul_one].
Qed.

(** Over the reals. *)
Section Reals.
Local Open Scope R_scope.
Variables (inf : R) (sp : libfn -> R -> R).
Local Instance RS' : Scalar R := R_scalar inf sp.

Lemma R_zero : is_zero (fzero : R) = true.
Proof. unfold is_zero; simpl; unfold R_eqb; destruct (Req_EM_T 0 0); [reflexivity|contradiction]. Qed.
Lemma R_neg_zero : is_zero (fneg (fzero : R)) = true.
Proof. unfold is_zero; simpl; unfold R_eqb; destruct (Req_EM_T (- 0) 0); [reflexivity|lra]. Qed.

Lemma dotted_ip (xs ts : list R) : dotted xs ts = ip xs ts.
Proof.
  unfold dotted; cbn [fzero RS' R_scalar].
  assert (H : forall a, fold_left (fun acc p => fadd acc (fmul (fst p) (snd p))) (combine xs ts) a = a + ip xs ts).
  { revert ts; induction xs as [|x xs IH]; intros [|t ts] a; cbn [combine fold_left ip fst snd]; try (cbn; lra).
    rewrite IH; cbn; lra. }
  rewrite H; lra.
Qed.

Lemma descend_move rate ws xs k :
  length xs = length ws ->
  descend rate ws (map (fun x => fmul k (fmul x fone)) xs) = move (- (rate * k)) ws xs.
Proof.
  revert xs; unfold descend; induction ws as [|w ws IH]; intros [|x xs] L; try discriminate L; auto.
  cbn [map combine move fst snd]; rewrite IH by (injection L; auto); f_equal; cbn; ring.
Qed.

Lemma linear_step_lms rate tw ws xs :
  length xs = length ws ->
  linear_step linear_auto rate tw ws xs = Ok (lms rate tw ws xs).
Proof.
  intro L; rewrite (step_by _ (fun y => map (fun x => fmul (fmul ftwo (fsub (dotted xs ws) y)) (fmul x fone)) xs)).
  - rewrite descend_move by exact L; unfold lms; rewrite !dotted_ip; cbn [fmul ftwo fadd fone fsub RS' R_scalar].
    unfold ftwo; cbn; do 3 f_equal; ring.
  - intro y; apply auto_linear; [exact L|apply R_zero].
  - intro y; rewrite map_length; exact L.
Qed.

Lemma move_length k ws : forall xs, length xs = length ws -> length (move k ws xs) = length ws.
Proof.
  induction ws as [|w ws IH]; intros [|x xs] L; try discriminate L; auto.
  cbn [move length]; rewrite IH by (injection L; auto); reflexivity.
Qed.

Lemma linear_run_lms rate tw draws : forall ws,
  Forall (fun xs => length xs = length ws) draws ->
  linear_run linear_auto rate tw ws draws = Ok (lms_all rate tw ws draws) /\
  length (lms_all rate tw ws draws) = length ws.
Proof.
  induction draws as [|xs draws IH]; intros ws D; [split; reflexivity|].
  inversion D as [|? ? Lx D']; subst.
  cbn [linear_run]; rewrite linear_step_lms by exact Lx; cbn [res_bind].
  unfold lms_all; cbn [fold_left]; fold (lms_all rate tw (lms rate tw ws xs) draws).
  assert (Lm : length (lms rate tw ws xs) = length ws) by (apply move_length; exact Lx).
  destruct (IH (lms rate tw ws xs)) as [E El]; [rewrite Lm; exact D'|].
  rewrite E; split; [reflexivity|congruence].
Qed.

(** Progress of one step. *)
Lemma dist_move k ws : forall xs tw, length xs = length ws -> length tw = length ws ->
  dist2 (move k ws xs) tw = dist2 ws tw + 2 * k * (ip xs ws - ip xs tw) + k * k * ip xs xs.
Proof.
  induction ws as [|w ws IH]; intros [|x xs] [|t tw] Lx Lt; try discriminate; cbn [move dist2 ip]; [ring|].
  rewrite IH by (injection Lx; injection Lt; auto); ring.
Qed.

Lemma lms_progress rate tw ws xs :
  length xs = length ws -> length tw = length ws ->
  dist2 (lms rate tw ws xs) tw =
  dist2 ws tw - 4 * rate * (1 - rate * ip xs xs) * ((ip xs ws - ip xs tw) * (ip xs ws - ip xs tw)).
Proof. intros Lx Lt; unfold lms; rewrite dist_move by assumption; ring. Qed.

Lemma lms_converges rate B tw draws : forall ws,
  0 <= rate -> length tw = length ws ->
  Forall (fun xs => length xs = length ws /\ ip xs xs <= B) draws ->
  dist2 (lms_all rate tw ws draws) tw + 4 * rate * (1 - rate * B) * lms_loss rate tw ws draws
  <= dist2 ws tw.
Proof.
  induction draws as [|xs draws IH]; intros ws Hr Lt D.
  - unfold lms_all; cbn [fold_left lms_loss]; lra.
  - inversion D as [|? ? [Lx Hx] D']; subst.
    assert (Lm : length (lms rate tw ws xs) = length ws) by (apply move_length; exact Lx).
    unfold lms_all; cbn [fold_left lms_loss]; fold (lms_all rate tw (lms rate tw ws xs) draws).
    assert (I := IH (lms rate tw ws xs) Hr); rewrite Lm in I; specialize (I Lt D').
    rewrite lms_progress in I by assumption.
    set (r := ip xs ws - ip xs tw) in *.
    assert (Q : 0 <= r * r) by (apply Rle_0_sqr).
    assert (K : rate * (rate * ip xs xs) * (r * r) <= rate * (rate * B) * (r * r)).
    { apply Rmult_le_compat_r; [exact Q|]; apply Rmult_le_compat_l; [exact Hr|].
      apply Rmult_le_compat_l; assumption. }
    nra.
Qed.

Lemma unit_draw (xs : list R) : Forall (fun x => 0 <= x <= 1) xs -> ip xs xs <= INR (length xs).
Proof.
  induction 1 as [|x xs [H0 H1] _ IH]; [simpl; lra|].
  cbn [ip]; change (length (x :: xs)) with (Datatypes.S (length xs)); rewrite S_INR; nra.
Qed.

Lemma dist_nonneg a : forall b, 0 <= dist2 a b.
Proof.
  induction a as [|x a IH]; intros [|y b]; cbn [dist2]; try lra.
  assert (H := Rle_0_sqr (x - y)); unfold Rsqr in H; specialize (IH b); lra.
Qed.

Lemma loss_nonneg rate tw draws : forall ws, 0 <= lms_loss rate tw ws draws.
Proof.
  induction draws as [|xs draws IH]; intro ws; cbn [lms_loss]; [lra|].
  assert (H := Rle_0_sqr (ip xs ws - ip xs tw)); unfold Rsqr in H; specialize (IH (lms rate tw ws xs)); lra.
Qed.

(** examples/linear.rs as it stands: rate 0.01, any number of draws from [0, 1). *)
Lemma linear_example tw draws :
  (length tw <= 100)%nat ->
  Forall (fun xs => length xs = length tw /\ Forall (fun x => 0 <= x <= 1) xs) draws ->
  let w0 := repeat 0 (length tw) in
  exists ws, linear_main (1 / 100) tw draws = Ok ws /\ length ws = length tw /\
    dist2 ws tw <= dist2 w0 tw /\
    (1 - INR (length tw) / 100) * lms_loss (1 / 100) tw w0 draws <= 25 * dist2 w0 tw.
Proof.
  intros N D w0.
  assert (L0 : length w0 = length tw) by apply repeat_length.
  assert (D1 : Forall (fun xs => length xs = length w0) draws).
  { eapply Forall_impl; [|exact D]; intros xs [H _]; congruence. }
  assert (D2 : Forall (fun xs => length xs = length w0 /\ ip xs xs <= INR (length tw)) draws).
  { eapply Forall_impl; [|exact D]; intros xs [H U]; split; [congruence|].
    rewrite <- H; apply unit_draw, U. }
  destruct (linear_run_lms (1 / 100) tw draws w0 D1) as [E L].
  exists (lms_all (1 / 100) tw w0 draws); split; [exact E|split; [congruence|]].
  assert (C := lms_converges (1 / 100) (INR (length tw)) tw draws w0 ltac:(lra) (eq_sym L0) D2).
  assert (P := loss_nonneg (1 / 100) tw draws w0).
  assert (Q := dist_nonneg (lms_all (1 / 100) tw w0 draws) tw).
  assert (NR : INR (length tw) <= 100).
  { replace 100 with (INR 100) by (simpl; lra); apply le_INR, N. }
  split; nra.
Qed.

(** Logistic regression. *)
Lemma model_logit t : sigmoid t = logit t.
Proof. apply sigmoid_formula. Qed.

Lemma logit_range t : 0 < logit t < 1.
Proof. rewrite <- model_logit; apply sigmoid_range. Qed.

Lemma ascend_move rate ws k (f : R -> R) : (forall x, f x = k * x) -> forall xs,
  length xs = length ws -> ascend rate ws (map f xs) = move (rate * k) ws xs.
Proof.
  intro K; unfold ascend; induction ws as [|w ws IH]; intros [|x xs] L; try discriminate L; auto.
  cbn [map combine move fst snd]; rewrite IH by (injection L; auto); f_equal; rewrite K; cbn; ring.
Qed.

Lemma logistic_gradient (grad : ctx R -> res err (value R)) ws xs b :
  grad = logistic_auto \/ grad = logistic_by_hand ->
  length xs = length ws ->
  exists g, grad (xyw xs (label b) ws) = Ok (array1 (map g xs)) /\
            (forall x, g x = (label b - logit (ip xs ws)) * x).
Proof.
  intros [-> | ->] L; set (s := logit (ip xs ws)); assert (Hs := logit_range (ip xs ws)); fold s in Hs.
  - eexists; split; [apply auto_logistic; [exact L|apply R_zero|apply R_neg_zero]|].
    intro x; cbv beta; rewrite model_logit, dotted_ip; fold s.
    cbn [fmul fadd fsub fneg fone fdiv RS' R_scalar]; destruct b; cbn [label]; field; lra.
  - eexists; split; [apply hand_logistic; exact L|].
    intro x; cbv beta; rewrite model_logit, dotted_ip; fold s.
    cbn [fmul fadd fsub fneg fone fdiv RS' R_scalar]; destruct b; cbn [label]; ring.
Qed.

Lemma logistic_step_climb grad rate ws xs b :
  grad = logistic_auto \/ grad = logistic_by_hand ->
  length xs = length ws ->
  logistic_step grad rate ws xs b = Ok (climb rate ws xs b).
Proof.
  intros G L; destruct (logistic_gradient grad ws xs b G L) as (g & E & K).
  rewrite (logistic_step_by _ (map g xs)).
  - rewrite (ascend_move rate ws _ g K xs L); reflexivity.
  - rewrite <- E; destruct b; reflexivity.
  - rewrite map_length; exact L.
Qed.

Lemma logistic_run_climb grad rate draws : grad = logistic_auto \/ grad = logistic_by_hand ->
  forall ws, Forall (fun d => length (fst d) = length ws) draws ->
  logistic_run grad rate ws draws = Ok (climb_all rate ws draws).
Proof.
  intro G; induction draws as [|[xs b] draws IH]; intros ws D; [reflexivity|].
  inversion D as [|? ? Lx D']; subst; cbn [fst] in Lx.
  cbn [logistic_run]; rewrite (logistic_step_climb _ _ _ _ _ G) by exact Lx; cbn [res_bind].
  unfold climb_all; cbn [fold_left fst snd]; fold (climb_all rate (climb rate ws xs b) draws).
  apply IH; unfold climb; rewrite move_length by exact Lx; exact D'.
Qed.

Lemma ip_move k ws : forall xs, length xs = length ws ->
  ip xs (move k ws xs) = ip xs ws + k * ip xs xs.
Proof.
  induction ws as [|w ws IH]; intros [|x xs] L; try discriminate L; cbn [move ip]; [ring|].
  rewrite IH by (injection L; auto); ring.
Qed.

Lemma ip_self xs : 0 <= ip xs xs.
Proof. induction xs as [|x xs IH]; cbn [ip]; [lra|]; assert (H := Rle_0_sqr x); unfold Rsqr in H; lra. Qed.

Lemma logit_le x y : x <= y -> logit x <= logit y.
Proof.
  rewrite <- !model_logit; intros [H | ->]; [|lra]; left; apply sigmoid_increasing, H.
Qed.

Lemma climb_improves rate ws xs b :
  0 <= rate -> length xs = length ws ->
  lik b (ip xs ws) <= lik b (ip xs (climb rate ws xs b)).
Proof.
  intros Hr L; unfold climb; rewrite ip_move by exact L.
  assert (Hs := logit_range (ip xs ws)); assert (Q := ip_self xs).
  assert (K : 0 <= rate * ip xs xs) by (apply Rmult_le_pos; assumption).
  destruct b; unfold lik, label.
  - apply logit_le; nra.
  - assert (logit (ip xs ws + rate * (0 - logit (ip xs ws)) * ip xs xs) <= logit (ip xs ws)) by (apply logit_le; nra).
    lra.
Qed.
Lemma linear_progress rate B tw ws draws ws' :
  0 <= rate -> length tw = length ws ->
  Forall (fun xs => length xs = length ws /\ ip xs xs <= B) draws ->
  linear_run linear_auto rate tw ws draws = Ok ws' ->
  dist2 ws' tw + 4 * rate * (1 - rate * B) * lms_loss rate tw ws draws <= dist2 ws tw.
Proof.
  intros Hr Lt D E; destruct (linear_run_lms rate tw draws ws) as [E' _].
  - eapply Forall_impl; [|exact D]; intros xs [H _]; exact H.
  - rewrite E' in E; injection E as <-; apply lms_converges; assumption.
Qed.
Lemma misses_loss eps rate tw draws : 0 <= eps -> forall ws,
  INR (lms_misses eps rate tw ws draws) * (eps * eps) <= lms_loss rate tw ws draws.
Proof.
  intro E; induction draws as [|xs draws IH]; intro ws; cbn [lms_misses lms_loss]; [simpl; lra|].
  specialize (IH (lms rate tw ws xs)); rewrite plus_INR; set (d := ip xs ws - ip xs tw) in *.
  destruct (Rle_dec eps (Rabs d)) as [H|H]; simpl (INR _); [|nra].
  assert (eps * eps <= d * d); [|lra].
  rewrite <- (Rabs_right (d * d)), Rabs_mult by nra; apply Rmult_le_compat; auto.
Qed.
Lemma linear_misses eps rate B tw ws draws ws' :
  0 <= eps -> 0 <= rate -> rate * B <= 1 -> length tw = length ws ->
  Forall (fun xs => length xs = length ws /\ ip xs xs <= B) draws ->
  linear_run linear_auto rate tw ws draws = Ok ws' ->
  4 * rate * (1 - rate * B) * (eps * eps) * INR (lms_misses eps rate tw ws draws) <= dist2 ws tw.
Proof.
  intros He Hr Hb Lt D E; assert (H := linear_progress _ _ _ _ _ _ Hr Lt D E).
  assert (M := misses_loss eps rate tw draws He ws); assert (N := dist_nonneg ws' tw).
  assert (K : 0 <= 4 * rate * (1 - rate * B)) by (apply Rmult_le_pos; nra).
  assert (X := Rmult_le_compat_l _ _ _ K M); lra.
Qed.

Lemma logistic_gradients (grad : ctx R -> res err (value R)) ws xs b :
  grad = logistic_auto \/ grad = logistic_by_hand ->
  length xs = length ws ->
  grad (xyw xs (label b) ws) = Ok (array1 (map (fun x => (label b - logit (ip xs ws)) * x) xs)).
Proof.
  intros G L; destruct (logistic_gradient grad ws xs b G L) as (g & E & K).
  rewrite E; do 2 f_equal; apply map_ext; exact K.
Qed.

Lemma logistic_improves grad rate ws xs b ws' :
  grad = logistic_auto \/ grad = logistic_by_hand ->
  0 <= rate -> length xs = length ws ->
  logistic_step grad rate ws xs b = Ok ws' ->
  lik b (ip xs ws) <= lik b (ip xs ws').
Proof.
  intros G Hr L E; rewrite (logistic_step_climb _ _ _ _ _ G L) in E; injection E as <-.
  apply climb_improves; assumption.
Qed.

Lemma logit_lt x y : x < y -> logit x < logit y.
Proof. rewrite <- !model_logit; apply sigmoid_increasing. Qed.
End Reals.

(** In f64 the automatic gradient can be NaN where the one written by hand is 1. *)
Lemma logistic_nan pow lib :
  let S := f64_scalar pow lib in
  lib Lexp (f64_of_Z (-800)) = f64_zero ->
  let c := xyw [f64_of_Z 1] (f64_of_Z 1) [f64_of_Z (-800)] in
  logistic_auto c = Ok (array1 [S754_nan]) /\ logistic_by_hand c = Ok (array1 [f64_of_Z 1]).
Proof.
  intros S E c.
  assert (H : sigmoid (dotted [f64_of_Z 1] [f64_of_Z (-800)]) = f64_zero).
  { change (dotted [f64_of_Z 1] [f64_of_Z (-800)]) with (f64_of_Z (-800)).
    unfold sigmoid; cbn [fle flib fadd fone fdiv S f64_scalar float_scalar].
    change (float_of_Z 53 1024 (-800)) with (f64_of_Z (-800)); rewrite E; reflexivity. }
  split.
  - unfold c; rewrite auto_logistic by reflexivity; rewrite H; reflexivity.
  - unfold c; rewrite hand_logistic by reflexivity; rewrite H; reflexivity.
Qed.

Lemma logistic_floats pow lib :
  let S := f64_scalar pow lib in
  lib Lexp (f64_of_Z (-800)) = f64_zero ->
  exists xs ws y v, logistic_auto (xyw xs y ws) = Ok (array1 [S754_nan]) /\
    logistic_by_hand (xyw xs y ws) = Ok (array1 [v]) /\ v = f64_of_Z 1 /\
    Forall (fun x => finite_float x = true) (y :: xs ++ ws).
Proof.
  intros S E; destruct (logistic_nan pow lib E) as [A B].
  do 4 eexists; split; [exact A|split; [exact B|split; [reflexivity|repeat constructor]]].
Qed.

(** Caching. *)
Lemma caching_example {F} {S : Scalar F} (x : list F) :
  exists s v,
    snd (evaluate basic (cache_ctx x)) = Ok (VScal s) /\
    evaluate (repeated basic) (cache_ctx x) = (cache_ctx x, Ok v) /\
    evaluate (repeated cached) (cache_ctx x) = (write (cache_ctx x) idC (VScal s), Ok v).
Proof.
  exists (once x), (VScal (eight x)); split; [rewrite (basic_eval x) by reflexivity; reflexivity|].
  split; [apply repeated_basic|apply repeated_cached].
Qed.

Section Caching_real.
Local Open Scope R_scope.
Variables (inf : R) (sp : libfn -> R -> R).
Local Instance RS'' : Scalar R := R_scalar inf sp.

Lemma once_real (x : list R) : once x = - 2 * fold_right Rplus 0 x.
Proof.
  unfold once.
  assert (H : forall a, fold_left fadd (map (fun b => fneg (fmul ftwo b)) x) a = a + - 2 * fold_right Rplus 0 x).
  { induction x as [|b x' IH]; intro a; cbn [map fold_left fold_right]; [lra|].
    rewrite IH; unfold ftwo; cbn; lra. }
  rewrite H; cbn; lra.
Qed.

Lemma caching_real (x : list R) :
  snd (evaluate (repeated basic) (cache_ctx x)) = Ok (VScal (- 16 * fold_right Rplus 0 x)) /\
  snd (evaluate (repeated cached) (cache_ctx x)) = Ok (VScal (- 16 * fold_right Rplus 0 x)).
Proof.
  rewrite repeated_basic, repeated_cached; cbn [snd].
  assert (E : eight x = - 16 * fold_right Rplus 0 x) by (unfold eight; rewrite once_real; cbn; lra).
  rewrite E; split; reflexivity.
Qed.
End Caching_real.

(** Failures. *)
Lemma raw_missing F (S : Scalar F) (c : ctx F) : linear_raw c = Panic <-> c idX = None \/ c idW = None \/ c idY = None.
Proof.
  unfold linear_raw, read; destruct (c idX) as [x|], (c idW) as [w|], (c idY) as [[y|y y'|ys|ds y]|]; split; intro H;
    try reflexivity; try (destruct H as [H|[H|H]]; discriminate); try discriminate; auto.
  destruct (elements x), (elements w); try discriminate; destruct (_ =? _); discriminate.
Qed.
Lemma failing_gradient F (S : Scalar F) (grad : ctx F -> res err (value F)) rate tw ws xs (b : bool) rest draws :
  ((exists e, grad (xyw xs (dotted xs tw) ws) = Err e) \/ grad (xyw xs (dotted xs tw) ws) = Panic ->
   linear_run grad rate tw ws (xs :: rest) = Panic) /\
  ((exists e, grad (xyw xs (if b then fone else fzero) ws) = Err e) \/ grad (xyw xs (if b then fone else fzero) ws) = Panic ->
   logistic_run grad rate ws ((xs, b) :: draws) = Panic).
Proof.
  split; intros [[e E]|E]; cbn [linear_run logistic_run]; unfold linear_step, logistic_step; rewrite E; reflexivity.
Qed.
