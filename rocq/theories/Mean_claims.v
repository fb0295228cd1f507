(** The linear regression example on average (property C95). *)
From Coq Require Import List Arith ZArith Reals Bool Lia Lra Psatz.
Import ListNotations.
From Verif Require Import Base Shapes Scalar Buffers Spec Contraction Node Eval Instances Real_math Program_math Mean_math
  Programs Programs_facts Programs_claims.
Local Open Scope R_scope.

(** Totals. *)
Lemma total_nil {A} (f : A -> R) : total f [] = 0.
Proof. reflexivity. Qed.
Lemma total_cons {A} (f : A -> R) a l : total f (a :: l) = f a + total f l.
Proof. reflexivity. Qed.
Lemma total_app {A} (f : A -> R) l m : total f (l ++ m) = total f l + total f m.
Proof. induction l as [|a l IH]; cbn [app map]; rewrite ?total_nil, ?total_cons, ?IH; ring. Qed.
Lemma total_map {A B} (g : A -> B) (f : B -> R) l : total f (map g l) = total (fun a => f (g a)) l.
Proof. induction l as [|a l IH]; cbn [app map]; rewrite ?total_nil, ?total_cons, ?IH; ring. Qed.
Lemma total_flat {A B} (g : A -> list B) (f : B -> R) l : total f (flat_map g l) = total (fun a => total f (g a)) l.
Proof. induction l as [|a l IH]; cbn [flat_map]; rewrite ?total_app, ?total_nil, ?total_cons, ?IH; ring. Qed.
Lemma total_le {A} (f g : A -> R) l : (forall a, In a l -> f a <= g a) -> total f l <= total g l.
Proof.
  induction l as [|a l IH]; intro H; rewrite ?total_nil, ?total_cons; [lra|].
  apply Rplus_le_compat; [apply H; left; auto|apply IH; intros; apply H; right; auto].
Qed.
Lemma total_ext {A} (f g : A -> R) l : (forall a, In a l -> f a = g a) -> total f l = total g l.
Proof.
  induction l as [|a l IH]; intro H; rewrite ?total_nil, ?total_cons; [reflexivity|].
  rewrite (H a) by (left; auto); rewrite IH by (intros; apply H; right; auto); reflexivity.
Qed.
Lemma total_scale {A} k (f : A -> R) l : total (fun a => k * f a) l = k * total f l.
Proof. induction l as [|a l IH]; cbn [app map]; rewrite ?total_nil, ?total_cons, ?IH; ring. Qed.
Lemma total_plus {A} (f g : A -> R) l : total (fun a => f a + g a) l = total f l + total g l.
Proof. induction l as [|a l IH]; cbn [app map]; rewrite ?total_nil, ?total_cons, ?IH; ring. Qed.
Lemma total_const {A} k (l : list A) : total (fun _ => k) l = INR (length l) * k.
Proof.
  induction l as [|a l IH]; [cbn; ring|]; rewrite total_cons, IH.
  change (length (a :: l)) with (S (length l)); rewrite S_INR; ring.
Qed.
Lemma total_nonneg {A} (f : A -> R) l : (forall a, 0 <= f a) -> 0 <= total f l.
Proof.
  intro H; replace 0 with (total (fun _ : A => 0) l) by (rewrite total_const; ring); apply total_le; auto.
Qed.

Lemma total_sequences {A} (f : list A -> R) n pool :
  total f (sequences (S n) pool) = total (fun a => total (fun q => f (a :: q)) (sequences n pool)) pool.
Proof.
  cbn [sequences]; rewrite total_flat; apply total_ext; intros a _; apply total_map.
Qed.
Lemma sequences_length {A} n (pool : list A) : INR (length (sequences n pool)) = INR (length pool) ^ n.
Proof.
  assert (E : forall l : list (list A), INR (length l) = total (fun _ => 1) l) by (intro; rewrite total_const; ring).
  rewrite E; induction n as [|n IH]; [cbn; ring|].
  rewrite total_sequences; cbn [pow]; rewrite <- IH; rewrite total_const; reflexivity.
Qed.
Lemma sequences_in {A} (P : A -> Prop) n pool d :
  Forall P pool -> In d (sequences n pool) -> length d = n /\ Forall P d.
Proof.
  intro F; revert d; induction n as [|n IH]; intros d; cbn [sequences].
  - intros [<-|[]]; auto.
  - intro I; apply in_flat_map in I as (a & Ia & I); apply in_map_iff in I as (q & <- & I).
    destruct (IH _ I) as [L Q]; split; [cbn; congruence|constructor; auto].
    rewrite Forall_forall in F; auto.
Qed.

(** Differences. *)
Fixpoint diff (a b : list R) : list R :=
  match a, b with x :: a', y :: b' => (x - y) :: diff a' b' | _, _ => [] end.
Lemma diff_length a : forall b, length b = length a -> length (diff a b) = length a.
Proof. induction a as [|x a IH]; intros [|y b] L; try discriminate; cbn; auto. Qed.
Lemma ip_diff a : forall b xs, length b = length a -> length xs = length a -> ip xs (diff a b) = ip xs a - ip xs b.
Proof.
  induction a as [|x a IH]; intros [|y b] [|z xs] L L'; try discriminate; cbn [diff ip]; [ring|].
  rewrite IH by (injection L; injection L'; auto); ring.
Qed.
Lemma diff_dist a : forall b, length b = length a -> ip (diff a b) (diff a b) = dist2 a b.
Proof.
  induction a as [|x a IH]; intros [|y b] L; try discriminate; cbn [diff ip dist2]; [ring|].
  rewrite IH by (injection L; auto); ring.
Qed.

Section Mean.
Variables (rate B lam : R) (tw : list R) (pool : list (list R)).
Hypothesis Hr : 0 <= rate.
Hypothesis Hb : rate * B <= 1.
Hypothesis Hp : Forall (fun xs => length xs = length tw /\ ip xs xs <= B) pool.
Hypothesis spread : forall v, length v = length tw -> lam * ip v v <= average (fun xs => ip xs v * ip xs v) pool.

Definition factor : R := 1 - 4 * rate * (1 - rate * B) * lam.

Lemma pool_step ws : length ws = length tw -> pool <> [] ->
  total (fun xs => dist2 (lms rate tw ws xs) tw) pool <= INR (length pool) * (factor * dist2 ws tw).
Proof.
  intros L N; assert (M : 0 < INR (length pool)).
  { apply lt_0_INR; destruct pool; [congruence|cbn; lia]. }
  assert (Lv := diff_length ws tw (eq_sym L)); rewrite L in Lv.
  assert (Sp := spread _ Lv); rewrite diff_dist in Sp by auto; unfold average in Sp.
  set (c := 4 * rate * (1 - rate * B)).
  assert (C : 0 <= c) by (unfold c; apply Rmult_le_pos; nra).
  assert (T : total (fun xs => dist2 (lms rate tw ws xs) tw) pool <=
              total (fun xs => dist2 ws tw + - c * (ip xs (diff ws tw) * ip xs (diff ws tw))) pool).
  { apply total_le; intros xs I; rewrite Forall_forall in Hp; destruct (Hp xs I) as [Lx Bx].
    rewrite ip_diff, lms_progress by congruence; set (r := ip xs ws - ip xs tw).
    assert (Q : 0 <= r * r) by apply Rle_0_sqr.
    assert (K : rate * (rate * ip xs xs) * (r * r) <= rate * (rate * B) * (r * r)).
    { apply Rmult_le_compat_r; [exact Q|]; apply Rmult_le_compat_l; [exact Hr|]; apply Rmult_le_compat_l; assumption. }
    unfold c; nra. }
  rewrite total_plus, total_const, total_scale in T.
  set (t := total (fun xs => ip xs (diff ws tw) * ip xs (diff ws tw)) pool) in *.
  assert (X : lam * dist2 ws tw * INR (length pool) <= t).
  { apply (Rmult_le_compat_r (INR (length pool))) in Sp; [|lra].
    replace (t / INR (length pool) * INR (length pool)) with t in Sp by (field; lra); exact Sp. }
  apply (Rmult_le_compat_l c) in X; [|exact C]; unfold factor; fold c; lra.
Qed.

Lemma pool_mean n : pool <> [] -> forall ws, length ws = length tw ->
  total (fun d => dist2 (lms_all rate tw ws d) tw) (sequences n pool) <=
  INR (length pool) ^ n * (factor ^ n * dist2 ws tw).
Proof.
  intros N; assert (M : 0 < INR (length pool)).
  { apply lt_0_INR; destruct pool; [congruence|cbn; lia]. }
  assert (Lm : forall ws xs, length ws = length tw -> In xs pool -> length (lms rate tw ws xs) = length tw).
  { intros ws xs L I; rewrite Forall_forall in Hp; destruct (Hp xs I) as [Lx _].
    rewrite <- L; apply move_length; congruence. }
  destruct (Rle_dec 0 factor) as [Q|Q].
  - induction n as [|n IH]; intros ws L; [unfold lms_all; cbn; lra|].
    rewrite total_sequences.
    apply Rle_trans with (total (fun xs => INR (length pool) ^ n * factor ^ n * dist2 (lms rate tw ws xs) tw) pool).
    + apply total_le; intros xs I; specialize (IH (lms rate tw ws xs) (Lm _ _ L I)); unfold lms_all in *; cbn [fold_left]; lra.
    + rewrite total_scale; assert (H := pool_step ws L N).
      assert (K : 0 <= INR (length pool) ^ n * factor ^ n) by (apply Rmult_le_pos; apply pow_le; lra).
      apply (Rmult_le_compat_l _ _ _ K) in H; cbn [pow]; lra.
  - assert (Z : forall ws, length ws = length tw -> dist2 ws tw = 0).
    { intros ws L; assert (H := pool_step ws L N); assert (P := dist_nonneg ws tw).
      assert (T : 0 <= total (fun xs => dist2 (lms rate tw ws xs) tw) pool) by (apply total_nonneg; intro; apply dist_nonneg).
      assert (H' : 0 <= factor * dist2 ws tw) by nra. nra. }
    intros ws L; rewrite (Z ws L).
    rewrite (total_ext _ (fun _ => 0)); [rewrite total_const; lra|].
    intros d I; apply Z; rewrite <- L.
    apply (linear_run_lms 0 (fun _ x => x)); eapply Forall_impl; [|exact (proj2 (sequences_in _ _ _ _ Hp I))].
    intros xs [H _]; congruence.
Qed.
End Mean.

(** The grid. *)
Fixpoint add_up (v : list R) : R := match v with x :: v' => x + add_up v' | [] => 0 end.
Lemma cube_square g mu s v a : let K := INR (length g) in
  total (fun x => x) g = K * mu -> total (fun x => x * x) g = K * (s + mu * mu) ->
  total (fun xs => (a + ip xs v) * (a + ip xs v)) (sequences (length v) g) =
  K ^ length v * ((a + mu * add_up v) * (a + mu * add_up v) + s * ip v v).
Proof.
  intros K M1 M2; revert a; induction v as [|y v IH]; intro a.
  - cbn [length sequences pow add_up]; rewrite total_cons, total_nil; cbn [ip]; ring.
  - cbn [length]; rewrite total_sequences; cbn [add_up ip pow].
    rewrite (total_ext _ (fun x => K ^ length v * ((a + mu * add_up v) * (a + mu * add_up v) + s * ip v v) +
       (2 * y * K ^ length v * (a + mu * add_up v)) * x + (K ^ length v * y * y) * (x * x))).
    + rewrite !total_plus, total_const, !total_scale, M1, M2; fold K; ring.
    + intros x _; rewrite (total_ext _ (fun q => (a + x * y + ip q v) * (a + x * y + ip q v))) by (intros; ring).
      rewrite IH; ring.
Qed.

Lemma sum_seq n : total INR (seq 0 n) = INR n * (INR n - 1) / 2 /\
  total (fun i => INR i * INR i) (seq 0 n) = INR n * (INR n - 1) * (2 * INR n - 1) / 6.
Proof.
  induction n as [|n [IH1 IH2]]; [cbn; split; field|].
  rewrite seq_S, !total_app, IH1, IH2, !total_cons, !total_nil, S_INR; cbn [plus]; split; field.
Qed.
Lemma grid_length k : length (grid k) = k.
Proof. unfold grid; rewrite map_length, seq_length; reflexivity. Qed.
Lemma grid_moments k : (1 <= k)%nat ->
  total (fun x => x) (grid k) = INR (length (grid k)) * ((INR k - 1) / (2 * INR k)) /\
  total (fun x => x * x) (grid k) =
    INR (length (grid k)) * ((INR k * INR k - 1) / (12 * (INR k * INR k)) + (INR k - 1) / (2 * INR k) * ((INR k - 1) / (2 * INR k))).
Proof.
  intro H; assert (P : 0 < INR k) by (apply lt_0_INR; lia).
  rewrite grid_length; unfold grid; rewrite !total_map; destruct (sum_seq k) as [E1 E2]; split.
  - rewrite (total_ext _ (fun i => / INR k * INR i)) by (intros; field; lra).
    rewrite total_scale, E1; field; lra.
  - rewrite (total_ext _ (fun i => / (INR k * INR k) * (INR i * INR i))) by (intros; field; lra).
    rewrite total_scale, E2; field; lra.
Qed.

Lemma points_spread n k v : (2 <= k)%nat -> length v = n ->
  1 / 16 * ip v v <= average (fun xs => ip xs v * ip xs v) (points n k).
Proof.
  intros Hk <-; unfold average, points; rewrite sequences_length.
  destruct (grid_moments k ltac:(lia)) as [M1 M2].
  assert (K2 : 2 <= INR k) by (replace 2 with (INR 2) by (simpl; lra); apply le_INR, Hk).
  rewrite (total_ext _ (fun xs => (0 + ip xs v) * (0 + ip xs v))) by (intros; ring).
  rewrite (cube_square _ _ _ _ _ M1 M2), grid_length.
  set (m := (0 + _) * (0 + _)); assert (Q : 0 <= m) by apply Rle_0_sqr.
  set (s := (INR k * INR k - 1) / (12 * (INR k * INR k))).
  assert (S16 : 1 / 16 <= s).
  { unfold s; apply Rmult_le_reg_r with (12 * (INR k * INR k)); [nra|].
    unfold Rdiv at 2; rewrite (Rmult_assoc _ (/ _)), Rinv_l by nra; nra. }
  assert (I : 0 <= ip v v).
  { clear; induction v as [|x v IH]; cbn [ip]; [lra|]; assert (H := Rle_0_sqr x); unfold Rsqr in H; lra. }
  assert (P : 0 < INR k ^ length v) by (apply pow_lt; lra).
  replace (INR k ^ length v * (m + s * ip v v) / INR k ^ length v) with (m + s * ip v v) by (field; lra).
  nra.
Qed.

(** The loop. *)
Section Loop.
Variables (inf : R) (sp : libfn -> R -> R).
Notation RSc := (R_scalar inf sp).

Lemma mean_run rate B lam tw ws pool n (out : list (list R) -> list R) :
  0 <= rate -> rate * B <= 1 -> length ws = length tw -> pool <> [] ->
  Forall (fun xs => length xs = length tw /\ ip xs xs <= B) pool ->
  (forall v, length v = length tw -> lam * ip v v <= average (fun xs => ip xs v * ip xs v) pool) ->
  (forall d, In d (sequences n pool) -> @linear_run R RSc (@linear_auto R RSc) rate tw ws d = Ok (out d)) ->
  average (fun d => dist2 (out d) tw) (sequences n pool) <=
  (1 - 4 * rate * (1 - rate * B) * lam) ^ n * dist2 ws tw.
Proof.
  intros Hr Hb L N Hp Sp O.
  assert (M : 0 < INR (length pool)).
  { apply lt_0_INR; destruct pool; [congruence|cbn; lia]. }
  assert (H := pool_mean rate B lam tw pool Hr Hb Hp Sp n N ws L); unfold factor in H.
  unfold average; rewrite sequences_length.
  rewrite (total_ext _ (fun d => dist2 (lms_all rate tw ws d) tw)).
  - assert (P : 0 < INR (length pool) ^ n) by (apply pow_lt; exact M).
    apply Rmult_le_reg_r with (INR (length pool) ^ n); [exact P|].
    match goal with |- ?a / ?b * ?b <= _ => replace (a / b * b) with a by (field; lra) end; lra.
  - intros d I; specialize (O d I).
    destruct (linear_run_lms inf sp rate tw d ws) as [E _].
    + eapply Forall_impl; [|exact (proj2 (sequences_in _ _ _ _ Hp I))]; intros xs [H' _]; congruence.
    + assert (X : Ok (out d) = Ok (lms_all rate tw ws d)) by (rewrite <- O; exact E); injection X as ->; reflexivity.
Qed.

Lemma markov {A} (f : A -> R) d l : (forall a, 0 <= f a) -> share f d l * d <= average f l.
Proof.
  intro P; unfold share, average; destruct l as [|a l]; [unfold Rdiv; rewrite !total_nil; lra|].
  set (m := a :: l); assert (M : 0 < INR (length m)) by (apply lt_0_INR; cbn; lia).
  assert (T : d * total (fun a => if Rle_dec d (f a) then 1 else 0) m <= total f m).
  { rewrite <- total_scale; apply total_le; intros b _; specialize (P b); destruct (Rle_dec d (f b)); lra. }
  apply Rmult_le_reg_r with (INR (length m)); [exact M|].
  match goal with |- ?x / ?n * d * ?n <= ?y / ?n * ?n => 
    replace (x / n * d * n) with (d * x) by (field; lra); replace (y / n * n) with y by (field; lra) end; exact T.
Qed.

(** examples/linear.rs as it stands: 30 weights, rate 0.01, coordinates drawn from a grid (2^-53 in rand). *)
Lemma mean_program tw k n (out : list (list R) -> list R) :
  length tw = 30%nat -> (2 <= k)%nat ->
  (forall d, In d (sequences n (points 30 k)) -> @linear_main R RSc (1 / 100) tw d = Ok (out d)) ->
  average (fun d => dist2 (out d) tw) (sequences n (points 30 k)) <= (1 - 7 / 4000) ^ n * ip tw tw /\
  forall d, share (fun d => dist2 (out d) tw) d (sequences n (points 30 k)) * d <= (1 - 7 / 4000) ^ n * ip tw tw.
Proof.
  intros L K O.
  assert (K2 : 2 <= INR k) by (replace 2 with (INR 2) by (simpl; lra); apply le_INR, K).
  assert (G : Forall (fun x => 0 <= x <= 1) (grid k)).
  { apply Forall_forall; intros x I; unfold grid in I; apply in_map_iff in I as (i & <- & I); apply in_seq in I.
    assert (0 <= INR i <= INR k) by (split; [apply pos_INR|apply le_INR; lia]); split.
    - apply Rmult_le_pos; [lra|left; apply Rinv_0_lt_compat; lra].
    - apply Rmult_le_reg_r with (INR k); [lra|]; unfold Rdiv; rewrite Rmult_assoc, Rinv_l by lra; lra. }
  assert (Z : dist2 (repeat 0 (length tw)) tw = ip tw tw).
  { clear; induction tw as [|x tw IH]; cbn [length repeat dist2 ip]; [reflexivity|rewrite IH; ring]. }
  assert (A : average (fun d => dist2 (out d) tw) (sequences n (points 30 k)) <= (1 - 7 / 4000) ^ n * ip tw tw).
  { rewrite <- Z; replace (1 - 7 / 4000) with (1 - 4 * (1 / 100) * (1 - 1 / 100 * 30) * (1 / 16)) by field.
    apply (mean_run (1 / 100) 30 (1 / 16) tw _ (points 30 k) n out); try lra.
    - apply repeat_length.
    - intro E; assert (X := sequences_length 30 (grid k)); unfold points in E; rewrite E, grid_length in X.
      assert (0 < INR k ^ 30) by (apply pow_lt; lra); change (INR (length [])) with 0 in X; lra.
    - apply Forall_forall; intros xs I; destruct (sequences_in _ _ _ _ G I) as [Lx Gx]; split; [congruence|].
      apply unit_draw in Gx; rewrite Lx in Gx; simpl in Gx; lra.
    - intros v Lv; apply points_spread; [exact K|congruence].
    - exact O. }
  split; [exact A|]; intro d; eapply Rle_trans; [apply markov; intro; apply dist_nonneg|exact A].
Qed.

Lemma mean_all rate B lam tw ws pool n :
  0 <= rate -> rate * B <= 1 -> length ws = length tw -> pool <> [] ->
  Forall (fun xs => length xs = length tw /\ ip xs xs <= B) pool ->
  (forall v, length v = length tw -> lam * ip v v <= average (fun xs => ip xs v * ip xs v) pool) ->
  exists out : list (list R) -> list R,
    (forall d, In d (sequences n pool) -> @linear_run R RSc (@linear_auto R RSc) rate tw ws d = Ok (out d)) /\
    average (fun d => dist2 (out d) tw) (sequences n pool) <= (1 - 4 * rate * (1 - rate * B) * lam) ^ n * dist2 ws tw.
Proof.
  intros Hr Hb L N Hp Sp; exists (lms_all rate tw ws).
  assert (O : forall d, In d (sequences n pool) ->
    @linear_run R RSc (@linear_auto R RSc) rate tw ws d = Ok (lms_all rate tw ws d)).
  { intros d I; apply (linear_run_lms inf sp).
    eapply Forall_impl; [|exact (proj2 (sequences_in _ _ _ _ Hp I))]; intros xs [H' _]; congruence. }
  split; [exact O|apply mean_run; auto].
Qed.

Lemma mean_example tw k n : length tw = 30%nat -> (2 <= k)%nat ->
  exists out : list (list R) -> list R,
    (forall d, In d (sequences n (points 30 k)) -> @linear_main R RSc (1 / 100) tw d = Ok (out d)) /\
    average (fun d => dist2 (out d) tw) (sequences n (points 30 k)) <= (1 - 7 / 4000) ^ n * ip tw tw /\
    forall e, share (fun d => dist2 (out d) tw) e (sequences n (points 30 k)) * e <= (1 - 7 / 4000) ^ n * ip tw tw.
Proof.
  intros L K; exists (lms_all (1 / 100) tw (repeat 0 (length tw))).
  assert (O : forall d, In d (sequences n (points 30 k)) ->
    @linear_main R RSc (1 / 100) tw d = Ok (lms_all (1 / 100) tw (repeat 0 (length tw)) d)).
  { intros d I; apply (linear_run_lms inf sp).
    assert (T : Forall (fun x : R => True) (grid k)) by (apply Forall_forall; auto).
    assert (Q : Forall (fun xs : list R => length xs = 30%nat) (points 30 k)).
    { apply Forall_forall; intros xs J; exact (proj1 (sequences_in _ _ _ _ T J)). }
    eapply Forall_impl; [|exact (proj2 (sequences_in _ _ _ _ Q I))]; intros xs H; rewrite repeat_length; congruence. }
  split; [exact O|apply mean_program; auto].
Qed.
End Loop.

(** Draws from a line only. *)
Lemma no_spread n rate : forall a d, In d (sequences n [[1; 0]]) -> 1 <= dist2 (lms_all rate [1; 1] [a; 0] d) [1; 1].
Proof.
  induction n as [|n IH]; intros a d; cbn [sequences flat_map].
  - intros [<-|[]]; cbn -[Rplus Rmult Rminus]; assert (H := Rle_0_sqr (a - 1)); unfold Rsqr in H; nra.
  - rewrite app_nil_r; intro I; apply in_map_iff in I as (q & <- & I).
    unfold lms_all; cbn [fold_left]; unfold lms at 2; cbn [move ip].
    match goal with |- context [fold_left _ _ [?x; ?y]] => replace y with 0 by ring end; apply IH; exact I.
Qed.
