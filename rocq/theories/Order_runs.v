(** The order of features in the examples; in the form used by Properties_order.v. *)
From Coq Require Import List Arith Bool Lia Permutation Reals Lra.
Import ListNotations.
From Verif Require Import Base Shapes Scalar Buffers Spec Contraction Node Eval Types Instances Vocab Math Code_math
  Programs Program_math Programs_claims Order_math.
Local Open Scope R_scope.

(** Inner product over a list of places. *)
Fixpoint ip_at (p : list nat) (a b : list R) : R :=
  match p with [] => 0 | i :: p' => nth i a 0 * nth i b 0 + ip_at p' a b end.

Lemma ip_at_perm p q a b : Permutation p q -> ip_at p a b = ip_at q a b.
Proof. induction 1; cbn [ip_at]; lra. Qed.

Lemma ip_picked p a b : ip (picked 0 p a) (picked 0 p b) = ip_at p a b.
Proof. unfold picked; induction p as [|i p IH]; cbn [map ip ip_at]; [reflexivity|rewrite IH; reflexivity]. Qed.

Lemma ip_at_seq a : forall b k n, length a = n -> length b = n -> forall a0 b0, length a0 = k -> length b0 = k ->
  ip_at (seq k n) (a0 ++ a) (b0 ++ b) = ip a b.
Proof.
  induction a as [|x a IH]; intros [|y b] k n La Lb a0 b0 L0 L1; cbn [length] in *; subst n; try discriminate Lb; [reflexivity|].
  cbn [seq ip_at ip]; f_equal.
  - rewrite !app_nth2, L0, L1, Nat.sub_diag by lia; reflexivity.
  - replace (a0 ++ x :: a) with ((a0 ++ [x]) ++ a) by (rewrite <- app_assoc; reflexivity).
    replace (b0 ++ y :: b) with ((b0 ++ [y]) ++ b) by (rewrite <- app_assoc; reflexivity).
    apply IH; try rewrite app_length; cbn [length]; lia.
Qed.

Lemma ip_order p a b : Permutation p (seq 0 (length a)) -> length b = length a ->
  ip (picked 0 p a) (picked 0 p b) = ip a b.
Proof.
  intros P L; rewrite ip_picked, (ip_at_perm _ _ _ _ P).
  apply (ip_at_seq a b 0 (length a) eq_refl L [] []); reflexivity.
Qed.

Lemma nth_move k ws : forall xs i, length xs = length ws -> (i < length ws)%nat ->
  nth i (move k ws xs) 0 = nth i ws 0 + k * nth i xs 0.
Proof.
  induction ws as [|w ws IH]; intros [|x xs] i L Hi; try discriminate L; cbn [length] in *; [lia|].
  destruct i as [|i]; cbn [move nth]; [reflexivity|apply IH; lia].
Qed.

Lemma move_order p k ws xs : length xs = length ws -> Forall (fun i => (i < length ws)%nat) p ->
  move k (picked 0 p ws) (picked 0 p xs) = picked 0 p (move k ws xs).
Proof.
  intros L F; unfold picked; induction F as [|i p Hi F IH]; cbn [map move]; [reflexivity|].
  rewrite nth_move by assumption; f_equal; exact IH.
Qed.

Lemma perm_bound p n : Permutation p (seq 0 n) -> Forall (fun i => (i < n)%nat) p.
Proof. intro P; apply Forall_forall; intros i Hi; apply (Permutation_in _ P), in_seq in Hi; lia. Qed.

Lemma perm_length p n : Permutation p (seq 0 n) -> length p = n.
Proof. intro P; rewrite (Permutation_length P); apply seq_length. Qed.

Lemma lms_order rate p tw draws : forall ws, length tw = length ws -> Permutation p (seq 0 (length ws)) ->
  Forall (fun xs => length xs = length ws) draws ->
  lms_all rate (picked 0 p tw) (picked 0 p ws) (map (picked 0 p) draws) = picked 0 p (lms_all rate tw ws draws).
Proof.
  unfold lms_all; induction draws as [|xs draws IH]; intros ws Lt P D; [reflexivity|]; cbn [map fold_left].
  inversion D as [|? ? Lx D']; subst.
  assert (E : lms rate (picked 0 p tw) (picked 0 p ws) (picked 0 p xs) = picked 0 p (lms rate tw ws xs)).
  { unfold lms; rewrite !ip_order by congruence; apply move_order; [exact Lx|apply perm_bound; exact P]. }
  assert (Lm : length (lms rate tw ws xs) = length ws) by (apply move_length; exact Lx).
  rewrite E; apply IH; rewrite Lm; assumption.
Qed.

Lemma climb_order rate p draws : forall ws, Permutation p (seq 0 (length ws)) ->
  Forall (fun d => length (fst d) = length ws) draws ->
  climb_all rate (picked 0 p ws) (map (fun d => (picked 0 p (fst d), snd d)) draws) = picked 0 p (climb_all rate ws draws).
Proof.
  unfold climb_all; induction draws as [|[xs b] draws IH]; intros ws P D; [reflexivity|]; cbn [map fold_left fst snd].
  inversion D as [|? ? Lx D']; subst; cbn [fst] in Lx.
  assert (E : climb rate (picked 0 p ws) (picked 0 p xs) b = picked 0 p (climb rate ws xs b)).
  { unfold climb; rewrite ip_order by congruence; apply move_order; [exact Lx|apply perm_bound; exact P]. }
  assert (Lm : length (climb rate ws xs b) = length ws) by (apply move_length; exact Lx).
  rewrite E; apply IH; rewrite Lm; assumption.
Qed.

Lemma picked_length p (l : list R) : length (picked 0 p l) = length p.
Proof. apply map_length. Qed.

Lemma linear_order inf sp (S := R_scalar inf sp) rate p tw ws draws :
  length tw = length ws -> Permutation p (seq 0 (length ws)) ->
  Forall (fun xs => length xs = length ws) draws ->
  exists r, linear_run linear_auto rate tw ws draws = Ok r /\
    linear_run linear_auto rate (picked 0 p tw) (picked 0 p ws) (map (picked 0 p) draws) = Ok (picked 0 p r).
Proof.
  intros Lt P D; exists (lms_all rate tw ws draws); split; [apply (linear_run_lms inf sp); exact D|].
  rewrite <- lms_order by assumption; apply (linear_run_lms inf sp).
  apply Forall_forall; intros l Hl; apply in_map_iff in Hl; destruct Hl as (xs & <- & _); rewrite !picked_length; reflexivity.
Qed.

Lemma logistic_order inf sp (S := R_scalar inf sp) rate p ws draws :
  Permutation p (seq 0 (length ws)) -> Forall (fun d => length (fst d) = length ws) draws ->
  exists r, logistic_run logistic_auto rate ws draws = Ok r /\
    logistic_run logistic_auto rate (picked 0 p ws) (map (fun d => (picked 0 p (fst d), snd d)) draws) = Ok (picked 0 p r).
Proof.
  intros P D; exists (climb_all rate ws draws); split; [apply (logistic_run_climb inf sp); auto|].
  rewrite <- climb_order by assumption; apply (logistic_run_climb inf sp); auto.
  apply Forall_forall; intros l Hl; apply in_map_iff in Hl; destruct Hl as (xs & <- & _); cbn [fst]; rewrite !picked_length; reflexivity.
Qed.
