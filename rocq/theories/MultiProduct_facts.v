(** The index iterator of runtime shapes. *)
From Coq Require Import List Arith NArith Bool Lia Sorted.
Import ListNotations.
From Verif Require Import Base Shapes MultiProduct Vocab Index_facts Shapes_facts.

(** Indices of a box given by its reversed dimensions, in row-major order. *)
Fixpoint rprod (rd : list nat) : list (list nat) :=
  match rd with
  | [] => [[]]
  | d :: rd' => flat_map (fun ix => map (fun j => ix ++ [j]) (seq 0 d)) (rprod rd')
  end.

(** Those strictly after the index with reversal [ri]. *)
Fixpoint rafter (rd ri : list nat) : list (list nat) :=
  match rd, ri with
  | d :: rd', i :: ri' =>
      map (fun j => rev ri' ++ [j]) (seq (S i) (d - S i)) ++
      flat_map (fun ix => map (fun j => ix ++ [j]) (seq 0 d)) (rafter rd' ri')
  | _, _ => []
  end.

Lemma flat_map_flat_map (A B C : Type) (f : A -> list B) (g : B -> list C) l :
  flat_map g (flat_map f l) = flat_map (fun x => flat_map g (f x)) l.
Proof.
  induction l; simpl; auto; rewrite flat_map_app, IHl; auto.
Qed.
Lemma flat_map_map (A B C : Type) (f : A -> B) (g : B -> list C) l :
  flat_map g (map f l) = flat_map (fun x => g (f x)) l.
Proof. induction l; simpl; auto; rewrite IHl; auto. Qed.
Lemma map_flat_map (A B C : Type) (f : A -> list B) (g : B -> C) l :
  map g (flat_map f l) = flat_map (fun x => map g (f x)) l.
Proof. induction l; simpl; auto; rewrite map_app, IHl; auto. Qed.

Lemma iproduct_snoc ds d :
  iproduct (ds ++ [d]) = flat_map (fun ix => map (fun j => ix ++ [j]) (seq 0 d)) (iproduct ds).
Proof.
  induction ds as [|e ds IH]; simpl.
  - rewrite app_nil_r; induction (seq 0 d); simpl; auto; f_equal; auto.
  - rewrite IH, flat_map_flat_map; apply flat_map_ext; intro i.
    rewrite map_flat_map, flat_map_map; apply flat_map_ext; intro ix.
    rewrite map_map; auto.
Qed.

Lemma rprod_iproduct rd : rprod rd = iproduct (rev rd).
Proof. induction rd as [|d rd IH]; simpl; auto; rewrite iproduct_snoc, IH; auto. Qed.

(** The state after yielding the index with reversal [ri]. *)
Definition mid (rd ri : list nat) : list mpi :=
  map (fun p => Mpi (Some (snd p)) (S (snd p), fst p) (0, fst p)) (combine rd ri).
(** States with all current entries empty. *)
Definition idle (rd : list nat) (ms : list mpi) : Prop :=
  Forall2 (fun d m => cur m = None /\ orig m = (0, d)) rd ms.

Lemma seq_split_head s n : 0 < n -> seq s n = s :: seq (S s) (n - 1).
Proof. destruct n; simpl; [lia|]; rewrite Nat.sub_0_r; auto. Qed.

(** What [rafter] says about the next index. *)
Lemma mid_step rd ri :
  in_box rd ri ->
  match rafter rd ri with
  | [] => exists ms, iterate_last (mid rd ri) (MidIter false) = (ms, false) /\ idle rd ms
                     /\ Forall (fun m => range_count (it m) = 0) ms
  | ix :: rest =>
      in_box rd (rev ix) /\ rafter rd (rev ix) = rest /\
      iterate_last (mid rd ri) (MidIter false) = (mid rd (rev ix), true)
  end.
Proof.
  revert ri; induction rd as [|d rd IH]; intros ri H.
  - apply in_box_nil in H; subst; simpl; exists []; repeat split; constructor.
  - apply in_box_cons in H; destruct H as (i & ri' & -> & Hi & Hr).
    specialize (IH ri' Hr); simpl rafter.
    destruct (Nat.eq_dec (S i) d) as [<-|Hd].
    + assert (E : iterate_last (mid (S i :: rd) (i :: ri')) (MidIter false) =
                  let (rest', b) := iterate_last (mid rd ri') (MidIter false) in
                  if b then (Mpi (Some 0) (1, S i) (0, S i) :: rest', true)
                  else (Mpi None (S i, S i) (0, S i) :: rest', false)).
      { cbn [mid combine map iterate_last negb fst snd].
        assert (X : iterate (Mpi (Some i) (S i, S i) (0, S i)) = Mpi None (S i, S i) (0, S i)).
        { unfold iterate, range_next; cbn [it]; rewrite Nat.ltb_irrefl; auto. }
        rewrite X; simpl mpi_in_progress; cbv iota; fold (mid rd ri').
        destruct (iterate_last (mid rd ri') (MidIter false)) as [rest' []]; auto. }
      rewrite E; clear E; rewrite Nat.sub_diag; cbn [seq map]; rewrite app_nil_l.
      destruct (rafter rd ri') as [|ix rest].
      * simpl; destruct IH as (ms & -> & Id & Z).
        eexists; split; [reflexivity|]; split; constructor; simpl; auto; unfold range_count; simpl; lia.
      * destruct IH as (B & R & ->).
        simpl flat_map; cbn [seq map app].
        rewrite rev_app_distr; simpl rev; simpl app.
        split; [apply in_box_cons'; split; [lia|auto]|]; split.
        -- simpl rafter; rewrite R, rev_involutive, ?Nat.sub_0_r; auto.
        -- reflexivity.
    + rewrite (seq_split_head (S i)) by lia; cbn [map app].
      rewrite rev_app_distr, rev_involutive; simpl rev; simpl app.
      split; [apply in_box_cons'; split; [lia|auto]|]; split.
      * simpl rafter; replace (d - S (S i)) with (d - S i - 1) by lia; auto.
      * cbn [mid combine map iterate_last negb fst snd].
        assert (X : iterate (Mpi (Some i) (S i, d) (0, d)) = Mpi (Some (S i)) (S (S i), d) (0, d)).
        { unfold iterate, range_next; cbn [it].
          destruct (Nat.ltb_spec (S i) d); auto; lia. }
        rewrite X; auto.
Qed.

(** The first call, or a call after exhaustion. *)
Lemma idle_start rd ms :
  idle rd ms ->
  match rprod rd with
  | [] => exists ms', iterate_last ms (MidIter true) = (ms', false)
  | ix :: rest =>
      in_box rd (rev ix) /\ rafter rd (rev ix) = rest /\
      iterate_last ms (MidIter true) = (mid rd (rev ix), true)
  end.
Proof.
  revert ms; induction rd as [|d rd IH]; intros ms H; inversion H as [|? m ? rest [Hc Ho] Hrest]; subst.
  - simpl; repeat split; auto; constructor.
  - specialize (IH rest Hrest); simpl rprod.
    assert (E : iterate_last (m :: rest) (MidIter true) =
                let (rest', b) := iterate_last rest (MidIter true) in
                if b then (iterate (Mpi None (0, d) (0, d)) :: rest', Nat.ltb 0 d)
                else (m :: rest', false)).
    { cbn [iterate_last negb]; unfold mpi_in_progress at 1; rewrite Hc.
      destruct (iterate_last rest (MidIter true)) as [rest' []]; auto.
      unfold reset; rewrite Hc, Ho; unfold iterate; simpl; destruct d; auto. }
    rewrite E; clear E.
    destruct (rprod rd) as [|ix tl].
    + simpl; destruct IH as (ms' & ->); eauto.
    + destruct IH as (B & R & ->).
      destruct d as [|d].
      * simpl. assert (Z : flat_map (fun _ : list nat => @nil (list nat)) tl = []) by (clear; induction tl; auto).
        rewrite Z; eauto.
      * simpl flat_map; cbn [seq map app].
        rewrite rev_app_distr; simpl rev; simpl app.
        split; [apply in_box_cons'; split; [lia|auto]|]; split.
        -- simpl rafter; rewrite R, rev_involutive, ?Nat.sub_0_r; auto.
        -- reflexivity.
Qed.

Lemma collect_mid rd ri : length rd = length ri -> collect_cur (mid rd ri) = Some (rev ri).
Proof.
  revert ri; induction rd as [|d rd IH]; intros [|i ri]; simpl; intro L; try discriminate; auto.
  fold (mid rd ri); rewrite IH by lia; auto.
Qed.

Lemma new_idle ds : idle (rev ds) (mp_new ds).
Proof.
  unfold mp_new; rewrite <- map_rev; induction (rev ds); simpl; constructor; auto.
Qed.

Lemma mid_in_progress d rd ri : in_box (d :: rd) ri -> mp_in_progress (mid (d :: rd) ri) = true.
Proof. intro H; apply in_box_cons in H; destruct H as (i & ri' & -> & _); auto. Qed.

Lemma next_mid d rd ri :
  in_box (d :: rd) ri ->
  match rafter (d :: rd) ri with
  | [] => exists ms, mp_next (mid (d :: rd) ri) = (ms, Done) /\ idle (d :: rd) ms
                     /\ Forall (fun m => range_count (it m) = 0) ms
  | ix :: rest =>
      in_box (d :: rd) (rev ix) /\ rafter (d :: rd) (rev ix) = rest /\
      mp_next (mid (d :: rd) ri) = (mid (d :: rd) (rev ix), Item ix)
  end.
Proof.
  intro H; assert (K := mid_step _ _ H).
  assert (E : iterate_last (mid (d :: rd) ri) StartOfIter = iterate_last (mid (d :: rd) ri) (MidIter false)).
  { apply in_box_cons in H; destruct H as (i & ri' & -> & _); reflexivity. }
  unfold mp_next; rewrite E.
  destruct (rafter (d :: rd) ri) as [|ix rest].
  - destruct K as (ms & -> & I & Z); eauto.
  - destruct K as (B & R & ->); repeat split; auto.
    rewrite collect_mid by (apply in_box_length in B; auto); rewrite rev_involutive; auto.
Qed.

Lemma next_idle d rd ms :
  idle (d :: rd) ms ->
  match rprod (d :: rd) with
  | [] => exists ms', mp_next ms = (ms', Done)
  | ix :: rest =>
      in_box (d :: rd) (rev ix) /\ rafter (d :: rd) (rev ix) = rest /\
      mp_next ms = (mid (d :: rd) (rev ix), Item ix)
  end.
Proof.
  intro H; assert (K := idle_start _ _ H).
  assert (E : iterate_last ms StartOfIter = iterate_last ms (MidIter true)).
  { inversion H as [|? m ? rest [Hc Ho] Hrest]; subst; cbn [iterate_last].
    assert (Pm : mpi_in_progress m = false) by (unfold mpi_in_progress; rewrite Hc; auto); rewrite Pm; auto. }
  unfold mp_next; rewrite E.
  destruct (rprod (d :: rd)) as [|ix rest].
  - destruct K as (ms' & ->); eauto.
  - destruct K as (B & R & ->); repeat split; auto.
    rewrite collect_mid by (apply in_box_length in B; auto); rewrite rev_involutive; auto.
Qed.

(** Collecting from the middle. *)
Lemma collect_mid_all d rd ri fuel :
  in_box (d :: rd) ri -> length (rafter (d :: rd) ri) < fuel ->
  mp_collect fuel (mid (d :: rd) ri) = map Item (rafter (d :: rd) ri) ++ [Done].
Proof.
  revert ri; induction fuel as [|fuel IH]; intros ri H L; [lia|].
  assert (K := next_mid _ _ _ H); simpl mp_collect.
  destruct (rafter (d :: rd) ri) as [|ix rest].
  - destruct K as (ms & -> & _); auto.
  - destruct K as (B & R & ->).
    rewrite IH; auto; rewrite R; auto; simpl in L; lia.
Qed.

Lemma collect_new ds fuel :
  ds <> [] -> length (iproduct ds) < fuel ->
  mp_collect fuel (mp_new ds) = map Item (iproduct ds) ++ [Done].
Proof.
  intros N L; assert (I := new_idle ds).
  assert (P := rprod_iproduct (rev ds)); rewrite rev_involutive in P; rewrite <- P in *.
  destruct (rev ds) as [|d rd] eqn:E.
  { apply (f_equal (@length nat)) in E; rewrite rev_length in E; destruct ds; simpl in E; congruence. }
  destruct fuel as [|fuel]; [lia|].
  assert (K := next_idle _ _ _ I); simpl mp_collect.
  destruct (rprod (d :: rd)) as [|ix rest].
  - destruct K as (ms & ->); auto.
  - destruct K as (B & R & ->).
    rewrite collect_mid_all; rewrite ?R; auto; simpl in L; lia.
Qed.

(** Counting. *)
Definition hint (n : nat) : size_hint_t :=
  (N.min (N.of_nat n) usize_max,
   if (N.of_nat n <=? usize_max)%N then Some (N.of_nat n) else None).

Lemma length_flat_map_const (A B : Type) (f : A -> list B) n l :
  (forall x, length (f x) = n) -> length (flat_map f l) = length l * n.
Proof. intro H; induction l; simpl; auto; rewrite app_length, IHl, H; lia. Qed.

Lemma rafter_length d rd i ri :
  length (rafter (d :: rd) (i :: ri)) = length (rafter rd ri) * d + (d - S i).
Proof.
  simpl rafter; rewrite app_length, map_length, seq_length.
  rewrite (length_flat_map_const _ _ _ d); [lia|]; intro; rewrite map_length, seq_length; auto.
Qed.

Lemma count_mid_fold rd ri :
  in_box rd ri ->
  fold_left (fun acc m => acc * range_count (orig m) + range_count (it m)) (rev (mid rd ri)) 0 =
  length (rafter rd ri).
Proof.
  revert ri; induction rd as [|d rd IH]; intros ri H.
  - apply in_box_nil in H; subst; auto.
  - apply in_box_cons in H; destruct H as (i & ri' & -> & Hi & Hr).
    rewrite rafter_length; cbn [mid combine map rev fst snd]; fold (mid rd ri').
    rewrite fold_left_app, IH by auto; simpl; unfold range_count; simpl; lia.
Qed.

Lemma count_mid d rd ri :
  in_box (d :: rd) ri -> mp_count (mid (d :: rd) ri) = length (rafter (d :: rd) ri).
Proof.
  intro H; unfold mp_count; rewrite (mid_in_progress _ _ _ H).
  rewrite <- (count_mid_fold _ _ H).
  apply in_box_cons in H; destruct H as (i & ri' & -> & _); reflexivity.
Qed.

Lemma fold_mul_zero l : fold_left (fun acc m => acc * range_count (it m)) l 0 = 0.
Proof. induction l; simpl; auto. Qed.

Lemma count_new ds : ds <> [] -> mp_count (mp_new ds) = length (iproduct ds).
Proof.
  intro N; rewrite iproduct_length; unfold mp_count, mp_new.
  assert (E : mp_in_progress (rev (map (fun s => Mpi None (0, s) (0, s)) ds)) = false).
  { rewrite <- map_rev; destruct (rev ds); auto. }
  rewrite E; simpl negb; cbv iota.
  destruct (rev (map _ ds)) eqn:R.
  { apply (f_equal (@length mpi)) in R; rewrite rev_length, map_length in R; destruct ds; simpl in R; congruence. }
  rewrite <- R, rev_involutive; unfold product; clear.
  assert (G : forall a, fold_left (fun acc m => acc * range_count (it m))
             (map (fun s => Mpi None (0, s) (0, s)) ds) a = fold_left Nat.mul ds a).
  { induction ds as [|d ds IH]; intro a; simpl; auto; rewrite IH; unfold range_count; simpl; f_equal; lia. }
  apply G.
Qed.

Lemma count_exhausted d rd ms :
  idle (d :: rd) ms -> Forall (fun m => range_count (it m) = 0) ms -> mp_count ms = 0.
Proof.
  intros H Z; inversion H as [|? m ? rest [Hc Ho] Hrest]; subst; unfold mp_count, mp_in_progress, mpi_in_progress.
  rewrite Hc; simpl negb; cbv iota; simpl rev; rewrite fold_left_app; simpl.
  inversion Z as [|? ? E Z']; subst; rewrite E; lia.
Qed.

Lemma hint_mul a b :
  (N.of_nat b <= usize_max)%N ->
  size_hint_mul (hint a) (N.of_nat b, Some (N.of_nat b)) = hint (a * b).
Proof.
  intro L; unfold size_hint_mul, hint, sat_mul, chk_mul; simpl fst; simpl snd.
  rewrite Nat2N.inj_mul; set (x := N.of_nat a); set (y := N.of_nat b) in *.
  f_equal.
  - destruct (N.le_gt_cases x usize_max) as [H|H].
    + rewrite (N.min_l x) by auto; auto.
    + rewrite (N.min_r x) by lia.
      destruct (N.eq_dec y 0) as [->|Hy]; [rewrite !N.mul_0_r; auto|].
      rewrite !N.min_r; auto; nia.
  - destruct (N.leb_spec x usize_max).
    + destruct (N.leb_spec (x * y) usize_max); auto.
    + destruct (N.eqb_spec y 0) as [->|Hy].
      * rewrite N.mul_0_r; auto.
      * destruct (N.leb_spec (x * y) usize_max); auto; nia.
Qed.

Lemma hint_add a b :
  (N.of_nat b <= usize_max)%N ->
  size_hint_add (hint a) (N.of_nat b, Some (N.of_nat b)) = hint (a + b).
Proof.
  intro L; unfold size_hint_add, hint, sat_add, chk_add; simpl fst; simpl snd.
  rewrite Nat2N.inj_add; set (x := N.of_nat a); set (y := N.of_nat b) in *.
  f_equal.
  - lia.
  - destruct (N.leb_spec x usize_max).
    + destruct (N.leb_spec (x + y) usize_max); auto.
    + destruct (N.leb_spec (x + y) usize_max); auto; lia.
Qed.

Lemma hint_zero : (0%N, Some 0%N) = hint 0.
Proof. reflexivity. Qed.
Lemma hint_one : (1%N, Some 1%N) = hint 1.
Proof. reflexivity. Qed.

Lemma size_hint_mid d rd ri :
  in_box (d :: rd) ri -> Forall (fun n => (N.of_nat n <= usize_max)%N) (d :: rd) ->
  mp_size_hint (mid (d :: rd) ri) = hint (length (rafter (d :: rd) ri)).
Proof.
  intros H L.
  assert (G : forall rd ri, in_box rd ri -> Forall (fun n => (N.of_nat n <= usize_max)%N) rd ->
     fold_left (fun acc m => size_hint_add (size_hint_mul acc (range_size_hint (orig m)))
                                   (range_size_hint (it m))) (rev (mid rd ri)) (0%N, Some 0%N) =
     hint (length (rafter rd ri))).
  { clear; intros rd; induction rd as [|d rd IH]; intros ri H L.
    - apply in_box_nil in H; subst; reflexivity.
    - apply in_box_cons in H; destruct H as (i & ri' & -> & Hi & Hr).
      inversion L; subst.
      rewrite rafter_length; cbn [mid combine map rev fst snd]; fold (mid rd ri').
      rewrite fold_left_app, IH by auto; simpl fold_left.
      unfold range_size_hint, range_count; simpl fst; simpl snd; rewrite Nat.sub_0_r.
      rewrite hint_mul, hint_add; auto; lia. }
  rewrite <- (G _ _ H L); unfold mp_size_hint; rewrite (mid_in_progress _ _ _ H).
  apply in_box_cons in H; destruct H as (i & ri' & -> & _); reflexivity.
Qed.

Lemma size_hint_new ds :
  ds <> [] -> Forall (fun n => (N.of_nat n <= usize_max)%N) ds ->
  mp_size_hint (mp_new ds) = hint (length (iproduct ds)).
Proof.
  intros N L; rewrite iproduct_length; unfold mp_size_hint, mp_new.
  assert (E : mp_in_progress (rev (map (fun s => Mpi None (0, s) (0, s)) ds)) = false).
  { rewrite <- map_rev; destruct (rev ds); auto. }
  rewrite E; simpl negb; cbv iota.
  destruct (rev (map _ ds)) eqn:R.
  { apply (f_equal (@length mpi)) in R; rewrite rev_length, map_length in R; destruct ds; simpl in R; congruence. }
  rewrite <- R, rev_involutive; unfold product; rewrite hint_one; clear N E R.
  assert (G : forall a, fold_left (fun acc m => size_hint_mul acc (range_size_hint (it m)))
             (map (fun s => Mpi None (0, s) (0, s)) ds) (hint a) = hint (fold_left Nat.mul ds a)).
  { induction ds as [|d ds IH]; intro a; simpl; auto; inversion L; subst.
    unfold range_size_hint at 2, range_count; simpl; rewrite Nat.sub_0_r, hint_mul, IH; auto. }
  apply G.
Qed.

Lemma skipn_S_cons (A : Type) k (l : list A) x r : skipn k l = x :: r -> skipn (S k) l = r.
Proof.
  revert l; induction k; intros [|y l]; simpl; intro H; try discriminate; [inversion H; auto|].
  rewrite <- (IHk l) ; auto.
Qed.

Lemma run_mid k d rd ri :
  in_box (d :: rd) ri -> k <= length (rafter (d :: rd) ri) ->
  exists ri', in_box (d :: rd) ri' /\ mp_run k (mid (d :: rd) ri) = mid (d :: rd) ri' /\
              rafter (d :: rd) ri' = skipn k (rafter (d :: rd) ri).
Proof.
  revert ri; induction k as [|k IH]; intros ri H L.
  - exists ri; auto.
  - assert (K := next_mid _ _ _ H).
    destruct (rafter (d :: rd) ri) as [|ix rest] eqn:E; [simpl in L; lia|].
    destruct K as (B & R & N).
    destruct (IH (rev ix) B) as (ri' & B' & M & R').
    { rewrite R; simpl in L; lia. }
    exists ri'; split; auto; split.
    + cbn [mp_run]; rewrite N; auto.
    + rewrite R', R; auto.
Qed.

(** At every point of the iteration: what remains, the count and the size hint. *)
Lemma run_new k ds :
  ds <> [] -> k <= length (iproduct ds) ->
  (forall fuel, length (iproduct ds) - k < fuel ->
     mp_collect fuel (mp_run k (mp_new ds)) = map Item (skipn k (iproduct ds)) ++ [Done]) /\
  mp_count (mp_run k (mp_new ds)) = length (iproduct ds) - k /\
  (Forall (fun n => (N.of_nat n <= usize_max)%N) ds ->
   mp_size_hint (mp_run k (mp_new ds)) = hint (length (iproduct ds) - k)).
Proof.
  intros N L; destruct k as [|k].
  - rewrite Nat.sub_0_r; split; [|split].
    + intros; apply collect_new; auto.
    + apply count_new; auto.
    + apply size_hint_new; auto.
  - assert (I := new_idle ds).
    assert (P := rprod_iproduct (rev ds)); rewrite rev_involutive in P; rewrite <- P in *.
    destruct (rev ds) as [|d rd] eqn:E.
    { apply (f_equal (@length nat)) in E; rewrite rev_length in E; destruct ds; simpl in E; congruence. }
    assert (K := next_idle _ _ _ I).
    destruct (rprod (d :: rd)) as [|ix rest]; [simpl in L; lia|].
    destruct K as (B & R & M).
    destruct (run_mid k d rd (rev ix) B) as (ri' & B' & M' & R').
    { rewrite R; simpl in L; lia. }
    assert (X : mp_run (S k) (mp_new ds) = mid (d :: rd) ri') by (cbn [mp_run]; rewrite M; auto).
    rewrite X; rewrite R in R'; simpl skipn; rewrite <- R'.
    assert (Len : length (ix :: rest) - S k = length (rafter (d :: rd) ri')).
    { rewrite R', skipn_length; reflexivity. }
    rewrite Len; split; [|split].
    + intros; apply collect_mid_all; auto.
    + apply count_mid; auto.
    + intro F; apply size_hint_mid; auto.
      rewrite Forall_forall in *; intros x Hx; apply F; apply in_rev; rewrite E; auto.
Qed.

(** After the end the iterator starts over (and then counts 0). *)
Lemma run_restart ds :
  ds <> [] -> 0 < length (iproduct ds) ->
  mp_count (mp_run (S (length (iproduct ds))) (mp_new ds)) = 0 /\
  forall fuel, length (iproduct ds) < fuel ->
    mp_collect fuel (mp_run (S (length (iproduct ds))) (mp_new ds)) =
    map Item (iproduct ds) ++ [Done].
Proof.
  intros N L.
  assert (Rn : forall k ms, mp_run (S k) ms = fst (mp_next (mp_run k ms))).
  { intro k; induction k; intro ms; [auto|]; cbn [mp_run] in *; rewrite IHk; auto. }
  rewrite Rn; assert (I := new_idle ds).
  assert (P := rprod_iproduct (rev ds)); rewrite rev_involutive in P; rewrite <- P in *.
  destruct (rev ds) as [|d rd] eqn:E.
  { apply (f_equal (@length nat)) in E; rewrite rev_length in E; destruct ds; simpl in E; congruence. }
  assert (K := next_idle _ _ _ I).
  destruct (rprod (d :: rd)) as [|ix rest] eqn:Q; [simpl in L; lia|].
  destruct K as (B & R & M).
  destruct (run_mid (length rest) d rd (rev ix) B) as (ri' & B' & M' & R').
  { rewrite R; auto. }
  assert (X : mp_run (length (ix :: rest)) (mp_new ds) = mid (d :: rd) ri').
  { simpl length; cbn [mp_run]; rewrite M; auto. }
  rewrite X; rewrite R, skipn_all in R'.
  assert (Y := next_mid _ _ _ B'); rewrite R' in Y; destruct Y as (ms & Y & Id & Z); rewrite Y; simpl fst.
  split; [eapply count_exhausted; eauto|].
  intros fuel Lf; destruct fuel as [|fuel]; [lia|].
  assert (K := next_idle _ _ _ Id); rewrite Q in K; destruct K as (B2 & R2 & M2).
  simpl mp_collect; rewrite M2.
  rewrite collect_mid_all; rewrite ?R2; auto; simpl in Lf; lia.
Qed.

(** Statements used by the property file. *)
Lemma runtime_indices ds :
  ds <> [] ->
  exists l,
    (forall fuel, length l < fuel -> mp_collect fuel (mp_new ds) = map Item l ++ [Done]) /\
    (forall ix, In ix l <-> in_box ds ix) /\
    StronglySorted lexlt l /\ NoDup l /\
    length l = shape_cardinality (Dy ds).
Proof.
  intro N; exists (iproduct ds); split; [|split; [|split; [|split]]].
  - intros; apply collect_new; auto.
  - apply in_iproduct.
  - apply iproduct_sorted.
  - apply iproduct_NoDup.
  - apply iproduct_length.
Qed.

Lemma run_nil k : mp_run k (mp_new []) = mp_new [].
Proof. induction k; simpl; auto. Qed.

Lemma runtime_hints ds k :
  k <= shape_cardinality (Dy ds) ->
  exists l,
    (forall fuel, length l < fuel ->
       mp_collect fuel (mp_run k (mp_new ds)) = map Item l ++ [Done]) /\
    mp_count (mp_run k (mp_new ds)) = length l /\
    (Forall (fun n => (N.of_nat n <= usize_max)%N) ds ->
     mp_size_hint (mp_run k (mp_new ds)) =
     (N.min (N.of_nat (length l)) usize_max,
      if (N.of_nat (length l) <=? usize_max)%N then Some (N.of_nat (length l)) else None)).
Proof.
  intro K; destruct ds as [|d ds].
  - exists []; rewrite run_nil; split; [|split; auto].
    intros [|f] L; [simpl in L; lia|]; reflexivity.
  - assert (N : d :: ds <> []) by discriminate; simpl in K; rewrite <- iproduct_length in K.
    destruct (run_new k (d :: ds) N K) as (A & B & C).
    exists (skipn k (iproduct (d :: ds))); rewrite skipn_length; auto.
Qed.

Lemma runtime_restart ds :
  ds <> [] -> 0 < shape_cardinality (Dy ds) ->
  exists l, length l = shape_cardinality (Dy ds) /\
    (forall fuel, length l < fuel ->
       mp_collect fuel (mp_new ds) = map Item l ++ [Done] /\
       mp_collect fuel (mp_run (S (length l)) (mp_new ds)) = map Item l ++ [Done]) /\
    mp_count (mp_run (S (length l)) (mp_new ds)) = 0.
Proof.
  simpl; intros N L; rewrite <- iproduct_length in *; exists (iproduct ds); split; auto.
  destruct (run_restart ds N L) as [A B]; split; auto; intros; split; auto using collect_new.
Qed.

Lemma next_nil k : mp_next (mp_run k (mp_new [])) = (mp_new [], Done).
Proof. rewrite run_nil; reflexivity. Qed.

(** The hint of a sum and of a product are the best possible bounds. *)
Section Hints.
Local Open Scope N_scope.

Lemma best_low (f : N -> N -> N) a b x y (l : N) :
  allows a x -> allows b y -> (forall n m, allows a n -> allows b m -> f x y <= f n m) ->
  l <= usize_max -> (l <= N.min (f x y) usize_max <-> forall n m, allows a n -> allows b m -> l <= f n m).
Proof.
  intros X Y H L; rewrite N.min_glb_iff; split.
  - intros [K _] n m A B; eapply N.le_trans; eauto.
  - intro K; split; auto.
Qed.

Lemma allows_low h : hint_ok h -> allows h (fst h).
Proof. unfold hint_ok, allows; destruct (snd h); intuition lia. Qed.

Lemma hint_add_best a b : hint_ok a -> hint_ok b ->
  (forall l, l <= usize_max ->
     (l <= fst (size_hint_add a b) <-> forall n m, allows a n -> allows b m -> l <= n + m)) /\
  (forall u, u <= usize_max ->
     ((exists v, snd (size_hint_add a b) = Some v /\ v <= u) <->
      forall n m, allows a n -> allows b m -> n + m <= u)).
Proof.
  intros Ha Hb; split.
  - intros l L; apply (best_low N.add a b (fst a) (fst b)); auto using allows_low.
    intros n m [A _] [B _]; lia.
  - intros u U; unfold size_hint_add, hint_ok, allows in *; cbn [snd].
    destruct a as [la [ua|]], b as [lb [ub|]]; cbn [fst snd] in *.
    + unfold chk_add; destruct (N.leb_spec (ua + ub) usize_max) as [K|K]; split.
      * intros (v & E & V) n m A B; injection E as <-; lia.
      * intro H; exists (ua + ub); split; auto; apply H; lia.
      * intros (v & E & _); discriminate.
      * intro H; specialize (H ua ub); lia.
    + split; [intros (v & E & _); discriminate|intro H; specialize (H la (lb + u + 1)); lia].
    + split; [intros (v & E & _); discriminate|intro H; specialize (H (la + u + 1) lb); lia].
    + split; [intros (v & E & _); discriminate|intro H; specialize (H (la + u + 1) lb); lia].
Qed.

Lemma hint_mul_best a b : hint_ok a -> hint_ok b ->
  (forall l, l <= usize_max ->
     (l <= fst (size_hint_mul a b) <-> forall n m, allows a n -> allows b m -> l <= n * m)) /\
  (forall u, u <= usize_max ->
     ((exists v, snd (size_hint_mul a b) = Some v /\ v <= u) <->
      forall n m, allows a n -> allows b m -> n * m <= u)).
Proof.
  intros Ha Hb; split.
  - intros l L; apply (best_low N.mul a b (fst a) (fst b)); auto using allows_low.
    intros n m [A _] [B _]; apply N.mul_le_mono; auto.
  - intros u U; unfold size_hint_mul, hint_ok, allows in *; cbn [snd].
    destruct a as [la [ua|]], b as [lb [ub|]]; cbn [fst snd] in *.
    + unfold chk_mul; destruct (N.leb_spec (ua * ub) usize_max) as [K|K]; split.
      * intros (v & E & V) n m A B; injection E as <-; eapply N.le_trans; [|exact V].
        apply N.mul_le_mono; lia.
      * intro H; exists (ua * ub); split; auto; apply H; lia.
      * intros (v & E & _); discriminate.
      * intro H; specialize (H ua ub); lia.
    + destruct (N.eqb_spec ua 0) as [->|K]; split.
      * intros _ n m A _; replace n with 0 by lia; lia.
      * intros _; exists 0; split; auto; lia.
      * intros (v & E & _); discriminate.
      * intro H; exfalso; specialize (H ua (lb + u + 1)).
        assert (1 * (lb + u + 1) <= ua * (lb + u + 1)) by (apply N.mul_le_mono; lia); lia.
    + destruct (N.eqb_spec ub 0) as [->|K]; split.
      * intros _ n m _ B; replace m with 0 by lia; lia.
      * intros _; exists 0; split; auto; lia.
      * intros (v & E & _); discriminate.
      * intro H; exfalso; specialize (H (la + u + 1) ub).
        assert ((la + u + 1) * 1 <= (la + u + 1) * ub) by (apply N.mul_le_mono; lia); lia.
    + split; [intros (v & E & _); discriminate|]; intro H; exfalso; specialize (H (la + u + 1) (lb + u + 1)).
      assert ((la + u + 1) * 1 <= (la + u + 1) * (lb + u + 1)) by (apply N.mul_le_mono; lia); lia.
Qed.
End Hints.
