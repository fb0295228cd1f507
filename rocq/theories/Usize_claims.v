(** Counting in usize. *)
From Coq Require Import List Arith NArith Bool Lia.
Import ListNotations.
From Verif Require Import Base Shapes MultiProduct Usize Vocab Index_facts Shapes_facts MultiProduct_facts.

(** What a build makes of a number. *)
Definition counted (checked : bool) (n : nat) : option N :=
  if (N.of_nat n <=? usize_max)%N then Some (N.of_nat n)
  else if checked then None else Some (N.of_nat n mod 2 ^ 64)%N.

Lemma max_mod n : (n <= usize_max)%N -> (n mod 2 ^ 64 = n)%N.
Proof. intro H; apply N.mod_small; unfold usize_max in H; lia. Qed.

Lemma mul_wrap a b : usize_mul false a b = Some ((a * b) mod 2 ^ 64)%N.
Proof. unfold usize_mul; destruct (N.leb_spec (a * b) usize_max); auto; rewrite max_mod; auto. Qed.
Lemma add_wrap a b : usize_add false a b = Some ((a + b) mod 2 ^ 64)%N.
Proof. unfold usize_add; destruct (N.leb_spec (a + b) usize_max); auto; rewrite max_mod; auto. Qed.

Lemma counted_wrap n : counted false n = Some (N.of_nat n mod 2 ^ 64)%N.
Proof. unfold counted; destruct (N.leb_spec (N.of_nat n) usize_max); auto; rewrite max_mod; auto. Qed.

Lemma mul_mod_l a b : (((a mod 2 ^ 64) * b) mod 2 ^ 64 = (a * b) mod 2 ^ 64)%N.
Proof. apply N.mul_mod_idemp_l; discriminate. Qed.
Lemma add_mod_l a b : (((a mod 2 ^ 64) + b) mod 2 ^ 64 = (a + b) mod 2 ^ 64)%N.
Proof. apply N.add_mod_idemp_l; discriminate. Qed.

(** One factor. *)
Lemma counted_mul checked n d a :
  counted checked n = Some a ->
  usize_mul checked a (N.of_nat d) = counted checked (n * d).
Proof.
  intros E; destruct checked.
  - unfold counted in *; destruct (N.leb_spec (N.of_nat n) usize_max); [|discriminate].
    injection E as <-; unfold usize_mul; rewrite Nat2N.inj_mul; auto.
  - rewrite counted_wrap in E; injection E as <-.
    rewrite mul_wrap, counted_wrap, mul_mod_l, Nat2N.inj_mul; auto.
Qed.

Lemma counted_step checked n d e a :
  counted checked n = Some a ->
  match usize_mul checked a (N.of_nat d) with
  | Some b => usize_add checked b (N.of_nat e)
  | None => None
  end = counted checked (n * d + e).
Proof.
  intro E; rewrite (counted_mul checked n d a E); destruct checked.
  - unfold counted; destruct (N.leb_spec (N.of_nat (n * d)) usize_max) as [L|L].
    + unfold usize_add; rewrite Nat2N.inj_add; auto.
    + destruct (N.leb_spec (N.of_nat (n * d + e)) usize_max); auto; lia.
  - rewrite !counted_wrap, add_wrap, add_mod_l, Nat2N.inj_add; auto.
Qed.

(** A failed count stays failed if nothing shrinks it. *)
Lemma counted_none n m : counted true n = None -> n <= m -> counted true m = None.
Proof.
  unfold counted; destruct (N.leb_spec (N.of_nat n) usize_max); [discriminate|]; intros _ L.
  destruct (N.leb_spec (N.of_nat m) usize_max); auto; lia.
Qed.

Lemma counted_false_some n : counted false n <> None.
Proof. rewrite counted_wrap; discriminate. Qed.

(** Products. *)
Lemma product_fold checked ds : forall n,
  (checked = true -> Forall (fun d => 0 < d) ds) ->
  fold_left (fun acc d => match acc with
                          | Some a => usize_mul checked a (N.of_nat d)
                          | None => None
                          end) ds (counted checked n) = counted checked (fold_left Nat.mul ds n).
Proof.
  induction ds as [|d ds IH]; intros n P; auto; cbn [fold_left].
  assert (P' : checked = true -> Forall (fun d => 0 < d) ds) by (intro H; specialize (P H); inversion P; auto).
  rewrite <- (IH (n * d)) by auto; f_equal.
  destruct (counted checked n) as [a|] eqn:E; [apply counted_mul; auto|].
  destruct checked; [|destruct (counted_false_some _ E)].
  specialize (P eq_refl); inversion P; subst; symmetry; eapply counted_none; eauto; nia.
Qed.

Lemma one_counted checked : Some 1%N = counted checked 1.
Proof. reflexivity. Qed.
Lemma zero_counted checked : Some 0%N = counted checked 0.
Proof. reflexivity. Qed.

Lemma product_counted checked ds : (checked = true -> Forall (fun d => 0 < d) ds) ->
  product_usize checked ds = counted checked (product ds).
Proof. intro P; unfold product_usize, product; rewrite (one_counted checked); apply product_fold; auto. Qed.

Lemma cardinality_counted checked s :
  (checked = true -> Forall (fun d => 0 < d) (dims s)) ->
  Forall (fun d => (N.of_nat d <= usize_max)%N) (dims s) ->
  cardinality_usize checked s = counted checked (shape_cardinality s).
Proof.
  destruct s as [[|a [|b ds]]|ds]; intros P Q; try (apply product_counted; auto); auto.
  cbn; inversion Q as [|? ? L _]; subst; unfold counted; destruct (N.leb_spec (N.of_nat a) usize_max); auto; lia.
Qed.

(** The iterator. *)
Lemma step_fold checked ms : forall n,
  (checked = true -> Forall (fun m => 0 < range_count (orig m)) ms) ->
  fold_left (fun acc m => match acc with
                          | Some a =>
                              match usize_mul checked a (N.of_nat (range_count (orig m))) with
                              | Some b => usize_add checked b (N.of_nat (range_count (it m)))
                              | None => None
                              end
                          | None => None
                          end) ms (counted checked n)
  = counted checked (fold_left (fun acc m => acc * range_count (orig m) + range_count (it m)) ms n).
Proof.
  induction ms as [|m ms IH]; intros n P; auto; cbn [fold_left].
  assert (P' : checked = true -> Forall (fun m => 0 < range_count (orig m)) ms)
    by (intro H; specialize (P H); inversion P; auto).
  rewrite <- (IH (n * range_count (orig m) + range_count (it m))) by auto; f_equal.
  destruct (counted checked n) as [a|] eqn:E; [apply counted_step; auto|].
  destruct checked; [|destruct (counted_false_some _ E)].
  specialize (P eq_refl); inversion P; subst; symmetry; eapply counted_none; eauto; nia.
Qed.

Lemma mul_fold checked ms : forall n,
  (checked = true -> Forall (fun m => 0 < range_count (it m)) ms) ->
  fold_left (fun acc m => match acc with
                          | Some a => usize_mul checked a (N.of_nat (range_count (it m)))
                          | None => None
                          end) ms (counted checked n)
  = counted checked (fold_left (fun acc m => acc * range_count (it m)) ms n).
Proof.
  induction ms as [|m ms IH]; intros n P; auto; cbn [fold_left].
  assert (P' : checked = true -> Forall (fun m => 0 < range_count (it m)) ms)
    by (intro H; specialize (P H); inversion P; auto).
  rewrite <- (IH (n * range_count (it m))) by auto; f_equal.
  destruct (counted checked n) as [a|] eqn:E; [apply counted_mul; auto|].
  destruct checked; [|destruct (counted_false_some _ E)].
  specialize (P eq_refl); inversion P; subst; symmetry; eapply counted_none; eauto; nia.
Qed.

Lemma count_counted checked ms :
  (checked = true -> mp_in_progress ms = true -> Forall (fun m => 0 < range_count (orig m)) ms) ->
  (checked = true -> mp_in_progress ms = false -> Forall (fun m => 0 < range_count (it m)) ms) ->
  count_usize checked ms = counted checked (mp_count ms).
Proof.
  intros P Q; unfold count_usize, mp_count; destruct ms as [|m ms]; [reflexivity|].
  destruct (mp_in_progress (m :: ms)) eqn:E; cbn [negb].
  - rewrite (zero_counted checked); apply step_fold.
    intro C; apply Forall_rev; auto.
  - rewrite (one_counted checked); apply mul_fold; intro C; apply Forall_rev; auto.
Qed.

(** The states of the iterator. *)
Lemma run_state ds k : ds <> [] -> k <= length (iproduct ds) ->
  mp_run k (mp_new ds) = mp_new ds /\ k = 0 \/
  exists d rd ri, in_box (d :: rd) ri /\ mp_run k (mp_new ds) = mid (d :: rd) ri.
Proof.
  intros N L; destruct k as [|k]; [left; auto|right].
  assert (I := new_idle ds).
  assert (P := rprod_iproduct (rev ds)); rewrite rev_involutive in P; rewrite <- P in *.
  destruct (rev ds) as [|d rd] eqn:E.
  { apply (f_equal (@length nat)) in E; rewrite rev_length in E; destruct ds; simpl in E; congruence. }
  assert (K := next_idle _ _ _ I).
  destruct (rprod (d :: rd)) as [|ix rest]; [simpl in L; lia|].
  destruct K as (B & R & M).
  destruct (run_mid k d rd (rev ix) B) as (ri' & B' & M' & R').
  { rewrite R; simpl in L; lia. }
  exists d, rd, ri'; split; auto; cbn [mp_run]; rewrite M; auto.
Qed.

Lemma mid_positive rd ri : in_box rd ri -> Forall (fun m => 0 < range_count (orig m)) (mid rd ri).
Proof.
  intro B; induction B as [|i d ri rd Hi B IH]; [constructor|].
  constructor; auto; unfold range_count; cbn; lia.
Qed.

Lemma new_positive ds : Forall (fun d => 0 < d) ds -> Forall (fun m => 0 < range_count (it m)) (mp_new ds).
Proof.
  intro H; apply Forall_rev, Forall_map; eapply Forall_impl; [|exact H]; intros d L; unfold range_count; cbn in *; lia.
Qed.

Lemma new_not_in_progress ds : mp_in_progress (mp_new ds) = false.
Proof. unfold mp_new; rewrite <- map_rev; destruct (rev ds); auto. Qed.

Lemma count_claim checked ds k :
  k <= shape_cardinality (Dy ds) -> (checked = true -> k = 0 -> Forall (fun d => 0 < d) ds) ->
  exists l,
    (forall fuel, length l < fuel ->
       mp_collect fuel (mp_run k (mp_new ds)) = map Item l ++ [Done]) /\
    count_usize checked (mp_run k (mp_new ds)) =
    (if (N.of_nat (length l) <=? usize_max)%N then Some (N.of_nat (length l))
     else if checked then None else Some (N.of_nat (length l) mod 2 ^ 64)%N).
Proof.
  intros K P; destruct (runtime_hints ds k K) as (l & C & E & _); exists l; split; auto.
  change (count_usize checked (mp_run k (mp_new ds)) = counted checked (length l)); rewrite <- E.
  apply count_counted; intros Hc Hp.
  - destruct ds as [|d0 ds]; [rewrite run_nil; constructor|].
    destruct (run_state (d0 :: ds) k) as [[Eq ->]|(d & rd & ri & B & ->)];
      [discriminate|rewrite iproduct_length; auto| |apply mid_positive; auto].
    rewrite Eq, new_not_in_progress in Hp; discriminate.
  - destruct ds as [|d0 ds]; [rewrite run_nil; constructor|].
    destruct (run_state (d0 :: ds) k) as [[-> ->]|(d & rd & ri & B & Eq)];
      [discriminate|rewrite iproduct_length; auto|apply new_positive; auto|].
    rewrite Eq, (mid_in_progress _ _ _ B) in Hp; discriminate.
Qed.

(** With overflow checks, in full. *)
Lemma none_stays {A} (f : N -> A -> option N) l :
  fold_left (fun acc d => match acc with Some a => f a d | None => None end) l None = None.
Proof. induction l; auto. Qed.

Lemma product_checked ds : forall n, (N.of_nat n <= usize_max)%N ->
  let r := fold_left (fun acc d => match acc with
                                   | Some a => usize_mul true a (N.of_nat d)
                                   | None => None
                                   end) ds (Some (N.of_nat n)) in
  (forall m, r = Some m -> m = N.of_nat (fold_left Nat.mul ds n)) /\
  (r = None <-> exists p q, ds = p ++ q /\ (usize_max < N.of_nat (fold_left Nat.mul p n))%N).
Proof.
  induction ds as [|d ds IH]; intros n L; cbn [fold_left].
  - split; [congruence|]; split; [discriminate|]; intros (p & q & E & M).
    symmetry in E; apply app_eq_nil in E; destruct E as [-> ->]; cbn [fold_left] in M; lia.
  - assert (U : usize_mul true (N.of_nat n) (N.of_nat d)
                = if (N.of_nat (n * d) <=? usize_max)%N then Some (N.of_nat (n * d)) else None)
      by (unfold usize_mul; rewrite <- Nat2N.inj_mul; reflexivity).
    rewrite U; clear U; destruct (N.leb_spec (N.of_nat (n * d)) usize_max) as [L'|L'].
    + destruct (IH (n * d) L') as [A B]; split; [exact A|]; rewrite B; split.
      * intros (p & q & -> & M); exists (d :: p), q; auto.
      * intros ([|x p] & q & E & M); [cbn [fold_left] in M; lia|]; injection E as <- ->; exists p, q; auto.
    + rewrite (none_stays (fun a d => usize_mul true a (N.of_nat d))); split; [discriminate|]; split; auto; intros _.
      exists [d], ds; auto.
Qed.

Lemma cardinality_checked s :
  Forall (fun d => (N.of_nat d <= usize_max)%N) (dims s) ->
  (forall n, cardinality_usize true s = Some n -> n = N.of_nat (shape_cardinality s)) /\
  (cardinality_usize true s = None <->
   exists p q, dims s = p ++ q /\ (usize_max < N.of_nat (product p))%N).
Proof.
  assert (G : forall ds, (forall n, product_usize true ds = Some n -> n = N.of_nat (product ds)) /\
    (product_usize true ds = None <-> exists p q, ds = p ++ q /\ (usize_max < N.of_nat (product p))%N)).
  { intro ds; apply (product_checked ds 1); vm_compute; discriminate. }
  destruct s as [[|a [|b ds]]|ds]; intros Q; try apply G; cbn [cardinality_usize shape_cardinality dims].
  - split; [intros n E; injection E as <-; reflexivity|]; split; [discriminate|]; intros (p & q & E & M).
    symmetry in E; apply app_eq_nil in E; destruct E as [-> ->]; vm_compute in M; discriminate.
  - split; [congruence|]; split; [discriminate|]; intros (p & q & E & M).
    inversion Q as [|? ? L _]; subst.
    destruct p as [|x [|y p]]; [vm_compute in M; discriminate| |destruct p; discriminate].
    injection E as <- _; unfold product in M; cbn [fold_left] in M; rewrite Nat.mul_1_l in M; lia.
Qed.

Lemma count_new_usize checked ds : ds <> [] ->
  count_usize checked (mp_new ds) = cardinality_usize checked (Dy ds).
Proof.
  intro N; unfold count_usize; rewrite new_not_in_progress; cbn [negb].
  destruct (mp_new ds) eqn:E.
  { apply (f_equal (@length mpi)) in E; unfold mp_new in E; rewrite rev_length, map_length in E; destruct ds; simpl in E; congruence. }
  rewrite <- E; unfold mp_new; rewrite rev_involutive; cbn; unfold product_usize; generalize (Some 1%N); clear.
  induction ds as [|d ds IH]; intro o; auto; cbn [map fold_left]; rewrite IH; unfold range_count; cbn; rewrite Nat.sub_0_r; auto.
Qed.

Lemma cardinality_wrapping s :
  Forall (fun d => (N.of_nat d <= usize_max)%N) (dims s) ->
  cardinality_usize false s = Some (N.of_nat (shape_cardinality s) mod 2 ^ 64)%N.
Proof. intro Q; rewrite cardinality_counted, counted_wrap; auto; discriminate. Qed.

Lemma zero_refuted : exists ds,
  Forall (fun d => (N.of_nat d <= usize_max)%N) ds /\ shape_cardinality (Dy ds) = 0 /\
  mp_size_hint (mp_new ds) = (0%N, Some 0%N) /\
  cardinality_usize true (Dy ds) = None /\ count_usize true (mp_new ds) = None.
Proof.
  destruct (ex_intro (fun b => N.of_nat b = (2 ^ 40)%N) _ (N2Nat.id (2 ^ 40))) as [b B].
  exists [b; b; 0].
  assert (Q : Forall (fun d => (N.of_nat d <= usize_max)%N) [b; b; 0]).
  { repeat apply Forall_cons; [| | |apply Forall_nil]; rewrite ?B; vm_compute; discriminate. }
  assert (C : cardinality_usize true (Dy [b; b; 0]) = None).
  { apply (proj2 (cardinality_checked (Dy [b; b; 0]) Q)); exists [b; b], [0]; split; auto.
    unfold product; cbn [fold_left]; rewrite Nat.mul_1_l, Nat2N.inj_mul, B; vm_compute; reflexivity. }
  assert (Z : shape_cardinality (Dy [b; b; 0]) = 0).
  { cbn [shape_cardinality]; unfold product; cbn [fold_left]; apply Nat.mul_0_r. }
  split; auto; split; auto; split; [|split; auto].
  - destruct (runtime_hints [b; b; 0] 0) as (l & _ & E & H); [lia|].
    cbn [mp_run] in *; rewrite (H Q), <- E, count_new, iproduct_length by discriminate.
    change (product [b; b; 0]) with (shape_cardinality (Dy [b; b; 0])); rewrite Z; reflexivity.
  - rewrite count_new_usize; auto; discriminate.
Qed.

Lemma equivalent_refuted : exists s t,
  Forall (fun d => (N.of_nat d <= usize_max)%N) (dims s) /\
  Forall (fun d => (N.of_nat d <= usize_max)%N) (dims t) /\
  equivalent_usize false s t = Some true /\ shape_cardinality s <> shape_cardinality t.
Proof.
  destruct (ex_intro (fun b => N.of_nat b = (2 ^ 32)%N) _ (N2Nat.id (2 ^ 32))) as [b B].
  exists (Dy [b; b]), (St [0]).
  assert (Q : Forall (fun d => (N.of_nat d <= usize_max)%N) [b; b]).
  { repeat apply Forall_cons; [| |apply Forall_nil]; rewrite ?B; vm_compute; discriminate. }
  assert (Z : N.of_nat (shape_cardinality (Dy [b; b])) = (2 ^ 64)%N).
  { cbn [shape_cardinality]; unfold product; cbn [fold_left].
    rewrite Nat.mul_1_l, Nat2N.inj_mul, B; reflexivity. }
  split; auto; split; [repeat constructor; vm_compute; discriminate|]; split.
  - unfold equivalent_usize; rewrite (cardinality_wrapping (Dy [b; b])), Z by auto; reflexivity.
  - intro E; rewrite E in Z; vm_compute in Z; discriminate.
Qed.

Lemma count_refuted : exists ds l,
  Forall (fun d => (N.of_nat d <= usize_max)%N) ds /\
  (forall fuel, length l < fuel -> mp_collect fuel (mp_new ds) = map Item l ++ [Done]) /\
  count_usize false (mp_new ds) = Some 0%N /\ length l <> 0.
Proof.
  destruct (ex_intro (fun b => N.of_nat b = (2 ^ 32)%N) _ (N2Nat.id (2 ^ 32))) as [b B].
  assert (Q : Forall (fun d => (N.of_nat d <= usize_max)%N) [b; b]).
  { repeat apply Forall_cons; [| |apply Forall_nil]; rewrite ?B; vm_compute; discriminate. }
  assert (Z : N.of_nat (shape_cardinality (Dy [b; b])) = (2 ^ 64)%N).
  { cbn [shape_cardinality]; unfold product; cbn [fold_left].
    rewrite Nat.mul_1_l, Nat2N.inj_mul, B; reflexivity. }
  destruct (runtime_indices [b; b]) as (l & C & _ & _ & _ & E); [discriminate|].
  exists [b; b], l; split; auto; split; auto; split.
  - rewrite count_new_usize, (cardinality_wrapping (Dy [b; b])), Z by (auto; discriminate); reflexivity.
  - intro H; rewrite <- E, H in Z; vm_compute in Z; discriminate.
Qed.
