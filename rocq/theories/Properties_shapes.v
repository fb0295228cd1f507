(** Properties of shapes and index iteration: C17, C18, C19, C38, C65. *)
From Coq Require Import List Arith NArith Bool Sorted Lia.
Import ListNotations.
From Verif Require Import Base Shapes MultiProduct Usize Vocab Index_facts Shapes_facts MultiProduct_facts
  Usize_claims.

(** C17 Runtime shape index iteration.  Full statement: for every runtime shape [ds], calling
    [next] until it returns None yields each index of the box exactly once, in row-major order,
    and their number is [cardinality()].  Proved for every positive number of dimensions; for
    zero dimensions it is false (next theorem). *)
Theorem C17_indices_partial : forall ds,
  ds <> [] ->
  exists l,
    (forall fuel, length l < fuel -> mp_collect fuel (mp_new ds) = map Item l ++ [Done]) /\
    (forall ix, In ix l <-> in_box ds ix) /\
    StronglySorted lexlt l /\ NoDup l /\
    length l = shape_cardinality (Dy ds).
Proof. exact runtime_indices. Qed.
Print Assumptions C17_indices_partial.

Example C17_indices_example :
  mp_collect 7 (mp_new [2; 3]) =
  map Item [[0;0];[0;1];[0;2];[1;0];[1;1];[1;2]] ++ [Done] /\
  mp_collect 7 (mp_new [2; 0; 3]) = [Done].
Proof. split; reflexivity. Qed.

(** The zero-dimensional runtime shape has cardinality 1 but its iterator yields nothing. *)
Theorem C17_indices_refuted : exists ds,
  shape_cardinality (Dy ds) = 1 /\ in_box ds [] /\ mp_collect 2 (mp_new ds) = [Done].
Proof. exists []; split; [|split]; [reflexivity | constructor | reflexivity]. Qed.
Print Assumptions C17_indices_refuted.

(** C18 At every point of the iteration (after [k] calls of [next]): [count] is the number of
    indices still to come; [size_hint] is exactly that number, or saturated with no upper bound
    when it does not fit in usize.  Here [count] is taken in unbounded numbers; where the number
    does not fit in usize the claim about [count] is false (C18_count_refuted, and C65 for the
    exact behaviour). *)
Theorem C18_count_and_size_hint_partial : forall ds k,
  k <= shape_cardinality (Dy ds) ->
  exists l,
    (forall fuel, length l < fuel ->
       mp_collect fuel (mp_run k (mp_new ds)) = map Item l ++ [Done]) /\
    mp_count (mp_run k (mp_new ds)) = length l /\
    (Forall (fun n => (N.of_nat n <= 2 ^ 64 - 1)%N) ds ->
     mp_size_hint (mp_run k (mp_new ds)) =
     (N.min (N.of_nat (length l)) (2 ^ 64 - 1),
      if (N.of_nat (length l) <=? 2 ^ 64 - 1)%N then Some (N.of_nat (length l)) else None)).
Proof. exact runtime_hints. Qed.
Print Assumptions C18_count_and_size_hint_partial.

Example C18_example :
  4 <= shape_cardinality (Dy [2; 3]) /\
  mp_count (mp_run 4 (mp_new [2; 3])) = 2 /\
  mp_size_hint (mp_run 4 (mp_new [2; 3])) = (2%N, Some 2%N) /\
  Forall (fun n => (N.of_nat n <= 2 ^ 64 - 1)%N) [2; 3].
Proof.
  split; [vm_compute; lia|]; split; [reflexivity|]; split; [reflexivity|].
  repeat constructor; vm_compute; discriminate.
Qed.

(** [size_hint_add] and [size_hint_mul] return the best bounds (within usize) of the sum and the
    product of two numbers allowed by the given hints. *)
Theorem C18_hint_add : forall a b, hint_ok a -> hint_ok b ->
  (forall l, l <= 2 ^ 64 - 1 ->
     (l <= fst (size_hint_add a b) <-> forall n m, allows a n -> allows b m -> l <= n + m))%N /\
  (forall u, u <= 2 ^ 64 - 1 ->
     ((exists v, snd (size_hint_add a b) = Some v /\ v <= u) <->
      forall n m, allows a n -> allows b m -> n + m <= u))%N.
Proof. exact hint_add_best. Qed.
Print Assumptions C18_hint_add.

Theorem C18_hint_mul : forall a b, hint_ok a -> hint_ok b ->
  (forall l, l <= 2 ^ 64 - 1 ->
     (l <= fst (size_hint_mul a b) <-> forall n m, allows a n -> allows b m -> l <= n * m))%N /\
  (forall u, u <= 2 ^ 64 - 1 ->
     ((exists v, snd (size_hint_mul a b) = Some v /\ v <= u) <->
      forall n m, allows a n -> allows b m -> n * m <= u))%N.
Proof. exact hint_mul_best. Qed.
Print Assumptions C18_hint_mul.

Example C18_example_hints :
  hint_ok (0%N, Some 0%N) /\ hint_ok (3%N, None) /\ hint_ok (2%N, Some 5%N) /\
  size_hint_mul (0%N, Some 0%N) (3%N, None) = (0%N, Some 0%N) /\
  size_hint_mul (2%N, Some 5%N) (3%N, None) = (6%N, None) /\
  size_hint_add (usize_max, Some usize_max) (2%N, Some 5%N) = (usize_max, None).
Proof. unfold hint_ok; vm_compute; repeat split; discriminate. Qed.

(** C38 The iterator is not fused: after returning None it yields all indices again, while
    [count] reports 0; over zero dimensions it never yields anything. *)
Theorem C38_iterator_restarts : forall ds,
  ds <> [] -> 0 < shape_cardinality (Dy ds) ->
  exists l, length l = shape_cardinality (Dy ds) /\
    (forall fuel, length l < fuel ->
       mp_collect fuel (mp_new ds) = map Item l ++ [Done] /\
       mp_collect fuel (mp_run (S (length l)) (mp_new ds)) = map Item l ++ [Done]) /\
    mp_count (mp_run (S (length l)) (mp_new ds)) = 0.
Proof. exact runtime_restart. Qed.
Print Assumptions C38_iterator_restarts.

Theorem C38_no_dimensions : forall k, mp_next (mp_run k (mp_new [])) = (mp_new [], Done).
Proof. exact next_nil. Qed.
Print Assumptions C38_no_dimensions.

Example C38_example :
  0 < shape_cardinality (Dy [2]) /\
  mp_collect 3 (mp_run 3 (mp_new [2])) = [Item [0]; Item [1]; Done].
Proof. split; [vm_compute; lia | reflexivity]. Qed.

(** C19 Compile-time shapes. *)
Theorem C19_indices : forall ds,
  (forall ix, length ix = length ds ->
     In ix (st_indices ds) <-> shape_contains (St ds) ix = true) /\
  (forall ix, In ix (st_indices ds) -> length ix = length ds) /\
  StronglySorted lexlt (st_indices ds) /\ NoDup (st_indices ds) /\
  length (st_indices ds) = shape_cardinality (St ds).
Proof. exact static_indices. Qed.
Print Assumptions C19_indices.

(** [contains] (of compile-time and runtime shapes) accepts exactly the in-range indices. *)
Theorem C19_contains : forall s ix,
  length ix = length (dims s) -> shape_contains s ix = true <-> in_box (dims s) ix.
Proof. exact contains_box. Qed.
Print Assumptions C19_contains.

(** [broadcast] of compile-time shapes: equal shapes, or a scalar on either side. *)
Theorem C19_broadcast : forall l r t,
  broadcast (St l) (St r) = Ok t <->
  (t = St l /\ (l = r \/ r = [])) \/ (t = St r /\ l = []).
Proof. exact broadcast_static. Qed.
Print Assumptions C19_broadcast.

(** [broadcast] of runtime shapes of equal rank: accepted iff equal; otherwise both shapes are
    reported, left first. *)
Theorem C19_broadcast_runtime : forall l r,
  length l = length r ->
  (l = r -> broadcast (Dy l) (Dy r) = Ok (Dy l)) /\
  (l <> r -> broadcast (Dy l) (Dy r) = Err (Incompat (Dy l) (Dy r))).
Proof. exact broadcast_runtime. Qed.
Print Assumptions C19_broadcast_runtime.

(** [split] then [concat] is the identity, on shapes and on indices. *)
Theorem C19_split_concat : forall s l r,
  shape_split s = Some (l, r) ->
  shape_concat l r = Some s /\
  forall ix, in_box (dims s) ix ->
    exists i j, split_index s ix = Some (i, j) /\ concat_indices i j = ix /\
                in_box (dims l) i /\ in_box (dims r) j.
Proof. exact split_then_concat. Qed.
Print Assumptions C19_split_concat.

(** [concat] then [split] is the identity (for the ranks that can be split). *)
Theorem C19_concat_split : forall a b,
  length a = length b -> 1 <= length a <= 2 ->
  exists s, shape_concat (St a) (St b) = Some s /\ shape_split s = Some (St a, St b) /\
    forall i j, in_box a i -> in_box b j -> split_index s (concat_indices i j) = Some (i, j).
Proof. exact concat_split. Qed.
Print Assumptions C19_concat_split.

(** [concat]: cardinalities multiply, ranks add, and exactly the joined indices are in range. *)
Theorem C19_concat : forall l r s,
  shape_concat l r = Some s ->
  shape_cardinality s = shape_cardinality l * shape_cardinality r /\
  shape_DIM s = shape_DIM l + shape_DIM r /\
  forall i j, length i = length (dims l) ->
    in_box (dims s) (concat_indices i j) <-> in_box (dims l) i /\ in_box (dims r) j.
Proof. exact concat_laws. Qed.
Print Assumptions C19_concat.

(** [is_diagonal] holds exactly when all components are equal. *)
Theorem C19_is_diagonal : forall ix,
  is_diagonal ix = true <-> forall i j, In i ix -> In j ix -> i = j.
Proof. exact is_diagonal_equal. Qed.
Print Assumptions C19_is_diagonal.

(** [is_scalar], [is_vector] and [is_matrix] recognise the ranks; [is_equivalent] compares the
    numbers of valid indices. *)
Theorem C19_rank : forall s,
  (is_scalar s = true <-> dims s = []) /\
  (is_vector s = true <-> exists n, dims s = [n]) /\
  (is_matrix s = true <-> exists m n, dims s = [m; n]).
Proof. exact predicates_rank. Qed.
Print Assumptions C19_rank.

Theorem C19_equivalent : forall s t la lb,
  NoDup la -> NoDup lb -> (forall ix, In ix la <-> in_box (dims s) ix) ->
  (forall ix, In ix lb <-> in_box (dims t) ix) ->
  (is_equivalent s t = true <-> length la = length lb).
Proof. exact equivalent_size. Qed.
Print Assumptions C19_equivalent.

Example C19_example_predicates :
  is_equivalent (St [2; 3]) (Dy [6]) = true /\ is_equivalent (St [2; 3]) (St [3; 3]) = false /\
  is_matrix (Dy [2; 3]) = true /\ is_vector (St [2; 3]) = false /\
  NoDup (st_indices [2; 3]) /\ (forall ix, In ix (st_indices [2; 3]) <-> in_box (dims (St [2; 3])) ix).
Proof.
  split; [reflexivity|split; [reflexivity|split; [reflexivity|split; [reflexivity|split]]]].
  - repeat constructor; simpl; intuition discriminate.
  - intro ix; rewrite st_indices_iproduct; apply in_iproduct.
Qed.

Example C19_example :
  st_indices [2; 2] = [[0;0];[0;1];[1;0];[1;1]] /\
  broadcast (St [2; 3]) (St []) = Ok (St [2; 3]) /\
  broadcast (Dy [2]) (Dy [3]) = Err (Incompat (Dy [2]) (Dy [3])) /\
  shape_split (St [2; 3; 4; 5]) = Some (St [2; 3], St [4; 5]) /\
  shape_concat (St [2; 3]) (St [4]) = Some (St [2; 3; 4]) /\
  is_diagonal [3; 3; 3] = true /\ is_diagonal [3; 3; 4] = false.
Proof. repeat split. Qed.

(** C65 Counting in 64-bit usize.  At every point of the iteration [count] is the number of indices
    still to come if it fits; if not, it is that number modulo [2^64] without overflow checks and a
    panic with them.  With checks, a fresh iterator needs dimensions other than zero (below). *)
Theorem C65_count : forall checked ds k,
  k <= shape_cardinality (Dy ds) -> (checked = true -> k = 0 -> Forall (fun d => 0 < d) ds) ->
  exists l,
    (forall fuel, length l < fuel ->
       mp_collect fuel (mp_run k (mp_new ds)) = map Item l ++ [Done]) /\
    count_usize checked (mp_run k (mp_new ds)) =
    (if (N.of_nat (length l) <=? 2 ^ 64 - 1)%N then Some (N.of_nat (length l))
     else if checked then None else Some (N.of_nat (length l) mod 2 ^ 64)%N).
Proof. exact count_claim. Qed.
Print Assumptions C65_count.

(** A fresh iterator counts like [cardinality]. *)
Theorem C65_count_new : forall checked ds, ds <> [] ->
  count_usize checked (mp_new ds) = cardinality_usize checked (Dy ds).
Proof. exact count_new_usize. Qed.
Print Assumptions C65_count_new.

(** [cardinality] without overflow checks. *)
Theorem C65_cardinality_wrapping : forall s,
  Forall (fun d => (N.of_nat d <= 2 ^ 64 - 1)%N) (dims s) ->
  cardinality_usize false s = Some (N.of_nat (shape_cardinality s) mod 2 ^ 64)%N.
Proof. exact cardinality_wrapping. Qed.
Print Assumptions C65_cardinality_wrapping.

(** [cardinality] with overflow checks: it panics exactly if the product of the first dimensions
    exceeds usize for some number of them, even if a later dimension is zero. *)
Theorem C65_cardinality_checked : forall s,
  Forall (fun d => (N.of_nat d <= 2 ^ 64 - 1)%N) (dims s) ->
  (forall n, cardinality_usize true s = Some n -> n = N.of_nat (shape_cardinality s)) /\
  (cardinality_usize true s = None <->
   exists p q, dims s = p ++ q /\ (2 ^ 64 - 1 < N.of_nat (product p))%N).
Proof. exact cardinality_checked. Qed.
Print Assumptions C65_cardinality_checked.

(** The runtime shape with dimensions [2^40], [2^40] and 0 has no index; [size_hint] says so,
    [count] and [cardinality] panic in a debug build. *)
Theorem C65_zero_refuted : exists ds,
  Forall (fun d => (N.of_nat d <= 2 ^ 64 - 1)%N) ds /\ shape_cardinality (Dy ds) = 0 /\
  mp_size_hint (mp_new ds) = (0%N, Some 0%N) /\
  cardinality_usize true (Dy ds) = None /\ count_usize true (mp_new ds) = None.
Proof. exact zero_refuted. Qed.
Print Assumptions C65_zero_refuted.

(** C18 fails for [count] on usize: [2^64] indices are counted as none in a release build. *)
Theorem C18_count_refuted : exists ds l,
  Forall (fun d => (N.of_nat d <= 2 ^ 64 - 1)%N) ds /\
  (forall fuel, length l < fuel -> mp_collect fuel (mp_new ds) = map Item l ++ [Done]) /\
  count_usize false (mp_new ds) = Some 0%N /\ length l <> 0.
Proof. exact count_refuted. Qed.
Print Assumptions C18_count_refuted.

(** In a release build shapes of different cardinality are reported as equivalent. *)
Theorem C65_equivalent_refuted : exists s t,
  Forall (fun d => (N.of_nat d <= 2 ^ 64 - 1)%N) (dims s) /\
  Forall (fun d => (N.of_nat d <= 2 ^ 64 - 1)%N) (dims t) /\
  equivalent_usize false s t = Some true /\ shape_cardinality s <> shape_cardinality t.
Proof. exact equivalent_refuted. Qed.
Print Assumptions C65_equivalent_refuted.

Example C65_example :
  4 <= shape_cardinality (Dy [2; 3]) /\ Forall (fun d => 0 < d) [2; 3] /\
  count_usize true (mp_run 4 (mp_new [2; 3])) = Some 2%N /\
  count_usize false (mp_run 4 (mp_new [2; 3])) = Some 2%N /\
  cardinality_usize true (St [2; 3]) = Some 6%N /\
  usize_mul false (2 ^ 63) 3 = Some (2 ^ 63)%N /\ usize_mul true (2 ^ 63) 3 = None /\
  usize_mul true 3 5 = Some 15%N.
Proof.
  split; [vm_compute; lia|]; split; [repeat constructor|]; repeat split.
Qed.
