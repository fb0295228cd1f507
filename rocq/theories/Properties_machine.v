(** Evaluation over the integer types (property C64). *)
From Coq Require Import List Arith ZArith Bool Lia.
Import ListNotations.
From Verif Require Import Base Shapes Scalar Buffers Spec Contraction Node Eval Types Instances
  Vocab Math Float_math Machine Machine_math Machine_claims.
Local Open Scope Z_scope.

(** C64.  With overflow checks off, every entry returned lies in the range of the type and differs
    from the exact integer by a multiple of [2^w]: short cuts, the order of sums and the
    multiplication by a count play no role. *)
Theorem C64_wrapping : forall (signed : bool) (w : Z), 8 <= w ->
  forall (c c' : ctx Z) (n : node Z) (v : value Z) ix,
  ctx_wf c -> node_wf n -> integer_ops True False n -> @regular Z Z_scalar (@un_fn Z Z_scalar) c n ->
  inputs_all (in_range signed w) c n ->
  @evaluate Z (wrapping_int signed w) n c = (c', Ok v) -> in_box (dims (vshape v)) ix ->
  dims (vshape v) = tdims (exact_integer c n) /\ in_range signed w (vat 0 v ix) /\
  exists k, vat 0 v ix = tat (exact_integer c n) ix + k * 2 ^ w.
Proof. exact @wrapping_claim. Qed.
Print Assumptions C64_wrapping.

(** So an entry whose exact value fits the type is exact, whatever overflowed on the way. *)
Theorem C64_wrapping_fits : forall (signed : bool) (w : Z), 8 <= w ->
  forall (c c' : ctx Z) (n : node Z) (v : value Z) ix,
  ctx_wf c -> node_wf n -> integer_ops True False n -> @regular Z Z_scalar (@un_fn Z Z_scalar) c n ->
  inputs_all (in_range signed w) c n ->
  @evaluate Z (wrapping_int signed w) n c = (c', Ok v) -> in_box (dims (vshape v)) ix ->
  in_range signed w (tat (exact_integer c n) ix) -> vat 0 v ix = tat (exact_integer c n) ix.
Proof. exact @wrapping_fits. Qed.
Print Assumptions C64_wrapping_fits.

(** With overflow checks on, every entry obtained without an overflow is exact. *)
Theorem C64_checked : forall (signed : bool) (w : Z), 8 <= w ->
  forall (c : ctx Z) (c' : ctx (option Z)) (n : node Z) (v : value (option Z)) ix z,
  ctx_wf c -> node_wf n -> integer_ops True True n -> @regular Z Z_scalar (@un_fn Z Z_scalar) c n ->
  inputs_all (in_range signed w) c n ->
  @evaluate (option Z) (checked_int signed w) (node_through Some n) (ctx_through Some c) = (c', Ok v) ->
  in_box (dims (vshape v)) ix -> vat None v ix = Some z ->
  z = tat (exact_integer c n) ix /\ in_range signed w z.
Proof. exact @checked_claim. Qed.
Print Assumptions C64_checked.

(** Both kinds of build return the same number there. *)
Theorem C64_builds_agree : forall (signed : bool) (w : Z), 8 <= w ->
  forall (c : ctx Z) (c1 : ctx (option Z)) (c2 : ctx Z) (n : node Z)
         (v1 : value (option Z)) (v2 : value Z) ix z,
  ctx_wf c -> node_wf n -> integer_ops True False n -> @regular Z Z_scalar (@un_fn Z Z_scalar) c n ->
  inputs_all (in_range signed w) c n ->
  @evaluate (option Z) (checked_int signed w) (node_through Some n) (ctx_through Some c) = (c1, Ok v1) ->
  @evaluate Z (wrapping_int signed w) n c = (c2, Ok v2) ->
  in_box (dims (vshape v1)) ix -> in_box (dims (vshape v2)) ix -> vat None v1 ix = Some z ->
  vat 0 v2 ix = z.
Proof. exact @builds_agree. Qed.
Print Assumptions C64_builds_agree.

(** With divisions, a release build is right where the computation without short cuts never leaves
    the range of the type nor divides by zero. *)
Theorem C64_release : forall (signed : bool) (w : Z), 8 <= w ->
  forall (c c' : ctx Z) (n : node Z) (v : value Z) ix z,
  ctx_wf c -> node_wf n -> integer_ops True True n -> @regular Z Z_scalar (@un_fn Z Z_scalar) c n ->
  inputs_all (in_range signed w) c n ->
  @evaluate Z (wrapping_int signed w) n c = (c', Ok v) -> in_box (dims (vshape v)) ix ->
  tat (checked_integer signed w c n) ix = Some z ->
  vat 0 v ix = z /\ tat (exact_integer c n) ix = z.
Proof. exact @release_claim. Qed.
Print Assumptions C64_release.

(** No overflow happens on the way to an entry of size at most [MAX]; over unsigned types, without
    subtractions. *)
Theorem C64_no_overflow : forall (signed : bool) (w : Z), 8 <= w ->
  forall (c : ctx Z) (c' : ctx (option Z)) (n : node Z) (v : value (option Z)) ix,
  ctx_wf c -> node_wf n -> integer_ops (signed = true) True n ->
  @regular Z Z_scalar (@un_fn Z Z_scalar) c n ->
  (forall i u, c i = Some u -> inhabited u) -> constants_inhabited n -> @divisors_all Z Z_scalar (fun z => z <> 0) c n ->
  inputs_all (in_range signed w) c n ->
  @evaluate (option Z) (checked_int signed w) (node_through Some n) (ctx_through Some c) = (c', Ok v) ->
  in_box (dims (vshape v)) ix -> tat (size_integer c n) ix <= int_max signed w ->
  vat None v ix = Some (tat (exact_integer c n) ix).
Proof. exact @fits_claim. Qed.
Print Assumptions C64_no_overflow.

(** If this holds for all operands, no evaluation of an operand contains an overflow, so that a
    short cut has nothing to hide. *)
Theorem C64_nothing_overflows : forall (signed : bool) (w : Z), 8 <= w ->
  forall (c : ctx Z) (n : node Z),
  ctx_wf c -> node_wf n -> integer_ops (signed = true) True n ->
  @regular Z Z_scalar (@un_fn Z Z_scalar) c n ->
  (forall i u, c i = Some u -> inhabited u) -> constants_inhabited n ->
  @divisors_all Z Z_scalar (fun z => z <> 0) c n ->
  inputs_all (in_range signed w) c n ->
  (forall m ix, In m (operands n) -> in_box (tdims (exact_integer c m)) ix ->
     tat (size_integer c m) ix <= int_max signed w) ->
  forall m c' v ix, In m (operands n) ->
  @evaluate (option Z) (checked_int signed w) (node_through Some m) (ctx_through Some c) = (c', Ok v) ->
  in_box (dims (vshape v)) ix -> vat None v ix = Some (tat (exact_integer c m) ix).
Proof. exact @nothing_claim. Qed.
Print Assumptions C64_nothing_overflows.

Ltac entries B :=
  unfold in_box in B; repeat match goal with H : Forall2 _ _ _ |- _ => inversion H; clear H; subst end;
  repeat match goal with
  | H : (?k < 2)%nat |- _ => destruct k as [|[|k]]; [| |lia]; clear H
  | H : (?k < 1)%nat |- _ => destruct k as [|k]; [|lia]; clear H
  end.
Ltac range_entries :=
  let d := fresh "d" in let ix := fresh "ix" in let B := fresh "B" in
  intros d ix B; unfold vshape in B; cbn in B; entries B; vm_compute; split; discriminate.

(** Over i8: [(x + y) - y] with [x = (100, -3)] and [y = (100, 5)].  The first sum overflows; a
    release build still returns [x], a debug build does not survive the first entry. *)
Example C64_example :
  let c : ctx Z := fun i =>
    match i with
    | O => Some (VArr [2%nat] (AN [AF 100; AF (-3)]))
    | S O => Some (VArr [2%nat] (AN [AF 100; AF 5]))
    | _ => None
    end in
  let n : node Z := Sub (Add (Var 0%nat) (Var 1%nat)) (Var 1%nat) in
  ctx_wf c /\ node_wf n /\ integer_ops True False n /\ @regular Z Z_scalar (@un_fn Z Z_scalar) c n /\
  inputs_all (in_range true 8) c n /\
  snd (@evaluate Z (wrapping_int true 8) n c) = Ok (VArr [2%nat] (AN [AF 100; AF (-3)])) /\
  snd (@evaluate (option Z) (checked_int true 8) (node_through Some n) (ctx_through Some c))
    = Ok (VArr [2%nat] (AN [AF None; AF (Some (-3))])) /\
  tat (exact_integer c n) [0%nat] = 100 /\ tat (size_integer c n) [0%nat] = 300 /\
  tat (size_integer c n) [1%nat] = 13.
Proof.
  cbv zeta; split.
  { intros [|[|i]] v H; try discriminate; injection H as <-; cbn; repeat split; repeat constructor. }
  split; [cbn; tauto|]; split; [cbn; tauto|].
  split; [unfold regular, keeps_order; cbn; repeat split; discriminate|].
  split.
  { split; [|cbn; tauto]; intros [|[|i]] v H; try discriminate; injection H as <-; range_entries. }
  repeat split; vm_compute; reflexivity.
Qed.

(** Over u8: the gradient of [x . x] at [(10, 20)], sizes far below 255. *)
Example C64_example_gradient :
  let c : ctx Z := fun i =>
    match i with O => Some (VArr [2%nat] (AN [AF 10; AF 20])) | _ => None end in
  let n : node Z := Contract 1 (Var 0%nat) (Var 0%nat) in
  exists n', adjoint n 0%nat = Some n' /\
  ctx_wf c /\ node_wf n' /\ integer_ops (false = true) True n' /\
  @regular Z Z_scalar (@un_fn Z Z_scalar) c n' /\
  (forall i u, c i = Some u -> inhabited u) /\ constants_inhabited n' /\ @divisors_all Z Z_scalar (fun z => z <> 0) c n' /\
  inputs_all (in_range false 8) c n' /\
  snd (@evaluate (option Z) (checked_int false 8) (node_through Some n') (ctx_through Some c))
    = Ok (VArr [2%nat] (AN [AF (Some 20); AF (Some 40)])) /\
  tat (size_integer c n') [1%nat] <= int_max false 8 /\ tat (exact_integer c n') [1%nat] = 40.
Proof.
  cbv zeta; eexists; split; [reflexivity|]; split.
  { intros [|i] v H; try discriminate; injection H as <-; cbn; repeat split; repeat constructor. }
  split; [cbn; tauto|]; split; [cbn; tauto|]; split; [cbn; tauto|].
  split.
  { intros [|i] u H; try discriminate; injection H as <-; repeat constructor. }
  split; [cbn; tauto|]; split; [cbn; tauto|]; split.
  { split; [|cbn; tauto]; intros [|i] v H; try discriminate; injection H as <-; range_entries. }
  split; [vm_compute; reflexivity|]; split; [vm_compute; discriminate|vm_compute; reflexivity].
Qed.

(** Over i8: [(x / y) - y] with [x = (100, -7)] and [y = (3, 2)]: division truncates.  All operands
    stay small. *)
Example C64_example_division :
  let c : ctx Z := fun i =>
    match i with
    | O => Some (VArr [2%nat] (AN [AF 100; AF (-7)]))
    | S O => Some (VArr [2%nat] (AN [AF 3; AF 2]))
    | _ => None
    end in
  let n : node Z := Sub (Div (Var 0%nat) (Var 1%nat)) (Var 1%nat) in
  ctx_wf c /\ node_wf n /\ integer_ops (true = true) True n /\ @regular Z Z_scalar (@un_fn Z Z_scalar) c n /\
  (forall i u, c i = Some u -> inhabited u) /\ constants_inhabited n /\
  @divisors_all Z Z_scalar (fun z => z <> 0) c n /\ inputs_all (in_range true 8) c n /\
  (forall m ix, In m (operands n) -> in_box (tdims (exact_integer c m)) ix ->
     tat (size_integer c m) ix <= int_max true 8) /\
  snd (@evaluate Z (wrapping_int true 8) n c) = Ok (VArr [2%nat] (AN [AF 30; AF (-5)])) /\
  tat (checked_integer true 8 c n) [1%nat] = Some (-5) /\ tat (exact_integer c n) [1%nat] = -5.
Proof.
  cbv zeta; split.
  { intros [|[|i]] v H; try discriminate; injection H as <-; cbn; repeat split; repeat constructor. }
  split; [cbn; tauto|]; split; [cbn; tauto|].
  split; [unfold regular, keeps_order; cbn; repeat split; discriminate|].
  split; [intros [|[|i]] u H; try discriminate; injection H as <-; repeat constructor|].
  split; [cbn; tauto|].
  split.
  { split; [|exact I]; split; [exact I|split; [exact I|]]; intros ix B; cbn in B.
    entries B; vm_compute; discriminate. }
  split.
  { split; [|cbn; tauto]; intros [|[|i]] v H; try discriminate; injection H as <-; range_entries. }
  split.
  { intros m ix [<-|[<-|[<-|[<-|[<-|[]]]]]] B; cbn in B; entries B; vm_compute; discriminate. }
  repeat split; vm_compute; reflexivity.
Qed.

(** It is not enough that the exact value of every part fits: the short cut for two constant
    vectors multiplies the count by the first constant.  [(2, ..., 2) . (0, ..., 0)] with 100
    entries, built from derivatives of a constant, overflows i8. *)
Example C64_parts_refuted : exists (c : ctx Z) (l r : node Z),
  let n := Contract 1 l r in
  ctx_wf c /\ node_wf n /\ integer_ops True False n /\ @regular Z Z_scalar (@un_fn Z Z_scalar) c n /\
  inputs_all (in_range true 8) c n /\
  (forall ix, tat (exact_integer c l) ix = 2) /\ (forall ix, tat (exact_integer c r) ix = 0) /\
  tat (exact_integer c n) [] = 0 /\
  snd (@evaluate (option Z) (checked_int true 8) (node_through Some n) (ctx_through Some c))
    = Ok (VScal None).
Proof.
  exists (fun i => match i with O => Some (VArr [100%nat] (AN (repeat (AF 1) 100))) | _ => None end).
  exists (Un AddOne (Un AddOne (ConstAdj (Const (VScal 1)) 0%nat))), (ConstAdj (Const (VScal 1)) 0%nat).
  cbv zeta; split.
  { intros [|i] v H; try discriminate; injection H as <-; vm_compute; repeat split; repeat constructor. }
  split; [cbn; tauto|]; split; [cbn; tauto|]; split; [cbn; tauto|]; split.
  { split.
    - intros [|i] v H; try discriminate; injection H as <-; intros d ix B; unfold vshape in B; cbn in B.
      unfold in_box in B; inversion B as [|k ? ix' ? Hk B']; subst; inversion B'; subst; clear B B'.
      do 100 (destruct k as [|k]; [vm_compute; split; discriminate|]); lia.
    - cbn; split; range_entries. }
  split; [intro; reflexivity|]; split; [intro; reflexivity|]; split; vm_compute; reflexivity.
Qed.

(** A count that does not fit panics in both kinds of build: the sum of 200 zeros over i8. *)
Example C64_count_refuted : exists (c : ctx Z) (n : node Z),
  ctx_wf c /\ node_wf n /\ integer_ops True False n /\ @regular Z Z_scalar (@un_fn Z Z_scalar) c n /\
  tat (exact_integer c n) [] = 0 /\ tat (size_integer c n) [] = 0 /\
  snd (@evaluate Z (wrapping_int true 8) n c) = Panic /\
  snd (@evaluate (option Z) (checked_int true 8) (node_through Some n) (ctx_through Some c)) = Panic.
Proof.
  exists (fun i => match i with O => Some (VArr [200%nat] (AN (repeat (AF 1) 200))) | _ => None end).
  exists (Add (Sum (ConstAdj (Const (VScal 1)) 0%nat)) (Const (VScal 0))).
  split.
  { intros [|i] v H; try discriminate; injection H as <-; vm_compute; repeat split; repeat constructor. }
  split; [cbn; tauto|]; split; [cbn; tauto|]; split; [cbn; tauto|].
  repeat split; vm_compute; reflexivity.
Qed.

(** Division does not commute with wrapping: [(x + x) / 2] for [x = 100] over i8 is -28 in a release
    build, which is not 100 up to multiples of 256. *)
Example C64_division_refuted : exists (c : ctx Z) (n : node Z),
  ctx_wf c /\ node_wf n /\ integer_ops True True n /\ @regular Z Z_scalar (@un_fn Z Z_scalar) c n /\
  inputs_all (in_range true 8) c n /\
  snd (@evaluate Z (wrapping_int true 8) n c) = Ok (VScal (-28)) /\
  tat (exact_integer c n) [] = 100 /\ forall k, -28 <> 100 + k * 2 ^ 8.
Proof.
  exists (fun i => match i with O => Some (VScal 100) | _ => None end).
  exists (Div (Add (Var 0%nat) (Var 0%nat)) (Const (VScal 2))).
  split; [intros [|i] v H; try discriminate; injection H as <-; exact I|].
  split; [cbn; tauto|]; split; [cbn; tauto|].
  split; [unfold regular, keeps_order; cbn; repeat split; auto|].
  split.
  { split; [intros [|i] v H; try discriminate; injection H as <-; range_entries|cbn; split; [tauto|range_entries]]. }
  split; [vm_compute; reflexivity|]; split; [vm_compute; reflexivity|intro k; lia].
Qed.
