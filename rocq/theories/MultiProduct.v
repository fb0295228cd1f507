(** Model of aegir/src/buffers/shapes/multi_product.rs (the index iterator of runtime
    shapes).  No proofs here. *)
From Coq Require Import List Arith NArith Bool.
Import ListNotations.

(** [MultiProductIter], multi_product.rs:29-33.  A [Range<usize>] a..b is a pair. *)
Record mpi : Type := Mpi { cur : option nat; it : nat * nat; orig : nat * nat }.

(** [Range::next] (std) on a range of usize, called at multi_product.rs:36. *)
Definition range_next (r : nat * nat) : option nat * (nat * nat) :=
  let (a, b) := r in if a <? b then (Some a, (S a, b)) else (None, (a, b)).

(** [Range::count] (std), called at multi_product.rs:135,146-147. *)
Definition range_count (r : nat * nat) : nat := snd r - fst r.

(** [MultiProductIter::iterate], multi_product.rs:36. *)
Definition iterate (m : mpi) : mpi :=
  let (c, r) := range_next (it m) in Mpi c r (orig m).

(** [MultiProductIter::reset], multi_product.rs:38. *)
Definition reset (m : mpi) : mpi := Mpi (cur m) (orig m) (orig m).

(** [MultiProductIter::in_progress], multi_product.rs:40. *)
Definition mpi_in_progress (m : mpi) : bool :=
  match cur m with Some _ => true | None => false end.

(** [MultiProductIterState], multi_product.rs:43-46. *)
Inductive mpstate : Type :=
| StartOfIter
| MidIter (on_first_iter : bool).

(** [MultiProduct], multi_product.rs:49.  Simplified: the array of per-dimension iterators
    is stored last dimension first, so that [split_last_mut] is pattern matching. *)
Definition multiproduct := list mpi.

(** [MultiProduct::new], multi_product.rs:52-58. *)
Definition mp_new (sizes : list nat) : multiproduct :=
  rev (map (fun s => Mpi None (0, s) (0, s)) sizes).

(** [MultiProduct::iterate_last], multi_product.rs:60-99 (returns the updated iterators and
    the boolean). *)
Fixpoint iterate_last (ms : list mpi) (state : mpstate) : list mpi * bool :=
  match ms with
  | last :: rest =>
      let on_first_iter :=
        match state with
        | StartOfIter => negb (mpi_in_progress last)
        | MidIter b => b
        end in
      let state' := MidIter on_first_iter in
      let last1 := if negb on_first_iter then iterate last else last in
      if mpi_in_progress last1 then (last1 :: rest, true)
      else
        let (rest', b) := iterate_last rest state' in
        if b then
          let last2 := iterate (reset last1) in
          (last2 :: rest', mpi_in_progress last2)
        else (last1 :: rest', false)
  | [] =>
      match state with
      | StartOfIter => ([], false)
      | MidIter b => ([], b)
      end
  end.

(** [MultiProduct::curr_iterator], multi_product.rs:102-104 ([None] is the unwrap panic). *)
Fixpoint collect_cur (ms : list mpi) : option (list nat) :=
  match ms with
  | [] => Some []
  | m :: rest =>
      match cur m, collect_cur rest with
      | Some c, Some l => Some (l ++ [c])
      | _, _ => None
      end
  end.

(** [MultiProduct::in_progress], multi_product.rs:108-114. *)
Definition mp_in_progress (ms : multiproduct) : bool :=
  match ms with last :: _ => mpi_in_progress last | [] => false end.

(** Observable result of [next]: end of iteration, an index, or the unwrap panic of
    [curr_iterator], multi_product.rs:103,120-126. *)
Inductive mp_item : Type := Done | Item (ix : list nat) | MpPanic.

(** [Iterator::next], multi_product.rs:120-126. *)
Definition mp_next (ms : multiproduct) : multiproduct * mp_item :=
  let (ms', b) := iterate_last ms StartOfIter in
  if b then
    (ms', match collect_cur ms' with Some ix => Item ix | None => MpPanic end)
  else (ms', Done).

(** [Iterator::count], multi_product.rs:128-151.  Simplified: unbounded naturals;
    Usize.v has the overflow of usize. *)
Definition mp_count (ms : multiproduct) : nat :=
  match ms with
  | [] => 0
  | _ =>
      if negb (mp_in_progress ms) then
        fold_left (fun acc m => acc * range_count (it m)) (rev ms) 1
      else
        fold_left (fun acc m => acc * range_count (orig m) + range_count (it m)) (rev ms) 0
  end.

(** [usize::MAX] on a 64-bit target (std), the bound in multi_product.rs:6-26. *)
Definition usize_max : N := (2 ^ 64 - 1)%N.

(** [SizeHint], multi_product.rs:3. *)
Definition size_hint_t : Type := (N * option N)%type.

(** [usize::saturating_add] (std), multi_product.rs:7. *)
Definition sat_add (a b : N) : N := N.min (a + b) usize_max.
(** [usize::saturating_mul] (std), multi_product.rs:18. *)
Definition sat_mul (a b : N) : N := N.min (a * b) usize_max.
(** [usize::checked_add] (std), multi_product.rs:9. *)
Definition chk_add (a b : N) : option N :=
  if (a + b <=? usize_max)%N then Some (a + b)%N else None.
(** [usize::checked_mul] (std), multi_product.rs:20. *)
Definition chk_mul (a b : N) : option N :=
  if (a * b <=? usize_max)%N then Some (a * b)%N else None.

(** [size_hint_add], multi_product.rs:6-14. *)
Definition size_hint_add (a b : size_hint_t) : size_hint_t :=
  (sat_add (fst a) (fst b),
   match snd a, snd b with
   | Some x, Some y => chk_add x y
   | _, _ => None
   end).

(** [size_hint_mul], multi_product.rs:17-26. *)
Definition size_hint_mul (a b : size_hint_t) : size_hint_t :=
  (sat_mul (fst a) (fst b),
   match snd a, snd b with
   | Some x, Some y => chk_mul x y
   | Some x, None => if N.eqb x 0 then Some 0%N else None
   | None, Some y => if N.eqb y 0 then Some 0%N else None
   | None, None => None
   end).

(** [Range::size_hint] (std), called at multi_product.rs:161,173-174: exact. *)
Definition range_size_hint (r : nat * nat) : size_hint_t :=
  (N.of_nat (range_count r), Some (N.of_nat (range_count r))).

(** [Iterator::size_hint], multi_product.rs:153-179. *)
Definition mp_size_hint (ms : multiproduct) : size_hint_t :=
  match ms with
  | [] => (0%N, Some 0%N)
  | _ =>
      if negb (mp_in_progress ms) then
        fold_left (fun acc m => size_hint_mul acc (range_size_hint (it m))) (rev ms)
                  (1%N, Some 1%N)
      else
        fold_left (fun acc m =>
                     size_hint_add (size_hint_mul acc (range_size_hint (orig m)))
                                   (range_size_hint (it m)))
                  (rev ms) (0%N, Some 0%N)
  end.

(** A [for] loop over [shape.indices()], runtime.rs:30: repeated [next] until [Done]; [fuel] bounds the number of
    calls (modelling device; the theorems quantify over it). *)
Fixpoint mp_collect (fuel : nat) (ms : multiproduct) : list mp_item :=
  match fuel with
  | 0 => []
  | S k => let (ms', x) := mp_next ms in
           match x with Done => [Done] | _ => x :: mp_collect k ms' end
  end.
