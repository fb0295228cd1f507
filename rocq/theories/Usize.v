(** Counting in usize (64 bits) with both behaviours of overflow: [checked] is a debug build, where
    an overflow panics ([None]); otherwise the result is reduced modulo [2^64].  No proofs. *)
From Coq Require Import List Arith NArith Bool.
Import ListNotations.
From Verif Require Import Shapes MultiProduct.

(** [a * b] on usize (std), as used at buffers/shapes/multi_product.rs:135,148 and by
    [Iterator::product] (std) at buffers/shapes/compiled.rs:97 and runtime.rs:28. *)
Definition usize_mul (checked : bool) (a b : N) : option N :=
  if (a * b <=? usize_max)%N then Some (a * b)%N
  else if checked then None else Some ((a * b) mod 2 ^ 64)%N.
(** [a + b] on usize (std), as used at buffers/shapes/multi_product.rs:148. *)
Definition usize_add (checked : bool) (a b : N) : option N :=
  if (a + b <=? usize_max)%N then Some (a + b)%N
  else if checked then None else Some ((a + b) mod 2 ^ 64)%N.

(** [Iterator::product] (std), compiled.rs:97, runtime.rs:28. *)
Definition product_usize (checked : bool) (ds : list nat) : option N :=
  fold_left (fun acc d => match acc with
                          | Some a => usize_mul checked a (N.of_nat d)
                          | None => None
                          end) ds (Some 1%N).

(** [Shape::cardinality]: compiled.rs:15,43,96-98; runtime.rs:28. *)
Definition cardinality_usize (checked : bool) (s : shape) : option N :=
  match s with
  | St [] => Some 1%N
  | St [a] => Some (N.of_nat a)
  | St ds => product_usize checked ds
  | Dy ds => product_usize checked ds
  end.

(** [Shape::is_equivalent], buffers/shapes/mod.rs:136-138. *)
Definition equivalent_usize (checked : bool) (s t : shape) : option bool :=
  match cardinality_usize checked s, cardinality_usize checked t with
  | Some a, Some b => Some (N.eqb a b)
  | _, _ => None
  end.

(** [Iterator::count], multi_product.rs:128-151. *)
Definition count_usize (checked : bool) (ms : multiproduct) : option N :=
  match ms with
  | [] => Some 0%N
  | _ =>
      if negb (mp_in_progress ms) then
        fold_left (fun acc m => match acc with
                                | Some a => usize_mul checked a (N.of_nat (range_count (it m)))
                                | None => None
                                end) (rev ms) (Some 1%N)
      else
        fold_left (fun acc m => match acc with
                                | Some a =>
                                    match usize_mul checked a (N.of_nat (range_count (orig m))) with
                                    | Some b => usize_add checked b (N.of_nat (range_count (it m)))
                                    | None => None
                                    end
                                | None => None
                                end) (rev ms) (Some 0%N)
  end.
