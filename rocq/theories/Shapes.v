(** Model of aegir/src/buffers/shapes/{mod,compiled,runtime}.rs.  No proofs here. *)
From Coq Require Import List Arith Bool.
Import ListNotations.
From Verif Require Import Base.

(** Shapes.  [St ds] is the compile-time shape S0 .. S6 with [length ds] dimensions
    (compiled.rs:5,33,136,142,148,154,160); [Dy ds] is [SDynamic<DIM>] (runtime.rs:6).
    Simplified: indices [()], [usize] and [[usize; N]] are all lists of naturals. *)
Inductive shape : Type :=
| St (ds : list nat)
| Dy (ds : list nat).

(** Dimension list carried by a shape (compiled.rs const parameters, runtime.rs:6 field). *)
Definition dims (s : shape) : list nat := match s with St ds => ds | Dy ds => ds end.

(** [Shape::DIM]: compiled.rs:11,39,85 and runtime.rs:22. *)
Definition shape_DIM (s : shape) : nat := length (dims s).

(** [PartialEq] on dimension arrays (derived; compiled.rs:4,32,135.., runtime.rs:5). *)
Fixpoint dims_eqb (a b : list nat) : bool :=
  match a, b with
  | [], [] => true
  | x :: a', y :: b' => Nat.eqb x y && dims_eqb a' b'
  | _, _ => false
  end.

(** [Shape::contains]: S0 compiled.rs:13, S1 compiled.rs:41, S2..S6 compiled.rs:90-94,
    SDynamic runtime.rs:24-26. *)
Definition shape_contains (s : shape) (ix : list nat) : bool :=
  match s with
  | St [] => true
  | St [a] => match ix with i :: _ => i <? a | [] => false end
  | St ds => forallb (fun p => fst p <? snd p) (combine ix ds)
  | Dy ds => forallb (fun p => fst p <? snd p) (combine ix ds)
  end.

(** [Iterator::product] (std) as used at compiled.rs:97 and runtime.rs:28. *)
Definition product (ds : list nat) : nat := fold_left Nat.mul ds 1.

(** [Shape::cardinality]: compiled.rs:15,43,96-98; runtime.rs:28. *)
Definition shape_cardinality (s : shape) : nat :=
  match s with
  | St [] => 1
  | St [a] => a
  | St ds => product ds
  | Dy ds => product ds
  end.

(** [iproduct!] of ranges (itertools), used at compiled.rs:101: nested loops, last
    range fastest. *)
Fixpoint iproduct (ds : list nat) : list (list nat) :=
  match ds with
  | [] => [[]]
  | d :: ds' => flat_map (fun i => map (cons i) (iproduct ds')) (seq 0 d)
  end.

(** [Shape::indices] of the compile-time shapes: S0 compiled.rs:17, S1 compiled.rs:45,
    S2..S6 compiled.rs:100-102.  (The runtime shape's iterator is modelled separately in
    MultiProduct.v.) *)
Definition st_indices (ds : list nat) : list (list nat) :=
  match ds with
  | [] => [[]]
  | [a] => map (fun i => [i]) (seq 0 a)
  | _ => iproduct ds
  end.

(** [Ix::is_diagonal]: buffers/shapes/mod.rs:52-54 (unit), 56-58 (usize), 60-70 (arrays). *)
Definition is_diagonal (ix : list nat) : bool :=
  match ix with
  | [] => true
  | i :: rest => forallb (fun j => Nat.eqb i j) rest
  end.

(** [Shape::is_scalar], buffers/shapes/mod.rs:127. *)
Definition is_scalar (s : shape) : bool := Nat.eqb (shape_DIM s) 0.
(** [Shape::is_vector], buffers/shapes/mod.rs:130. *)
Definition is_vector (s : shape) : bool := Nat.eqb (shape_DIM s) 1.
(** [Shape::is_matrix], buffers/shapes/mod.rs:133. *)
Definition is_matrix (s : shape) : bool := Nat.eqb (shape_DIM s) 2.
(** [Shape::is_equivalent], buffers/shapes/mod.rs:136-138. *)
Definition is_equivalent (s t : shape) : bool :=
  Nat.eqb (shape_cardinality s) (shape_cardinality t).

(** [IncompatibleShapes], buffers/shapes/mod.rs:7-13. *)
Record incompat : Type := Incompat { inc_left : shape; inc_right : shape }.

(** [IncompatibleShapes::reverse], buffers/shapes/mod.rs:17-22. *)
Definition inc_reverse (e : incompat) : incompat :=
  Incompat (inc_right e) (inc_left e).

(** [Broadcast::broadcast]: S0/S0 compiled.rs:24; S1 with S1/S0 52,59 and S0 with S1 66;
    S2..S6 likewise 109,116,123; SDynamic runtime.rs:37-46,53,60-62.
    Pairs without an impl are [Stuck]. *)
Definition broadcast (l r : shape) : res incompat shape :=
  match l, r with
  | St [], St [] => Ok l
  | St [], _ => Ok r
  | _, St [] => Ok l
  | St a, St b => if dims_eqb a b then Ok l else Stuck
  | Dy a, Dy b =>
      if Nat.eqb (length a) (length b) then
        if dims_eqb a b then Ok l else Err (Incompat l r)
      else Stuck
  | _, _ => Stuck
  end.

(** [Concat::concat]: compiled.rs:275-338 lists exactly the pairs of ranks with an impl
    (0+0..5, 1+0..5, 2+0..4, 3+0..3, 4+0..2, 5+0..1); runtime.rs:76-78,93 has 0..6 + 0..6. *)
Definition shape_concat (l r : shape) : option shape :=
  match l, r with
  | St a, St b =>
      if (length a <=? 5) && (length b <=? 5) && (length a + length b <=? 6)
      then Some (St (a ++ b)) else None
  | Dy a, Dy b =>
      if (length a <=? 6) && (length b <=? 6) then Some (Dy (a ++ b)) else None
  | _, _ => None
  end.

(** [Concat::concat_indices]: compiled.rs:198-204,213-215,227-233,245-251,263-269,280,288,302,310;
    runtime.rs:80-82. *)
Definition concat_indices (l r : list nat) : list nat := l ++ r.

(** [Split::split]: compiled.rs:175 (S2), 184 (S4). *)
Definition shape_split (s : shape) : option (shape * shape) :=
  match s with
  | St [a; b] => Some (St [a], St [b])
  | St [a; b; c; d] => Some (St [a; b], St [c; d])
  | _ => None
  end.

(** [Split::split_index]: compiled.rs:177 (S2), 186-188 (S4). *)
Definition split_index (s : shape) (ix : list nat) : option (list nat * list nat) :=
  match s, ix with
  | St [_; _], [i; j] => Some ([i], [j])
  | St [_; _; _; _], [i; j; k; l] => Some ([i; j], [k; l])
  | _, _ => None
  end.
