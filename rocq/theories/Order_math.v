(** Reordering the entries of arrays.  Specification side; nothing here models code. *)
From Coq Require Import List Arith Bool.
Import ListNotations.
From Verif Require Import Base Shapes Scalar Buffers Spec Contraction Node Eval Vocab Math Code_math.

(** [s] maps [0..n] to itself, one to one. *)
Definition permutes (n : nat) (s : nat -> nat) : Prop :=
  (forall i, i < n -> s i < n) /\ forall i j, i < n -> j < n -> s i = s j -> i = j.

(** The index [ix] of an array of dimensions [ds], with [s] applied on every axis of length [n]. *)
Fixpoint moved (n : nat) (s : nat -> nat) (ds ix : list nat) : list nat :=
  match ds, ix with
  | d :: ds', i :: ix' => (if Nat.eqb d n then s i else i) :: moved n s ds' ix'
  | _, _ => []
  end.

Section Order.
Context {F : Type} {S : Scalar F}.
Variables (n : nat) (s : nat -> nat).

(** The buffer [u] holds the entries of [v], reordered by [s] along every axis of length [n]. *)
Definition reordered (v u : value F) : Prop :=
  dims (vshape v) = dims (vshape u) /\
  forall ix, in_box (dims (vshape v)) ix -> vat fzero u (moved n s (dims (vshape v)) ix) = vat fzero v ix.

(** So do the variables. *)
Definition reordered_inputs (c d : ctx F) : Prop :=
  forall i, match c i, d i with
            | Some v, Some u => reordered v u
            | None, None => True
            | _, _ => False
            end.

(** Constants do not depend on the order, and matrices are square where they meet vectors. *)
Fixpoint unordered (c : ctx F) (m : node F) : Prop :=
  match m with
  | Var _ => True
  | Const v => reordered v v
  | Un _ l | Sum l => unordered c l
  | Power l r | Add l r | Sub l r | Mul l r | Div l r => unordered c l /\ unordered c r
  | Contract _ l r =>
      unordered c l /\ unordered c r /\
      match tdims (steps c l), tdims (steps c r) with
      | [a; b], [_] | [_], [a; b] => a = b
      | _, _ => True
      end
  | _ => False
  end.

(** Constants do not depend on the order; for trees with adjoints. *)
Fixpoint steady (m : node F) : Prop :=
  match m with
  | Var _ | VarAdj _ _ => True
  | Const v => reordered v v
  | ConstSpec p => forall ix, in_box (tdims (tensor_of_spec p)) ix ->
      tat (tensor_of_spec p) (moved n s (tdims (tensor_of_spec p)) ix) = tat (tensor_of_spec p) ix
  | ConstAdj l _ | Cached l _ | Un _ l | Sum l => steady l
  | Power l r | Add l r | Sub l r | Mul l r | Div l r | Contract _ l r => steady l /\ steady r
  end.

(** No entries are summed. *)
Fixpoint no_sums (m : node F) : Prop :=
  match m with
  | Var _ | Const _ => True
  | Un _ l => no_sums l
  | Power l r | Add l r | Sub l r | Mul l r | Div l r | Contract 0 l r => no_sums l /\ no_sums r
  | _ => False
  end.

(** Sums do not depend on the order of their terms. *)
Definition exact_sums : Prop :=
  (forall x y : F, fadd x y = fadd y x) /\ forall x y z : F, fadd x (fadd y z) = fadd (fadd x y) z.
End Order.

(** The entries of [l] at the places [p]. *)
Definition picked {A} (z : A) (p : list nat) (l : list A) : list A := map (fun i => nth i l z) p.
