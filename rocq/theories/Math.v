(** What expressions mean mathematically: tensors as functions from indices to scalars.  This is
    the specification side; nothing here models code. *)
From Coq Require Import List Arith Bool Ring_theory.
Import ListNotations.
From Verif Require Import Base Shapes Scalar Buffers Spec Contraction Node Eval Vocab.

(** A tensor: dimensions and one scalar per index. *)
Record tensor (F : Type) : Type := Tensor { tdims : list nat; tat : list nat -> F }.
Arguments Tensor {F}. Arguments tdims {F}. Arguments tat {F}.

(** Same dimensions and same entries. *)
Definition teq {F} (a b : tensor F) : Prop :=
  tdims a = tdims b /\ forall ix, in_box (tdims a) ix -> tat a ix = tat b ix.

(** The buffer [v] holds the tensor [a]. *)
Definition holds {F} {S : Scalar F} (v : value F) (a : tensor F) : Prop :=
  dims (vshape v) = tdims a /\ forall ix, in_box (tdims a) ix -> vat fzero v ix = tat a ix.

Section Math.
Context {F : Type} {S : Scalar F}.

(** All indices of a box. *)
Fixpoint all_ix (ds : list nat) : list (list nat) :=
  match ds with
  | [] => [[]]
  | d :: ds' => flat_map (fun i => map (cons i) (all_ix ds')) (seq 0 d)
  end.

(** Sums. *)
Definition sum_over {A} (l : list A) (f : A -> F) : F := fold_left (fun a x => fadd a (f x)) l fzero.

(** Index lists are equal. *)
Fixpoint ix_eqb (a b : list nat) : bool :=
  match a, b with
  | [], [] => true
  | x :: a', y :: b' => Nat.eqb x y && ix_eqb a' b'
  | _, _ => false
  end.

(** All components equal. *)
Definition same_components (ix : list nat) : bool :=
  match ix with [] => true | i :: l => forallb (Nat.eqb i) l end.

(** Tensor held by a buffer or a spec. *)
Definition tensor_of (v : value F) : tensor F := Tensor (dims (vshape v)) (vat fzero v).
Definition tensor_of_spec (s : spec F) : tensor F :=
  match s with
  | Raw v => tensor_of v
  | Full t x => Tensor (tdims_of t) (fun _ => x)
  | Diagonal t x => Tensor (tdims_of t) (fun ix => if same_components ix then x else fzero)
  end.

(** Pointwise combination; a tensor without dimensions is used at every index. *)
Definition at_bc (a : tensor F) (ix : list nat) : F :=
  tat a (match tdims a with [] => [] | _ => ix end).
Definition pointwise (f : F -> F -> F) (a b : tensor F) : tensor F :=
  Tensor (match tdims a with [] => tdims b | _ => tdims a end)
         (fun ix => f (at_bc a ix) (at_bc b ix)).

(** Outer product. *)
Definition outer (a b : tensor F) : tensor F :=
  let n := length (tdims a) in
  Tensor (tdims a ++ tdims b) (fun ix => fmul (tat a (firstn n ix)) (tat b (skipn n ix))).

(** Sum of products over the last axis of [a] and the first axis of [b]; the plain product when
    both are scalars. *)
Definition inner (a b : tensor F) : tensor F :=
  match tdims a, tdims b with
  | [], [] => Tensor [] (fun _ => fmul (tat a []) (tat b []))
  | _, _ =>
      let n := length (tdims a) - 1 in
      Tensor (removelast (tdims a) ++ tl (tdims b))
             (fun ix => sum_over (seq 0 (last (tdims a) 0))
                          (fun k => fmul (tat a (firstn n ix ++ [k])) (tat b (k :: skipn n ix))))
  end.

(** Meaning of an expression, for given values [rho] of the variables and a given meaning [um]
    of the unary functions. *)
Section Den.
Variable um : unop -> F -> F.
Variable rho : ctx F.

Definition var_tensor (i : ident) : tensor F :=
  match rho i with Some v => tensor_of v | None => Tensor [] (fun _ => fzero) end.

Fixpoint den (n : node F) : tensor F :=
  match n with
  | Var i => var_tensor i
  | VarAdj i t =>
      let a := tdims (var_tensor i) in
      Tensor (a ++ tdims (var_tensor t))
             (fun ix => if Nat.eqb i t && ix_eqb (firstn (length a) ix) (skipn (length a) ix)
                        then fone else fzero)
  | Const v => tensor_of v
  | ConstSpec s => tensor_of_spec s
  | ConstAdj m t => Tensor (tdims (den m) ++ tdims (var_tensor t)) (fun _ => fzero)
  | Cached m _ => den m
  | Un u m => Tensor (tdims (den m)) (fun ix => um u (tat (den m) ix))
  | Sum m => Tensor [] (fun _ => sum_over (all_ix (tdims (den m))) (tat (den m)))
  | Power b e => Tensor [] (fun _ => fpow (tat (den b) []) (tat (den e) []))
  | Add l r => pointwise fadd (den l) (den r)
  | Sub l r => pointwise fsub (den l) (den r)
  | Mul l r => pointwise fmul (den l) (den r)
  | Div l r => pointwise fdiv (den l) (den r)
  | Contract 0 l r => outer (den l) (den r)
  | Contract _ l r => inner (den l) (den r)
  end.

(** Places where the code is known to deviate, excluded from the positive theorems:
    [Sub]/[Div] of a scalar by an array of rank 2 or more (arguments swapped), products of a
    vector with a non-square matrix, and zero bases under a non-positive exponent. *)
Definition keeps_order (a b : tensor F) : Prop := tdims a = [] -> length (tdims b) <= 1.
Definition square_dims (a b : tensor F) : Prop :=
  match tdims a, tdims b with
  | [n; m], [_] => n = m
  | [_], [n; m] => n = m
  | _, _ => True
  end.
Fixpoint regular (n : node F) : Prop :=
  match n with
  | Var _ | VarAdj _ _ | Const _ | ConstSpec _ => True
  | ConstAdj m _ | Cached m _ | Un _ m | Sum m => regular m
  | Power b e => regular b /\ regular e /\
                 (tat (den b) [] = fzero -> fle (tat (den e) []) fzero = false)
  | Add l r | Mul l r => regular l /\ regular r
  | Sub l r | Div l r => regular l /\ regular r /\ keeps_order (den l) (den r)
  | Contract 0 l r => regular l /\ regular r
  | Contract _ l r => regular l /\ regular r /\ square_dims (den l) (den r)
  end.

End Den.

(** Coherent contexts for cached trees.  The identifiers [keys] are reserved for caches and each
    stands for the tensor [K k].  [coherent c]: other identifiers have their values from [rho];
    cache entries are empty or hold the tensor of their key. *)
Definition coherent (rho : ctx F) (keys : ident -> bool) (K : ident -> tensor F) (c : ctx F) : Prop :=
  forall i, if keys i then forall v, c i = Some v -> vwf v /\ holds v (K i) else c i = rho i.

(** Every [Cached] node uses a key standing for its value; keys are used for nothing else. *)
Fixpoint keyed (um : unop -> F -> F) (rho : ctx F) (keys : ident -> bool) (K : ident -> tensor F)
         (n : node F) : Prop :=
  match n with
  | Var i => keys i = false
  | VarAdj i t => keys i = false /\ keys t = false
  | Const _ | ConstSpec _ => True
  | ConstAdj m t => keyed um rho keys K m /\ keys t = false
  | Cached m k => keyed um rho keys K m /\ keys k = true /\ teq (K k) (den um rho m)
  | Un _ m | Sum m => keyed um rho keys K m
  | Power l r | Add l r | Sub l r | Mul l r | Div l r | Contract _ l r =>
      keyed um rho keys K l /\ keyed um rho keys K r
  end.

(** Exact arithmetic: a commutative ring with decidable equality whose [from_usize] counts, and
    where powers of one and zero and the zeroth power are as usual. *)
Record exact : Prop := {
  ex_ring : ring_theory fzero fone fadd fmul fsub fneg (@eq F);
  ex_eq : forall x y : F, feq x y = true <-> x = y;
  ex_of : forall n, fof_usize n = Some (Nat.iter n (fun a => fadd a fone) fzero);
  ex_pow0 : forall x : F, fpow x fzero = fone;
  ex_1pow : forall y : F, fpow fone y = fone;
  ex_0pow : forall y : F, fle y fzero = false -> fpow fzero y = fzero
}.

(** The tree without its [Cached] wrappers. *)
Fixpoint strip (n : node F) : node F :=
  match n with
  | Var _ | VarAdj _ _ | Const _ | ConstSpec _ => n
  | ConstAdj m t => ConstAdj (strip m) t
  | Cached m _ => strip m
  | Un u m => Un u (strip m)
  | Sum m => Sum (strip m)
  | Power l r => Power (strip l) (strip r)
  | Add l r => Add (strip l) (strip r)
  | Sub l r => Sub (strip l) (strip r)
  | Mul l r => Mul (strip l) (strip r)
  | Div l r => Div (strip l) (strip r)
  | Contract axes l r => Contract axes (strip l) (strip r)
  end.

(** Trees of variables, constant buffers, unary and elementwise binary operators and powers, in
    which no scalar stands to the left of an array of rank 2 or more. *)
Fixpoint elementwise (rho : ctx F) (n : node F) : Prop :=
  match n with
  | Var _ | Const _ => True
  | Un _ m => elementwise rho m
  | Power l r => elementwise rho l /\ elementwise rho r
  | Add l r | Sub l r | Mul l r | Div l r =>
      elementwise rho l /\ elementwise rho r /\ keeps_order (den un_fn rho l) (den un_fn rho r)
  | _ => False
  end.

(** The squared error of linear regression, README.md:51-55: [x.dot(w).sub(y).squared()]. *)
Definition sse (x w y : ident) : node F := Un Square (Sub (Contract 1 (Var x) (Var w)) (Var y)).

End Math.
Arguments exact F {S}.
