(** What expressions on plain buffers mean operation by operation, without any law on the scalars:
    which operands each operation receives and in which order sums are taken.  This is the
    specification side; nothing here models code. *)
From Coq Require Import List Arith Bool.
Import ListNotations.
From Verif Require Import Base Shapes Scalar Buffers Spec Contraction Node Eval Types Vocab Math.

Section CodeMath.
Context {F : Type} {S : Scalar F}.

(** Pointwise, with the operands exchanged when a scalar meets an array of rank 2 or more. *)
Definition crossed (f : F -> F -> F) (a b : tensor F) : tensor F :=
  match tdims a, tdims b with
  | [], _ :: _ :: _ => pointwise (fun x y => f y x) a b
  | _, _ => pointwise f a b
  end.

(** Outer product; a scalar on the left is multiplied from the right. *)
Definition outer_steps (a b : tensor F) : tensor F :=
  match tdims a with
  | [] => Tensor (tdims b) (fun ix => fmul (tat b ix) (tat a []))
  | _ => outer a b
  end.

(** Inner product; sums start at zero and run upwards.  A matrix of [n] rows and [m] columns
    against a vector of length [n], on either side: the leading [m] by [m] block. *)
Definition inner_steps (a b : tensor F) : tensor F :=
  match tdims a, tdims b with
  | [n; m], [_] =>
      Tensor [m] (fun ix => sum_over (seq 0 m)
                              (fun k => fmul (tat a [nth 0 ix 0; k]) (tat b [k])))
  | [_], [n; m] =>
      Tensor [m] (fun ix => sum_over (seq 0 m)
                              (fun k => fmul (tat a [k]) (tat b [k; nth 0 ix 0])))
  | _, _ => inner a b
  end.

(** The operations as written, for given values [rho] of the variables. *)
Fixpoint steps (rho : ctx F) (n : node F) : tensor F :=
  match n with
  | Var i => var_tensor rho i
  | Const v => tensor_of v
  | Un u m => Tensor (tdims (steps rho m)) (fun ix => un_fn u (tat (steps rho m) ix))
  | Sum m => Tensor [] (fun _ => sum_over (all_ix (tdims (steps rho m))) (tat (steps rho m)))
  | Power b e => Tensor [] (fun _ => fpow (tat (steps rho b) []) (tat (steps rho e) []))
  | Add l r => crossed fadd (steps rho l) (steps rho r)
  | Sub l r => crossed fsub (steps rho l) (steps rho r)
  | Mul l r => crossed fmul (steps rho l) (steps rho r)
  | Div l r => crossed fdiv (steps rho l) (steps rho r)
  | Contract 0 l r => outer_steps (steps rho l) (steps rho r)
  | Contract _ l r => inner_steps (steps rho l) (steps rho r)
  | VarAdj _ _ | ConstSpec _ | ConstAdj _ _ | Cached _ _ => Tensor [] (fun _ => fzero)
  end.

(** Trees of variables, constant buffers and operators, without adjoints, specs or caches and
    without contractions of two scalars. *)
Fixpoint written (rho : ctx F) (n : node F) : Prop :=
  match n with
  | Var _ | Const _ => True
  | Un _ m | Sum m => written rho m
  | Power l r | Add l r | Sub l r | Mul l r | Div l r => written rho l /\ written rho r
  | Contract _ l r =>
      written rho l /\ written rho r /\
      (tdims (steps rho l) <> [] \/ tdims (steps rho r) <> [])
  | VarAdj _ _ | ConstSpec _ | ConstAdj _ _ | Cached _ _ => False
  end.

(** Trees with caches on plain buffers.  [P k] is the program, without caches, whose value the
    identifier [k] is reserved for, and [None] for the other identifiers.  Every [Cached] node
    wraps the program of its key, and keys are used for nothing else. *)
Fixpoint caches (rho : ctx F) (P : ident -> option (node F)) (n : node F) : Prop :=
  match n with
  | Var i => P i = None
  | VarAdj i t => P i = None /\ P t = None
  | Const _ | ConstSpec _ => True
  | ConstAdj m t => caches rho P m /\ strip m = m /\ P t = None
  | Cached m k => caches rho P m /\ P k = Some (strip m) /\ written rho (strip m)
  | Un _ m | Sum m => caches rho P m
  | Power l r | Add l r | Sub l r | Mul l r | Div l r | Contract _ l r =>
      caches rho P l /\ caches rho P r
  end.

(** Contexts reached from [rho] by filling keys: each is empty or holds the outcome of its
    program in [rho]. *)
Definition filled (rho : ctx F) (P : ident -> option (node F)) (c : ctx F) : Prop :=
  forall i, match P i with
            | None => c i = rho i
            | Some m => forall v, c i = Some v -> snd (evaluate m rho) = Ok v
            end.

(** Failures: a returned error or a panic. *)
Inductive fault : Type := Returns (e : err) | Panics.
Definition through (w : err -> err) (f : fault) : fault :=
  match f with Returns e => Returns (w e) | Panics => Panics end.

(** The first failure of the left operand, else of the right one, else of the operation. *)
Definition in_order (l r out : option fault) : option fault :=
  match l, r with
  | Some f, _ => Some (through ELeft f)
  | None, Some f => Some (through ERight f)
  | None, None => out
  end.

(** Elementwise operations need equal dimensions, unless one side is a scalar; a matrix against
    a vector must not have more columns than rows. *)
Definition same_dims (a b : tensor F) : bool :=
  match tdims a, tdims b with [], _ | _, [] => true | x, y => dims_eqb x y end.
Definition too_wide (a b : tensor F) : bool :=
  match tdims a, tdims b with
  | [n; m], [_] | [_], [n; m] => n <? m
  | _, _ => false
  end.

(** What goes wrong, if anything: an undefined variable, lengths that differ under [+ - *] (a
    panic) or under [/] (an error with both shapes), a product with a wide matrix (a panic). *)
Fixpoint fault_of (rho : ctx F) (n : node F) : option fault :=
  match n with
  | Var i => match rho i with Some _ => None | None => Some (Returns (Undefined i)) end
  | Un _ m | Sum m => fault_of rho m
  | Power l r => in_order (fault_of rho l) (fault_of rho r) None
  | Add l r | Sub l r | Mul l r =>
      in_order (fault_of rho l) (fault_of rho r)
        (if same_dims (steps rho l) (steps rho r) then None else Some Panics)
  | Div l r =>
      in_order (fault_of rho l) (fault_of rho r)
        (if same_dims (steps rho l) (steps rho r) then None
         else Some (Returns (EOutput (Incompat (Dy (tdims (steps rho l)))
                                               (Dy (tdims (steps rho r)))))))
  | Contract axes l r =>
      in_order (fault_of rho l) (fault_of rho r)
        (if Nat.eqb axes 1 && too_wide (steps rho l) (steps rho r) then Some Panics else None)
  | Const _ | VarAdj _ _ | ConstSpec _ | ConstAdj _ _ | Cached _ _ => None
  end.

(** As [written], with the types in place of the dimensions. *)
Fixpoint written_typed (G : tenv) (n : node F) : Prop :=
  match n with
  | Var _ | Const _ => True
  | Un _ m | Sum m => written_typed G m
  | Power l r | Add l r | Sub l r | Mul l r | Div l r => written_typed G l /\ written_typed G r
  | Contract _ l r =>
      written_typed G l /\ written_typed G r /\ ~ (typeof G l = Some KS /\ typeof G r = Some KS)
  | VarAdj _ _ | ConstSpec _ | ConstAdj _ _ | Cached _ _ => False
  end.

(** Trees without quotients, logarithms and contractions, on plain buffers. *)
Fixpoint no_quotients (n : node F) : Prop :=
  match n with
  | Var _ | Const _ => True
  | Un u m => u <> Ln /\ no_quotients m
  | Sum m => no_quotients m
  | Power l r | Add l r | Sub l r | Mul l r => no_quotients l /\ no_quotients r
  | Div _ _ | Contract _ _ _ | VarAdj _ _ | ConstSpec _ | ConstAdj _ _ | Cached _ _ => False
  end.

(** Zeros stay zeros under sums, differences, negation and doubling. *)
Record zeros_closed : Prop := {
  zc_zero : is_zero (fzero : F) = true;
  zc_add : forall x y : F, is_zero x = true -> is_zero y = true -> is_zero (fadd x y) = true;
  zc_sub : forall x y : F, is_zero x = true -> is_zero y = true -> is_zero (fsub x y) = true;
  zc_neg : forall x : F, is_zero x = true -> is_zero (fneg x) = true;
  zc_two : forall x : F, is_zero x = true -> is_zero (fmul ftwo x) = true
}.

End CodeMath.
Arguments zeros_closed F {S}.
