(** Partial derivatives of evaluation over the reals.  Specification side; nothing here models
    code. *)
From Coq Require Import List Arith ZArith Reals Bool.
Import ListNotations.
From Verif Require Import Base Shapes Scalar Buffers Spec Contraction Node Eval Types Instances
  Vocab Math Real_math.
Local Open Scope R_scope.

(** The buffer [v] with [h] added to its entry [j]. *)
Definition bump_value (j : list nat) (h : R) (v : value R) : value R :=
  build (bty_of v) (fun ix => vat 0 v ix + (if ix_eqb ix j then h else 0)).

(** The context [c] with [h] added to entry [j] of the variable [t]. *)
Definition bump (c : ctx R) (t : ident) (j : list nat) (h : R) : ctx R :=
  fun i => if Nat.eqb i t then option_map (bump_value j h) (c t) else c i.

(** The expression [n] and its adjoint [n'] with respect to [t] compile against the context type
    [G], [c] is a context of this type defining the variables used, and the tree contains
    no [Cached], no [Sum] of an array and no product of a vector with a non-square matrix. *)
Record posed (G : tenv) (c : ctx R) (t : ident) (n n' : node R) : Prop := {
  p_ctx : ctx_ok G c;
  p_def : forall i, uses n i \/ i = t -> c i <> None;
  p_wf : node_wf n;
  p_free : cache_free n = true;
  p_sums : scalar_sums G n;
  p_adj : adjoint n t = Some n';
  p_ty : typeof G n <> None;
  p_ty' : typeof G n' <> None;
  p_sq : square G n;
  p_sq' : square G n'
}.

Section Calculus.
Variable inf : R.
Variable sp : libfn -> R -> R.

(** Meaning of an expression over the reals (Math.v). *)
Definition rden (c : ctx R) (n : node R) : tensor R :=
  @den R (R_scalar inf sp) (real_un inf sp) c n.

(** Entry [i] of the value of [n] in [c]. *)
Definition entry (n : node R) (c : ctx R) (i : list nat) : R :=
  match snd (@evaluate R (R_scalar inf sp) n c) with Ok v => vat 0 v i | _ => 0 end.

(** Points where the unary operator is differentiable.  For the special functions this is stated
    through the derivatives the code relies on: (ln Gamma)' = digamma, Gamma' = digamma * Gamma. *)
Definition smooth_at (u : unop) (x : R) : Prop :=
  match u with
  | Sign | Abs => x <> 0
  | Ln | XLnX => 0 < x
  | Gamma => derivable_pt_lim (sp Lgamma) x (sp Ldigamma x * sp Lgamma x)
  | LogGamma => derivable_pt_lim (sp Lloggamma) x (sp Ldigamma x)
  | _ => True
  end.

Section At.
Variable c : ctx R.
Variable t : ident.

(** Value and dimensions of an expression at the point [c]. *)
Definition value_at (n : node R) (ix : list nat) : R := tat (rden c n) ix.
Definition dims_at (n : node R) : list nat := tdims (rden c n).
Definition target_dims : list nat := tdims (rden c (Var t)).

(** The partial derivative of entry [i] of [n] with respect to entry [j] of [t] is [d]. *)
Definition partial (n : node R) (i j : list nat) (d : R) : Prop :=
  derivable_pt_lim (fun h => tat (rden (bump c t j h) n) i) 0 d.

(** The Jacobian of a vector with respect to a vector is symmetric. *)
Definition symmetric (n : node R) : Prop :=
  forall p q d, in_box (dims_at n ++ target_dims) [p; q] -> partial n [p] [q] d -> partial n [q] [p] d.

(** The primitive operations of [n] are differentiable at [c]: no division by zero, unary
    operators at smooth points, powers of positive numbers (or constant integer powers, not both
    of base zero and exponent below two).  The conditions on contractions exclude the cases where
    the code puts the entries in another order (see C04_order_refuted). *)
Fixpoint smooth (n : node R) : Prop :=
  match n with
  | Var _ | VarAdj _ _ | Const _ => True
  | ConstSpec _ | ConstAdj _ _ | Cached _ _ => False
  | Un u m => smooth m /\ forall i, in_box (dims_at m) i -> smooth_at u (value_at m i)
  | Sum m => smooth m
  | Power b e => smooth b /\ smooth e /\
      (0 < value_at b [] \/
       contains e t = false /\
       exists z, value_at e [] = IZR z /\ (value_at b [] <> 0 \/ (2 <= z)%Z))
  | Add l r | Sub l r | Mul l r => smooth l /\ smooth r
  | Div l r => smooth l /\ smooth r /\ forall i, in_box (dims_at r) i -> value_at r i <> 0
  | Contract O l r => smooth l /\ smooth r /\
      (target_dims = [] \/ dims_at r = [] \/ contains l t = false)
  | Contract _ l r => smooth l /\ smooth r /\
      (target_dims = [] \/ symmetric l)
  end.

End At.
End Calculus.
