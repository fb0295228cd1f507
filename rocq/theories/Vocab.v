(** Vocabulary of the theorem statements: well-formedness, syntactic predicates and index
    arithmetic.  Nothing here models code; nothing here is used by the model. *)
From Coq Require Import List Arith NArith Bool.
Import ListNotations.
From Verif Require Import Base Shapes MultiProduct Scalar Buffers Spec Contraction Node Eval Types.

(** [in_box ds ix]: [ix] has one component per dimension, each within range. *)
Definition in_box (ds ix : list nat) : Prop := Forall2 (fun i d => i < d) ix ds.

(** Row-major (lexicographic) order of indices. *)
Fixpoint lexlt (a b : list nat) : Prop :=
  match a, b with
  | x :: a', y :: b' => x < y \/ (x = y /\ lexlt a' b')
  | _, _ => False
  end.

(** The iterator of a runtime shape after [k] calls of [next]. *)
Fixpoint mp_run (k : nat) (ms : multiproduct) : multiproduct :=
  match k with 0 => ms | S k' => mp_run k' (fst (mp_next ms)) end.

(** The numbers a size hint allows, and the hints of bounds that fit in usize, in order. *)
Definition allows (h : size_hint_t) (n : N) : Prop :=
  (fst h <= n)%N /\ match snd h with Some u => (n <= u)%N | None => True end.
Definition hint_ok (h : size_hint_t) : Prop :=
  (fst h <= 2 ^ 64 - 1)%N /\
  match snd h with Some u => (fst h <= u <= 2 ^ 64 - 1)%N | None => True end.

(** Well-formed arrays: nesting and lengths match the dimensions. *)
Fixpoint arr_wf {F} (ds : list nat) (a : arr F) : Prop :=
  match ds, a with
  | [], AF _ => True
  | d :: ds', AN l => length l = d /\ Forall (arr_wf ds') l
  | _, _ => False
  end.

(** Well-formed buffers: the values Rust can build (arrays of rank 1 to 5). *)
Definition vwf {F} (v : value F) : Prop :=
  match v with
  | VArr ds a => arr_wf ds a /\ 1 <= length ds <= 5
  | _ => True
  end.

(** Buffer types that exist in Rust. *)
Definition bty_wf (t : bty) : Prop :=
  match t with TA ds => 1 <= length ds <= 5 | _ => True end.

(** Element of a buffer at an index ([d] outside). *)
Definition vat {F} (d : F) (v : value F) (ix : list nat) : F :=
  match v with
  | VScal x => x
  | VTup x y => match ix with [0] => x | [1] => y | _ => d end
  | VVec l => match ix with [i] => nth i l d | _ => d end
  | VArr _ a => match arr_get ix a with Some x => x | None => d end
  end.

(** Dimensions of a buffer type. *)
Definition tdims_of (t : bty) : list nat := dims (bty_shape t).

(** Well-formed specs. *)
Definition spec_wf {F} (s : spec F) : Prop :=
  match s with Raw v => vwf v | Full t _ => bty_wf t | Diagonal t _ => bty_wf t end.

(** Constants in the tree are values Rust can build. *)
Fixpoint node_wf {F} (n : node F) : Prop :=
  match n with
  | Var _ | VarAdj _ _ => True
  | Const v => vwf v
  | ConstSpec s => spec_wf s
  | ConstAdj m _ | Cached m _ | Un _ m | Sum m => node_wf m
  | Power l r | Add l r | Sub l r | Mul l r | Div l r | Contract _ l r => node_wf l /\ node_wf r
  end.

(** All buffers in the context are values Rust can build. *)
Definition ctx_wf {F} (c : ctx F) : Prop := forall i v, c i = Some v -> vwf v.

(** The context is an instance of the context type [G]. *)
Definition ctx_ok {F} (G : tenv) (c : ctx F) : Prop :=
  forall i v, c i = Some v -> vwf v /\ G i = Some (sty_of (bty_of v)).

(** Trees of the form [Un .. (Un (Sum _))]. *)
Fixpoint sum_spine {F} (n : node F) : bool :=
  match n with Sum _ => true | Un _ m => sum_spine m | _ => false end.

(** Identifiers used as cache keys. *)
Fixpoint is_key {F} (n : node F) (k : ident) : bool :=
  match n with
  | Var _ | VarAdj _ _ | Const _ | ConstSpec _ => false
  | ConstAdj m _ => is_key m k
  | Cached m c => ident_eqb k c || is_key m k
  | Un _ m | Sum m => is_key m k
  | Power l r | Add l r | Sub l r | Mul l r | Div l r | Contract _ l r =>
      is_key l k || is_key r k
  end.

(** [occurs i n]: the identifier [i] is written somewhere in the tree [n]: as a variable, as the
    target of an adjoint or as a cache key. *)
Inductive occurs {F} (i : ident) : node F -> Prop :=
| occ_var : occurs i (Var i)
| occ_adj1 t : occurs i (VarAdj i t)
| occ_adj2 j : occurs i (VarAdj j i)
| occ_cadj1 m t : occurs i m -> occurs i (ConstAdj m t)
| occ_cadj2 m : occurs i (ConstAdj m i)
| occ_key m : occurs i (Cached m i)
| occ_cached m k : occurs i m -> occurs i (Cached m k)
| occ_un u m : occurs i m -> occurs i (Un u m)
| occ_sum m : occurs i m -> occurs i (Sum m)
| occ_pow1 l r : occurs i l -> occurs i (Power l r)
| occ_pow2 l r : occurs i r -> occurs i (Power l r)
| occ_add1 l r : occurs i l -> occurs i (Add l r)
| occ_add2 l r : occurs i r -> occurs i (Add l r)
| occ_sub1 l r : occurs i l -> occurs i (Sub l r)
| occ_sub2 l r : occurs i r -> occurs i (Sub l r)
| occ_mul1 l r : occurs i l -> occurs i (Mul l r)
| occ_mul2 l r : occurs i r -> occurs i (Mul l r)
| occ_div1 l r : occurs i l -> occurs i (Div l r)
| occ_div2 l r : occurs i r -> occurs i (Div l r)
| occ_con1 a l r : occurs i l -> occurs i (Contract a l r)
| occ_con2 a l r : occurs i r -> occurs i (Contract a l r).

(** Trees without [Cached]. *)
Fixpoint cache_free {F} (n : node F) : bool :=
  match n with
  | Var _ | VarAdj _ _ | Const _ | ConstSpec _ => true
  | ConstAdj m _ => cache_free m
  | Cached _ _ => false
  | Un _ m | Sum m => cache_free m
  | Power l r | Add l r | Sub l r | Mul l r | Div l r | Contract _ l r =>
      cache_free l && cache_free r
  end.

(** No [Cached] below a [Sum] or [Power] (whose shape query does not visit its operands). *)
Fixpoint shape_pure {F} (n : node F) : bool :=
  match n with
  | Var _ | VarAdj _ _ | Const _ | ConstSpec _ | ConstAdj _ _ | Cached _ _ => true
  | Un _ m => shape_pure m
  | Sum m => cache_free m
  | Power l r => cache_free l && cache_free r
  | Add l r | Sub l r | Mul l r | Div l r | Contract _ l r => shape_pure l && shape_pure r
  end.

(** Identifiers the tree reads other than as cache keys. *)
Fixpoint uses {F} (n : node F) (i : ident) : Prop :=
  match n with
  | Var j => i = j
  | VarAdj j t => i = j \/ i = t
  | Const _ | ConstSpec _ => False
  | ConstAdj m t => uses m i \/ i = t
  | Cached m _ | Un _ m | Sum m => uses m i
  | Power l r | Add l r | Sub l r | Mul l r | Div l r | Contract _ l r => uses l i \/ uses r i
  end.

(** The errors that undefined identifiers would cause, in evaluation order: one entry per read,
    wrapped in the path from the root to the reading leaf.  [sreads] is the same for the shape
    query, which does not look below [Sum] and [Power].  For trees without [Cached]. *)
Fixpoint sreads {F} (n : node F) : list err :=
  match n with
  | Var i => [Undefined i]
  | VarAdj i t => [ELeft (Undefined i); ERight (Undefined t)]
  | Const _ | ConstSpec _ | Sum _ | Power _ _ | Cached _ _ => []
  | ConstAdj m t => map ELeft (sreads m) ++ [ERight (Undefined t)]
  | Un _ m => sreads m
  | Add l r | Sub l r | Mul l r | Div l r | Contract _ l r =>
      map ELeft (sreads l) ++ map ERight (sreads r)
  end.
Fixpoint reads {F} (n : node F) : list err :=
  match n with
  | Var i => [Undefined i]
  | VarAdj i t => [ELeft (Undefined i); ERight (Undefined t)]
  | Const _ | ConstSpec _ | Cached _ _ => []
  | ConstAdj m t => map ELeft (sreads m) ++ [ERight (Undefined t)]
  | Un _ m | Sum m => reads m
  | Power l r | Add l r | Sub l r | Mul l r | Div l r | Contract _ l r =>
      map ELeft (reads l) ++ map ERight (reads r)
  end.

(** The identifier an error is about, if it is an undefined-variable error. *)
Fixpoint err_ident (e : err) : option ident :=
  match e with
  | Undefined i => Some i
  | ELeft e' | ERight e' => err_ident e'
  | EOutput _ => None
  end.

(** The error is about an identifier undefined in [c]. *)
Definition undef_in {F} (c : ctx F) (e : err) : bool :=
  match err_ident e with
  | Some i => match c i with None => true | Some _ => false end
  | None => false
  end.

(** No [Vec] buffers among the variables and constants of the tree. *)
Fixpoint novec {F} (G : tenv) (n : node F) : Prop :=
  match n with
  | Var i => G i <> Some KV
  | VarAdj _ _ => True
  | Const v => sty_of (bty_of v) <> KV
  | ConstSpec s => sty_of (spec_bty s) <> KV
  | ConstAdj m _ | Cached m _ | Un _ m | Sum m => novec G m
  | Power l r | Add l r | Sub l r | Mul l r | Div l r | Contract _ l r => novec G l /\ novec G r
  end.

(** Every matrix-vector and vector-matrix product in the tree is with a square matrix. *)
Definition square_sty (axes : nat) (l r : sty) : Prop :=
  match axes, l, r with
  | 1, KA [n; m], KA [_] => n = m
  | 1, KA [_], KA [n; m] => n = m
  | _, _, _ => True
  end.
Fixpoint square {F} (G : tenv) (n : node F) : Prop :=
  match n with
  | Var _ | VarAdj _ _ | Const _ | ConstSpec _ => True
  | ConstAdj m _ | Cached m _ | Un _ m | Sum m => square G m
  | Power l r | Add l r | Sub l r | Mul l r | Div l r => square G l /\ square G r
  | Contract axes l r =>
      square G l /\ square G r /\
      forall kl kr, typeof G l = Some kl -> typeof G r = Some kr -> square_sty axes kl kr
  end.

(** [from_usize n * x] is [0 + x + ... + x] ([n] times): true in rings, not of floats. *)
Definition sum_law {F} {S : Scalar F} : Prop :=
  forall n x, exists k, fof_usize n = Some k /\
    fmul k x = fold_left (fun a _ => fadd a x) (seq 0 n) fzero.

(** [FromPrimitive::from_usize] never fails (true of f32/f64, false of u8 ...). *)
Definition fof_total {F} {S : Scalar F} : Prop := forall k, fof_usize k <> None.

(** The three ways to evaluate a node, and the context after evaluating one node in one of them. *)
Inductive mode : Type := MEval | MSpec | MShape.
Definition run1 {F} {S : Scalar F} (c : ctx F) (p : mode * node F) : ctx F :=
  match fst p with
  | MEval => fst (evaluate (snd p) c)
  | MSpec => fst (evaluate_spec (snd p) c)
  | MShape => fst (evaluate_shape (snd p) c)
  end.

(** No [Sum] in the tree; every [Sum] in the tree is of a scalar. *)
Fixpoint sum_free {F} (n : node F) : bool :=
  match n with
  | Var _ | VarAdj _ _ | Const _ | ConstSpec _ => true
  | Sum _ => false
  | ConstAdj m _ | Cached m _ | Un _ m => sum_free m
  | Power l r | Add l r | Sub l r | Mul l r | Div l r | Contract _ l r => sum_free l && sum_free r
  end.
Fixpoint scalar_sums {F} (G : tenv) (n : node F) : Prop :=
  match n with
  | Var _ | VarAdj _ _ | Const _ | ConstSpec _ => True
  | Sum m => typeof G m = Some KS /\ scalar_sums G m
  | ConstAdj m _ | Cached m _ | Un _ m => scalar_sums G m
  | Power l r | Add l r | Sub l r | Mul l r | Div l r | Contract _ l r =>
      scalar_sums G l /\ scalar_sums G r
  end.

(** [t] is a variable of the expression, or the key of one of its caches; occurrences in adjoints of
    variables do not count. *)
Fixpoint varies {F} (n : node F) (t : ident) : bool :=
  match n with
  | Var i => ident_eqb i t
  | VarAdj _ _ | Const _ | ConstSpec _ | ConstAdj _ _ => false
  | Cached m c => ident_eqb t c || varies m t
  | Un _ m | Sum m => varies m t
  | Power l r | Add l r | Sub l r | Mul l r | Div l r | Contract _ l r => varies l t || varies r t
  end.

(** No quotient in the tree has a zero denominator and no logarithm a zero argument. *)
Definition no_zero {F} {S : Scalar F} (c : ctx F) (n : node F) : Prop :=
  forall v, snd (evaluate n c) = Ok v ->
    forall ix, in_box (dims (vshape v)) ix -> vat fzero v ix <> fzero.
Fixpoint quotients_ok {F} {S : Scalar F} (c : ctx F) (n : node F) : Prop :=
  match n with
  | Var _ | VarAdj _ _ | Const _ | ConstSpec _ => True
  | Un Ln m => quotients_ok c m /\ no_zero c m
  | ConstAdj m _ | Cached m _ | Un _ m | Sum m => quotients_ok c m
  | Power l r | Add l r | Sub l r | Mul l r | Contract _ l r => quotients_ok c l /\ quotients_ok c r
  | Div l r => quotients_ok c l /\ quotients_ok c r /\ no_zero c r
  end.

(** A constant, or the adjoint of a variable or of a constant, stands in the tree outside the
    operand of a [ConstAdj]. *)
Fixpoint has_const {F} (n : node F) : bool :=
  match n with
  | Var _ => false
  | VarAdj _ _ | Const _ | ConstSpec _ | ConstAdj _ _ => true
  | Cached m _ | Un _ m | Sum m => has_const m
  | Power l r | Add l r | Sub l r | Mul l r | Div l r | Contract _ l r => has_const l || has_const r
  end.

(** Number of operators and leaves of an expression, and the length of its longest branch. *)
Fixpoint nodes {F} (n : node F) : nat :=
  match n with
  | Var _ | VarAdj _ _ | Const _ | ConstSpec _ => 1
  | ConstAdj m _ | Cached m _ | Un _ m | Sum m => 1 + nodes m
  | Power l r | Add l r | Sub l r | Mul l r | Div l r | Contract _ l r => 1 + nodes l + nodes r
  end.
Fixpoint height {F} (n : node F) : nat :=
  match n with
  | Var _ | VarAdj _ _ | Const _ | ConstSpec _ => 1
  | ConstAdj m _ | Cached m _ | Un _ m | Sum m => 1 + height m
  | Power l r | Add l r | Sub l r | Mul l r | Div l r | Contract _ l r =>
      1 + Nat.max (height l) (height r)
  end.

(** A variable multiplied with itself [k] times: [x * x * ... * x]. *)
Fixpoint product_chain {F} (x : ident) (k : nat) : node F :=
  match k with 0 => Var x | S k => Mul (product_chain x k) (Var x) end.
