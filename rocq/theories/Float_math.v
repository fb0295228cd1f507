(** Numerical equality of floats and of buffers of them, and rounding.  Specification side; nothing here
    models code. *)
From Coq Require Import List Arith ZArith Reals SpecFloat.
Import ListNotations.
From Verif Require Import Base Shapes Scalar Buffers Spec Contraction Node Eval Instances
  Vocab Math Real_math Code_math.

(** Equal bit patterns, or numerically equal (plus and minus zero). *)
Definition num_eq (a b : f64) : Prop := a = b \/ SFeqb a b = true.
Definition finite (a : f64) : Prop :=
  match a with S754_zero _ | S754_finite _ _ _ => True | _ => False end.

Section FloatMath.
Context {S : Scalar f64}.

(** [s] holds [op] applied entry by entry to [x] and [y], up to the sign of zero. *)
Definition computes (op : f64 -> f64 -> f64) (x y s : spec f64) : Prop :=
  tdims_of (spec_bty s) = tdims (pointwise op (tensor_of_spec x) (tensor_of_spec y)) /\
  forall ix, in_box (tdims_of (spec_bty s)) ix ->
    num_eq (tat (tensor_of_spec s) ix)
           (tat (pointwise op (tensor_of_spec x) (tensor_of_spec y)) ix).

(** No entry is infinite or NaN. *)
Definition all_finite (x : spec f64) : Prop :=
  forall ix, in_box (tdims_of (spec_bty x)) ix -> finite (tat (tensor_of_spec x) ix).

End FloatMath.

(** The number a float stands for (zero for infinities and NaN), and the floats of a format: at most
    [prec] significant bits (53 for f64, 24 for f32), exponents in range. *)
Definition f64_real (x : f64) : R :=
  match x with
  | S754_finite s m e => ((if s then -1 else 1) * IZR (Zpos m) * powerRZ 2 e)%R
  | _ => 0%R
  end.
Definition float_valid (prec emax : Z) (x : f64) : Prop := valid_binary prec emax x = true.
Definition f64_valid : f64 -> Prop := float_valid 53 1024.
Definition f32_valid : f64 -> Prop := float_valid 24 128.

(** The same expression and the same inputs with every number replaced through [g]. *)
Definition spec_through {A B} (g : A -> B) (s : spec A) : spec B :=
  match s with
  | Raw v => Raw (vmap g v)
  | Full t x => Full t (g x)
  | Diagonal t x => Diagonal t (g x)
  end.
Fixpoint node_through {A B} (g : A -> B) (n : node A) : node B :=
  match n with
  | Var i => Var i
  | VarAdj i t => VarAdj i t
  | Const v => Const (vmap g v)
  | ConstSpec s => ConstSpec (spec_through g s)
  | ConstAdj m t => ConstAdj (node_through g m) t
  | Cached m k => Cached (node_through g m) k
  | Un u m => Un u (node_through g m)
  | Sum m => Sum (node_through g m)
  | Power b e => Power (node_through g b) (node_through g e)
  | Add l r => Add (node_through g l) (node_through g r)
  | Sub l r => Sub (node_through g l) (node_through g r)
  | Mul l r => Mul (node_through g l) (node_through g r)
  | Div l r => Div (node_through g l) (node_through g r)
  | Contract a l r => Contract a (node_through g l) (node_through g r)
  end.
Definition ctx_through {A B} (g : A -> B) (c : ctx A) : ctx B :=
  fun i => option_map (vmap g) (c i).

(** Magnitudes: the real numbers with subtraction replaced by addition and without signs. *)
Definition size_scalar : Scalar R := {|
  fzero := 0; fone := 1; finf := 0;
  fadd := Rplus; fsub := Rplus; fmul := Rmult; fdiv := Rdiv; fpow := R_pow;
  fneg := fun x => x; fabs := Rabs; fsignum := fun _ => 1;
  flib := fun _ x => x;
  feq := R_eqb; fle := R_leb; fof_usize := fun n => Some (INR n)
|}%R.

(** The exact real value of the expression on the numbers given, and its magnitude: the exact
    value of the same expression with all signs made positive. *)
Definition real_value (inf : R) (sp : libfn -> R -> R) (c : ctx f64) (n : node f64) : tensor R :=
  @steps R (R_scalar inf sp) (ctx_through f64_real c) (node_through f64_real n).
Definition magnitude (c : ctx f64) (n : node f64) : tensor R :=
  let g := fun x => Rabs (f64_real x) in
  @steps R size_scalar (ctx_through g c) (node_through g n).

(** Expressions built with the operations of a ring and absolute values. *)
Fixpoint arithmetic {F} (n : node F) : Prop :=
  match n with
  | Var _ | Const _ => True
  | Un (SubOne | OneSub | AddOne | Double | Negate | Abs | Rabbit) m | Sum m => arithmetic m
  | Add l r | Sub l r | Mul l r => arithmetic l /\ arithmetic r
  | Contract _ l r => arithmetic l /\ arithmetic r
  | _ => False
  end.

(** Expressions that add, multiply and divide, but do not subtract or negate. *)
Fixpoint subtraction_free {F} (n : node F) : Prop :=
  match n with
  | Var _ | Const _ => True
  | Un (AddOne | Double | Abs) m | Sum m => subtraction_free m
  | Add l r | Mul l r | Div l r | Contract _ l r => subtraction_free l /\ subtraction_free r
  | _ => False
  end.

(** A property of all numbers put in: the constants of the expression and the variables. *)
Definition entries_all {A} (P : A -> Prop) (v : value A) : Prop :=
  forall d ix, in_box (dims (vshape v)) ix -> P (vat d v ix).
Fixpoint constants_all {A} (P : A -> Prop) (n : node A) : Prop :=
  match n with
  | Const v => entries_all P v
  | Un _ m | Sum m | Cached m _ | ConstAdj m _ => constants_all P m
  | Power l r | Add l r | Sub l r | Mul l r | Div l r | Contract _ l r =>
      constants_all P l /\ constants_all P r
  | Var _ | VarAdj _ _ | ConstSpec _ => True
  end.
Definition inputs_all {A} (P : A -> Prop) (c : ctx A) (n : node A) : Prop :=
  (forall i v, c i = Some v -> entries_all P v) /\ constants_all P n.

Section Rounding.
Context {S : Scalar f64}.
Variable c : ctx f64.

(** Number of terms of each sum in an inner product. *)
Definition depth (a b : tensor f64) : nat :=
  match tdims a, tdims b with
  | [_; m], [_] | [_], [_; m] => m
  | x, _ => last x 0
  end.

(** An upper bound on the number of roundings on the way from an input to an entry. *)
Fixpoint roundings (n : node f64) : nat :=
  match n with
  | Un (SubOne | OneSub | AddOne) m => 1 + roundings m
  | Un Rabbit m => 2 + roundings m + roundings m
  | Un _ m => roundings m
  | Sum m => roundings m + (length (all_ix (tdims (steps c m))) - 1)
  | Add l r | Sub l r => 1 + Nat.max (roundings l) (roundings r)
  | Mul l r | Div l r | Contract 0 l r => 1 + roundings l + roundings r
  | Contract _ l r => roundings l + roundings r + depth (steps c l) (steps c r)
  | _ => 0
  end.

(** Underflow, in the format with exponents below [emax]. *)
Variable emax : Z.

(** Products that are zero or at least as large as the smallest normal number. *)
Definition normal_product_in (x y : f64) : Prop :=
  (f64_real x * f64_real y = 0 \/ / 2 ^ Z.to_nat (emax - 2) <= Rabs (f64_real x * f64_real y))%R.

(** Divisors that are finite and not zero, and quotients that are zero or at least as large as the
    smallest normal number ([f64_real] of an infinity or a NaN is zero). *)
Definition normal_quotient_in (x y : f64) : Prop :=
  (f64_real y <> 0 /\
   (f64_real x / f64_real y = 0 \/ / 2 ^ Z.to_nat (emax - 2) <= Rabs (f64_real x / f64_real y)))%R.

(** The dividend and the divisor at an entry: a scalar divided by an array of two or more axes is
    the one case in which the operands are exchanged. *)
Definition dividend_divisor (a b : tensor f64) (ix : list nat) : f64 * f64 :=
  match tdims a, tdims b with
  | [], _ :: _ :: _ => (at_bc b ix, at_bc a ix)
  | _, _ => (at_bc a ix, at_bc b ix)
  end.

(** No product and no quotient underflows, and no divisor is zero. *)
Fixpoint no_underflow_in (n : node f64) : Prop :=
  match n with
  | Un Rabbit m =>
      no_underflow_in m /\
      forall ix, in_box (tdims (steps c m)) ix ->
        normal_product_in (tat (steps c m) ix) (fsub fone (tat (steps c m) ix))
  | Un _ m | Sum m => no_underflow_in m
  | Add l r | Sub l r => no_underflow_in l /\ no_underflow_in r
  | Mul l r =>
      no_underflow_in l /\ no_underflow_in r /\
      forall ix, in_box (tdims (steps c n)) ix ->
        normal_product_in (at_bc (steps c l) ix) (at_bc (steps c r) ix)
  | Div l r =>
      no_underflow_in l /\ no_underflow_in r /\
      forall ix, in_box (tdims (steps c n)) ix ->
        let (x, y) := dividend_divisor (steps c l) (steps c r) ix in normal_quotient_in x y
  | Contract axes l r =>
      no_underflow_in l /\ no_underflow_in r /\
      forall ix jx, in_box (tdims (steps c l)) ix -> in_box (tdims (steps c r)) jx ->
        (axes = 0 \/ last ix 0 = hd 0 jx) ->
        normal_product_in (tat (steps c l) ix) (tat (steps c r) jx)
  | _ => True
  end.

End Rounding.
Definition normal_product : f64 -> f64 -> Prop := normal_product_in 1024.
Definition normal_quotient : f64 -> f64 -> Prop := normal_quotient_in 1024.
Definition no_underflow {S : Scalar f64} (c : ctx f64) : node f64 -> Prop := no_underflow_in c 1024.

(** Whole numbers, and magnitudes of at most [b] in every part of the expression. *)
Definition whole (x : f64) : Prop := finite x /\ exists z : Z, f64_real x = IZR z.
Fixpoint parts_within (b : R) (c : ctx f64) (n : node f64) : Prop :=
  (forall ix, in_box (tdims (magnitude c n)) ix -> (tat (magnitude c n) ix <= b)%R) /\
  match n with
  | Un _ m | Sum m => parts_within b c m
  | Power l r | Add l r | Sub l r | Mul l r | Div l r | Contract _ l r =>
      parts_within b c l /\ parts_within b c r
  | _ => True
  end.

(** Adjoints: expressions built with the operations of a ring, together with the nodes that stand
    for derivatives of variables and constants. *)
Fixpoint ring_tree {F} (n : node F) : Prop :=
  match n with
  | Var _ | VarAdj _ _ | Const _ => True
  | Un (SubOne | OneSub | AddOne | Double | Negate | Abs | Rabbit) m | ConstAdj m _ => ring_tree m
  | Add l r | Sub l r | Mul l r | Contract _ l r => ring_tree l /\ ring_tree r
  | _ => False
  end.

(** The exact real value of such an expression, and its magnitude (all signs made positive). *)
Definition exact_value (inf : R) (sp : libfn -> R -> R) (c : ctx f64) (n : node f64) : tensor R :=
  @den R (R_scalar inf sp) (real_un inf sp) (ctx_through f64_real c) (node_through f64_real n).
Definition size_value (c : ctx f64) (n : node f64) : tensor R :=
  let g := fun x => Rabs (f64_real x) in
  @den R size_scalar (@un_fn R size_scalar) (ctx_through g c) (node_through g n).

Section Adjoints.
Context {S : Scalar f64}.
Variable c : ctx f64.

(** An upper bound on the number of roundings on the way to an entry. *)
Fixpoint adjoint_roundings (n : node f64) : nat :=
  match n with
  | Un (SubOne | OneSub | AddOne) m => 1 + adjoint_roundings m
  | Un Rabbit m => 2 + adjoint_roundings m + adjoint_roundings m
  | Un _ m => adjoint_roundings m
  | Add l r | Sub l r => 1 + Nat.max (adjoint_roundings l) (adjoint_roundings r)
  | Mul l r | Contract 0 l r => 1 + adjoint_roundings l + adjoint_roundings r
  | Contract _ l r =>
      2 + adjoint_roundings l + adjoint_roundings r + last (tdims (den un_fn c l)) 0
  | _ => 0
  end.

Variable emax : Z.
(** No product of two computed entries underflows. *)
Definition normal_products_in (Q : list nat -> list nat -> Prop) (l r : node f64) : Prop :=
  forall x y, snd (evaluate_spec l c) = Ok x -> snd (evaluate_spec r c) = Ok y ->
    forall ix jx, in_box (tdims (tensor_of_spec x)) ix -> in_box (tdims (tensor_of_spec y)) jx ->
      Q ix jx -> normal_product_in emax (tat (tensor_of_spec x) ix) (tat (tensor_of_spec y) jx).
Fixpoint no_tiny_product_in (n : node f64) : Prop :=
  match n with
  | Un Rabbit m => no_tiny_product_in m /\ normal_products_in eq m (Un OneSub m)
  | Un _ m => no_tiny_product_in m
  | Add l r | Sub l r => no_tiny_product_in l /\ no_tiny_product_in r
  | Mul l r =>
      no_tiny_product_in l /\ no_tiny_product_in r /\
      normal_products_in (fun ix jx => ix = [] \/ jx = [] \/ ix = jx) l r
  | Contract axes l r =>
      no_tiny_product_in l /\ no_tiny_product_in r /\
      normal_products_in (fun ix jx => axes = 0 \/ last ix 0 = hd 0 jx) l r
  | _ => True
  end.

End Adjoints.
Definition no_tiny_product {S : Scalar f64} (c : ctx f64) : node f64 -> Prop := no_tiny_product_in c 1024.

(** Two runs of one expression, on the inputs [c] and on the inputs [d]. *)
Section TwoRuns.
Context {S : Scalar f64}.
Variables c d : ctx f64.

(** The inputs of an expression are the same in both. *)
Fixpoint still (n : node f64) : Prop :=
  match n with
  | Var i => c i = d i
  | Const _ => True
  | Un _ m | Sum m => still m
  | Power l r | Add l r | Sub l r | Mul l r | Div l r | Contract _ l r => still l /\ still r
  | _ => False
  end.

(** Buffers with equal dimensions, the first one nowhere larger than the second. *)
Definition lower (a b : option (value f64)) : Prop :=
  match a, b with
  | Some v, Some w =>
      dims (vshape v) = dims (vshape w) /\
      forall ix, in_box (dims (vshape v)) ix ->
        (f64_real (vat f64_zero v ix) <= f64_real (vat f64_zero w ix))%R
  | _, _ => False
  end.

(** Signs of the computed entries of an expression. *)
Definition nonneg (b : ctx f64) (n : node f64) : Prop :=
  forall ix, in_box (tdims (steps b n)) ix -> (0 <= f64_real (tat (steps b n) ix))%R.
Definition positive (b : ctx f64) (n : node f64) : Prop :=
  forall ix, in_box (tdims (steps b n)) ix -> (0 < f64_real (tat (steps b n) ix))%R.
(** The run with the smaller values. *)
Definition low (up : bool) : ctx f64 := if up then c else d.
(** A scalar on the left of an array of two or more axes: the operands are exchanged. *)
Definition exchanged (l r : node f64) : bool :=
  match tdims (steps c l), tdims (steps c r) with [], _ :: _ :: _ => true | _, _ => false end.

(** The expression goes up ([up = true]) or down from [c] to [d], by the rules of signs. *)
Fixpoint goes (up : bool) (n : node f64) : Prop :=
  still n \/
  match n with
  | Var i => if up then lower (c i) (d i) else lower (d i) (c i)
  | Un (AddOne | SubOne | Double) m | Sum m => goes up m
  | Un Abs m => goes up m /\ nonneg (low up) m
  | Un (OneSub | Negate) m => goes (negb up) m
  | Add l r => goes up l /\ goes up r
  | Sub l r =>
      if exchanged l r then goes up r /\ goes (negb up) l else goes up l /\ goes (negb up) r
  | Mul l r | Contract _ l r =>
      (goes up l /\ nonneg (low up) l /\ goes up r /\ nonneg (low up) r) \/
      (still l /\ nonneg c l /\ goes up r) \/ (goes up l /\ still r /\ nonneg c r)
  | Div l r =>
      if exchanged l r
      then goes up r /\ goes (negb up) l /\ positive c l /\ positive d l /\ (nonneg (low up) r \/ still l)
      else goes up l /\ goes (negb up) r /\ positive c r /\ positive d r /\ (nonneg (low up) l \/ still r)
  | _ => False
  end.

End TwoRuns.

(** Expressions that add and multiply. *)
Fixpoint adds_multiplies {F} (n : node F) : Prop :=
  match n with
  | Var _ | Const _ => True
  | Un (AddOne | Double | Abs) m | Sum m => adds_multiplies m
  | Add l r | Mul l r | Contract _ l r => adds_multiplies l /\ adds_multiplies r
  | _ => False
  end.

(** Scaling by powers of two: variable [i] is scaled by [2 ^ w i]. *)
Section Scaling.
Context {S : Scalar f64}.
Variables (w : ident -> Z) (c : ctx f64).

(** The context [d] holds the numbers of [c], scaled exactly. *)
Definition scaled_inputs (d : ctx f64) : Prop :=
  forall i, match c i, d i with
            | Some v, Some u =>
                dims (vshape v) = dims (vshape u) /\
                forall ix, in_box (dims (vshape v)) ix ->
                  f64_real (vat f64_zero u ix) = (powerRZ 2 (w i) * f64_real (vat f64_zero v ix))%R
            | None, None => True
            | _, _ => False
            end.

(** The expression is homogeneous of degree [k]: its exact value is scaled by [2 ^ k]. *)
Fixpoint homogeneous (n : node f64) (k : Z) : Prop :=
  match n with
  | Var i => k = w i
  | Const _ => k = 0%Z
  | Un (Negate | Abs | Double) m | Sum m => homogeneous m k
  | Un (AddOne | SubOne | OneSub | Rabbit) m => k = 0%Z /\ homogeneous m 0
  | Add l r | Sub l r => homogeneous l k /\ homogeneous r k
  | Mul l r | Contract _ l r => exists a b, homogeneous l a /\ homogeneous r b /\ k = (a + b)%Z
  | Div l r =>
      exists a b, homogeneous l a /\ homogeneous r b /\
                  k = (if exchanged c l r then b - a else a - b)%Z
  | _ => False
  end.

End Scaling.
