(** Accuracy of evaluation in 64-bit floating point (properties C56 to C61, C72, C75 to C77). *)
From Coq Require Import List Arith ZArith Reals SpecFloat Lia Lra.
Import ListNotations.
From Verif Require Import Base Shapes Scalar Buffers Spec Contraction Node Eval Types Instances
  Vocab Math Real_math Calculus Code_math Float_math Float_claims Special_claims Calculus_claims
  Gradient_claims Regression_claims Positive_claims Overflow_claims
  Monotone_claims Scale_claims.
Local Open Scope R_scope.

(** C56.  Every finite entry returned for an expression built with the ring operations, sums,
    contractions and absolute values is within [(1 + 2^-53)^k - 1] times the magnitude of the
    expression from the exact value, [k] being the number of roundings on the way; the function
    [powf] and the library functions play no role. *)
Theorem C56_forward_error : forall (pow : f64 -> f64 -> f64) (lib : libfn -> f64 -> f64)
  (inf : R) (sp : libfn -> R -> R),
  let S := f64_scalar pow lib in
  forall (c c' : ctx f64) (n : node f64) (v : value f64) ix,
  ctx_wf c -> node_wf n -> written c n -> arithmetic n -> inputs_all f64_valid c n ->
  no_underflow c n -> evaluate n c = (c', Ok v) ->
  in_box (dims (vshape v)) ix -> finite (vat f64_zero v ix) ->
  Rabs (f64_real (vat f64_zero v ix) - tat (real_value inf sp c n) ix)
    <= ((1 + / 2 ^ 53) ^ roundings c n - 1) * tat (magnitude c n) ix.
Proof. exact forward_error. Qed.
Print Assumptions C56_forward_error.

(** The same with the usual closed form of the factor. *)
Theorem C56_gamma : forall (pow : f64 -> f64 -> f64) (lib : libfn -> f64 -> f64)
  (inf : R) (sp : libfn -> R -> R),
  let S := f64_scalar pow lib in
  forall (c c' : ctx f64) (n : node f64) (v : value f64) ix,
  ctx_wf c -> node_wf n -> written c n -> arithmetic n -> inputs_all f64_valid c n ->
  no_underflow c n -> evaluate n c = (c', Ok v) ->
  in_box (dims (vshape v)) ix -> finite (vat f64_zero v ix) ->
  INR (roundings c n) * / 2 ^ 53 < 1 ->
  Rabs (f64_real (vat f64_zero v ix) - tat (real_value inf sp c n) ix)
    <= INR (roundings c n) * / 2 ^ 53 / (1 - INR (roundings c n) * / 2 ^ 53)
       * tat (magnitude c n) ix.
Proof. exact forward_gamma. Qed.
Print Assumptions C56_gamma.

(** The sum of a vector, in plain terms: one rounding for each addition but the first. *)
Theorem C56_sum : forall (pow : f64 -> f64 -> f64) (lib : libfn -> f64 -> f64),
  let S := f64_scalar pow lib in
  forall (l : list f64) (c : ctx f64) i s,
  ctx_wf c -> (forall j v, c j = Some v -> entries_all f64_valid v) ->
  c i = Some (VVec l) -> evaluate (Sum (Var i)) c = (c, Ok (VScal s)) -> finite s ->
  Rabs (f64_real s - fold_right Rplus 0 (map f64_real l))
    <= ((1 + / 2 ^ 53) ^ (length l - 1) - 1)
       * fold_right Rplus 0 (map (fun x => Rabs (f64_real x)) l).
Proof. exact sum_error. Qed.
Print Assumptions C56_sum.

(** The scalar product of two vectors, in plain terms. *)
Theorem C56_dot : forall (pow : f64 -> f64 -> f64) (lib : libfn -> f64 -> f64),
  let S := f64_scalar pow lib in
  forall (xs ys : list f64) (c : ctx f64) i j s,
  ctx_wf c -> (forall k v, c k = Some v -> entries_all f64_valid v) ->
  c i = Some (VArr [length xs] (AN (map AF xs))) -> c j = Some (VArr [length xs] (AN (map AF ys))) ->
  length xs = length ys ->
  Forall (fun p => normal_product (fst p) (snd p)) (combine xs ys) ->
  evaluate (Contract 1 (Var i) (Var j)) c = (c, Ok (VScal s)) -> finite s ->
  Rabs (f64_real s - fold_right Rplus 0
                       (map (fun p => f64_real (fst p) * f64_real (snd p)) (combine xs ys)))
    <= ((1 + / 2 ^ 53) ^ length xs - 1) *
       fold_right Rplus 0
         (map (fun p => Rabs (f64_real (fst p)) * Rabs (f64_real (snd p))) (combine xs ys)).
Proof. exact dot_error. Qed.
Print Assumptions C56_dot.

(** C57.  On whole numbers, as long as no part of the expression exceeds [2^53] in magnitude,
    evaluation in f64 is exact: every entry is finite and equal to the exact value. *)
Theorem C57_whole_exact : forall (pow : f64 -> f64 -> f64) (lib : libfn -> f64 -> f64)
  (inf : R) (sp : libfn -> R -> R),
  let S := f64_scalar pow lib in
  forall (c c' : ctx f64) (n : node f64) (v : value f64) ix,
  ctx_wf c -> node_wf n -> written c n -> arithmetic n ->
  inputs_all (fun x => f64_valid x /\ whole x) c n -> parts_within (2 ^ 53) c n ->
  evaluate n c = (c', Ok v) -> in_box (dims (vshape v)) ix ->
  finite (vat f64_zero v ix) /\
  f64_real (vat f64_zero v ix) = tat (real_value inf sp c n) ix.
Proof. exact whole_exact. Qed.
Print Assumptions C57_whole_exact.

(** C58.  [Factorial::factorial(m)] is the gamma function one above each entry of [m], whatever the
    scalars. *)
Theorem C58_factorial : forall (F : Type) (SF : Scalar F) (m : node F) c c' v,
  vwf v -> evaluate m c = (c', Ok v) ->
  exists w, evaluate (factorial m) c = (c', Ok w) /\ vshape w = vshape v /\
    forall ix, in_box (dims (vshape v)) ix ->
      vat fzero w ix = flib Lgamma (fadd (vat fzero v ix) fone).
Proof. exact @factorial_claim. Qed.
Print Assumptions C58_factorial.

(** Over the reals, with a gamma function satisfying its functional equation, it is the factorial
    at every entry that is a natural number. *)
Theorem C58_factorial_real : forall (inf : R) (sp : libfn -> R -> R),
  let S := R_scalar inf sp in
  forall (m : node R) c c' v,
  sp Lgamma 1 = 1 -> (forall x, 1 <= x -> sp Lgamma (x + 1) = x * sp Lgamma x) ->
  vwf v -> evaluate m c = (c', Ok v) ->
  exists w, evaluate (factorial m) c = (c', Ok w) /\
    forall ix k, in_box (dims (vshape v)) ix -> vat 0 v ix = INR k -> vat 0 w ix = INR (fact k).
Proof. exact factorial_real. Qed.
Print Assumptions C58_factorial_real.

(** [Erfc::erfc(m)] is one minus the error function, whatever the scalars. *)
Theorem C58_erfc : forall (F : Type) (SF : Scalar F) (m : node F) c c' v,
  vwf v -> evaluate m c = (c', Ok v) ->
  exists w, evaluate (erfc m) c = (c', Ok w) /\ vshape w = vshape v /\
    forall ix, in_box (dims (vshape v)) ix ->
      vat fzero w ix = fsub fone (flib Lerf (vat fzero v ix)).
Proof. exact @erfc_claim. Qed.
Print Assumptions C58_erfc.

(** Over the reals an operator and its complement add up to one. *)
Theorem C58_erfc_real : forall (inf : R) (sp : libfn -> R -> R),
  let S := R_scalar inf sp in
  forall (m : node R) c c' v, vwf v -> evaluate m c = (c', Ok v) ->
  exists e w, evaluate (Un Erf m) c = (c', Ok e) /\ evaluate (erfc m) c = (c', Ok w) /\
    forall ix, in_box (dims (vshape v)) ix -> vat 0 e ix + vat 0 w ix = 1.
Proof. exact erfc_real. Qed.
Print Assumptions C58_erfc_real.

(** The documented equality [op == 1 - op.complement()] holds to the last bit in f64 at every entry
    where the error function is between a half and one ... *)
Theorem C58_erfc_f64 : forall (pow : f64 -> f64 -> f64) (lib : libfn -> f64 -> f64),
  let S := f64_scalar pow lib in
  forall (m : node f64) c c' v ix, vwf v -> evaluate m c = (c', Ok v) ->
  in_box (dims (vshape v)) ix ->
  f64_valid (lib Lerf (vat f64_zero v ix)) -> / 2 <= f64_real (lib Lerf (vat f64_zero v ix)) <= 1 ->
  exists e w, evaluate (Un Erf m) c = (c', Ok e) /\ evaluate (erfc m) c = (c', Ok w) /\
    vat f64_zero e ix = SFsub 53 1024 (f64_of_Z 1) (vat f64_zero w ix).
Proof. exact erfc_f64. Qed.
Print Assumptions C58_erfc_f64.

(** ... and fails at every entry where it is positive and at most [2^-54]: the complement is then
    one, and one minus it is zero. *)
Theorem C58_erfc_small : forall (pow : f64 -> f64 -> f64) (lib : libfn -> f64 -> f64),
  let S := f64_scalar pow lib in
  forall (m : node f64) c c' v ix, vwf v -> evaluate m c = (c', Ok v) ->
  in_box (dims (vshape v)) ix ->
  f64_valid (lib Lerf (vat f64_zero v ix)) ->
  0 < f64_real (lib Lerf (vat f64_zero v ix)) <= / 2 ^ 54 ->
  exists e w, evaluate (Un Erf m) c = (c', Ok e) /\ evaluate (erfc m) c = (c', Ok w) /\
    vat f64_zero w ix = f64_of_Z 1 /\
    SFsub 53 1024 (f64_of_Z 1) (vat f64_zero w ix) = f64_zero /\
    f64_real (vat f64_zero e ix) <> 0.
Proof. exact erfc_small64. Qed.
Print Assumptions C58_erfc_small.

(** C59.  The sigmoid in f64: whenever the exponential returns a number of [0, 1] at every number
    that is not positive, the sigmoid of everything but NaN (infinities included) is a number of
    [1/2, 1] or of [0, 1/2], on the correct side of a half. *)
Theorem C59_range : forall (pow : f64 -> f64 -> f64) (lib : libfn -> f64 -> f64),
  let S := f64_scalar pow lib in
  (forall z, f64_valid z -> SFleb z f64_zero = true ->
    f64_valid (lib Lexp z) /\ finite (lib Lexp z) /\ 0 <= f64_real (lib Lexp z) <= 1) ->
  forall x, f64_valid x -> x <> S754_nan ->
  f64_valid (sigmoid x) /\ finite (sigmoid x) /\
  (SFleb f64_zero x = true -> / 2 <= f64_real (sigmoid x) <= 1) /\
  (SFleb f64_zero x = false -> 0 <= f64_real (sigmoid x) <= / 2).
Proof. exact sigmoid_f64_range. Qed.
Print Assumptions C59_range.

(** The same for the entries of [m.sigmoid()]. *)
Theorem C59_node : forall (pow : f64 -> f64 -> f64) (lib : libfn -> f64 -> f64),
  let S := f64_scalar pow lib in
  (forall z, f64_valid z -> SFleb z f64_zero = true ->
    f64_valid (lib Lexp z) /\ finite (lib Lexp z) /\ 0 <= f64_real (lib Lexp z) <= 1) ->
  forall (m : node f64) c c' v, vwf v -> evaluate m c = (c', Ok v) ->
  (forall ix, in_box (dims (vshape v)) ix ->
    f64_valid (vat f64_zero v ix) /\ vat f64_zero v ix <> S754_nan) ->
  exists w, evaluate (Un Sigmoid m) c = (c', Ok w) /\ vshape w = vshape v /\
    forall ix, in_box (dims (vshape v)) ix ->
      finite (vat f64_zero w ix) /\ 0 <= f64_real (vat f64_zero w ix) <= 1.
Proof. exact sigmoid_node_range. Qed.
Print Assumptions C59_node.

(** Accuracy: with an exponential of relative error [h] at the one point where it is called, the
    relative error of the sigmoid is at most [(1 + u) / ((1 - u) (1 - h)) - 1], [u = 2^-53]; for
    negative [x] the exponential must not be below [2^-1021]. *)
Theorem C59_error : forall (pow : f64 -> f64 -> f64) (lib : libfn -> f64 -> f64),
  let S := f64_scalar pow lib in
  forall (h : R) x, 0 <= h < 1 -> f64_valid x -> finite x ->
  let z := if SFleb f64_zero x then SFopp x else x in
  let e := lib Lexp z in
  f64_valid e -> finite e -> f64_real e <= 1 ->
  Rabs (f64_real e - exp (f64_real z)) <= h * exp (f64_real z) ->
  (SFleb f64_zero x = false -> / 2 ^ 1021 <= f64_real e) ->
  Rabs (f64_real (sigmoid x) - / (1 + exp (- f64_real x)))
    <= ((1 + / 2 ^ 53) / ((1 - / 2 ^ 53) * (1 - h)) - 1) * / (1 + exp (- f64_real x)).
Proof. exact sigmoid_error. Qed.
Print Assumptions C59_error.

(** C60.  Gradients.  Any expression of ring operations, constants, variables and derivatives of
    variables is evaluated with an error of at most [(1 + 2^-53)^k - 1] times its magnitude, whatever
    short cuts the code takes for constant and diagonal intermediate results. *)
Theorem C60_tree_error : forall (pow : f64 -> f64 -> f64) (lib : libfn -> f64 -> f64)
  (inf : R) (sp : libfn -> R -> R),
  let S := f64_scalar pow lib in
  forall (c c' : ctx f64) (n : node f64) (v : value f64) ix,
  ctx_wf c -> node_wf n -> ring_tree n -> regular un_fn c n -> inputs_all f64_valid c n ->
  no_tiny_product c n -> evaluate n c = (c', Ok v) ->
  in_box (dims (vshape v)) ix -> finite (vat f64_zero v ix) ->
  Rabs (f64_real (vat f64_zero v ix) - tat (exact_value inf sp c n) ix)
    <= ((1 + / 2 ^ 53) ^ adjoint_roundings c n - 1) * tat (size_value c n) ix.
Proof. exact tree_error. Qed.
Print Assumptions C60_tree_error.

(** So the gradient computed in f64 is that close to the partial derivatives of the expression over
    the reals, taken at the numbers the floats stand for. *)
Theorem C60_gradient_error : forall (pow : f64 -> f64 -> f64) (lib : libfn -> f64 -> f64)
  (inf : R) (sp : libfn -> R -> R),
  let S := f64_scalar pow lib in
  forall G (c c' : ctx f64) t (n n' : node f64) (w x : value f64) i j,
  ctx_wf c -> node_wf n -> inputs_all f64_valid c n -> adjoint n t = Some n' ->
  posed G (ctx_through f64_real c) t (node_through f64_real n) (node_through f64_real n') ->
  @regular R (R_scalar inf sp) (real_un inf sp) (ctx_through f64_real c) (node_through f64_real n) ->
  smooth inf sp (ctx_through f64_real c) t (node_through f64_real n) ->
  ring_tree n' -> no_tiny_product c n' ->
  evaluate_adjoint n t c = Some (c', Ok w) -> c t = Some x ->
  in_box (dims (vshape w)) (i ++ j) -> in_box (dims (vshape x)) j ->
  finite (vat f64_zero w (i ++ j)) ->
  exists d,
    derivable_pt_lim
      (fun h => entry inf sp (node_through f64_real n) (bump (ctx_through f64_real c) t j h) i) 0 d /\
    Rabs (f64_real (vat f64_zero w (i ++ j)) - d)
      <= ((1 + / 2 ^ 53) ^ adjoint_roundings c n' - 1) * tat (size_value c n') (i ++ j).
Proof. exact gradient_error. Qed.
Print Assumptions C60_gradient_error.

(** C61.  The gradient of the squared error of a linear prediction (README.md:51-56) by the weights,
    operation by operation and whatever the scalars: the products with zeros and the additions of
    zeros that the adjoint tree contains are not carried out. *)
Theorem C61_steps : forall (F : Type) (SF : Scalar F) n (x w y : ident) vx vw (b : F) (c : ctx F),
  is_zero (fzero : F) = true -> x <> w -> y <> w ->
  c x = Some vx -> vwf vx -> bty_of vx = TA [n] ->
  c w = Some vw -> vwf vw -> bty_of vw = TA [n] ->
  c y = Some (VScal b) ->
  exists v, evaluate_adjoint (sse x w y) w c = Some (c, Ok v) /\ vwf v /\ bty_of v = TA [n] /\
    forall i, (i < n)%nat ->
      vat fzero v [i] =
      fmul (fmul (fadd fone fone)
              (fsub (sum_over (seq 0 n) (fun k => fmul (vat fzero vx [k]) (vat fzero vw [k]))) b))
           (fmul (vat fzero vx [i]) fone).
Proof. exact @regression_steps. Qed.
Print Assumptions C61_steps.

(** In f64 it is, bit for bit, the computed value of [2 (x . w - y)] times each entry of [x]. *)
Theorem C61_floats : forall (pow : f64 -> f64 -> f64) (lib : libfn -> f64 -> f64),
  let S := f64_scalar pow lib in
  forall (xs ws : list f64) (b e : f64) (x w y : ident) (c : ctx f64),
  x <> w -> y <> w -> length xs = length ws ->
  c x = Some (VArr [length xs] (AN (map AF xs))) -> c w = Some (VArr [length xs] (AN (map AF ws))) ->
  c y = Some (VScal b) ->
  Forall f64_valid xs ->
  evaluate (Un Double (Sub (Contract 1 (Var x) (Var w)) (Var y))) c = (c, Ok (VScal e)) ->
  evaluate_adjoint (sse x w y) w c =
    Some (c, Ok (VArr [length xs] (AN (map AF (map (SFmul 53 1024 e) xs))))).
Proof. exact f64_regression_floats. Qed.
Print Assumptions C61_floats.

(** So its error is that of [length xs + 2] roundings. *)
Theorem C61_error : forall (pow : f64 -> f64 -> f64) (lib : libfn -> f64 -> f64),
  let S := f64_scalar pow lib in
  forall (xs ws : list f64) (b e : f64) (x w y : ident) (c : ctx f64) g j,
  x <> w -> y <> w -> length xs = length ws ->
  c x = Some (VArr [length xs] (AN (map AF xs))) -> c w = Some (VArr [length xs] (AN (map AF ws))) ->
  c y = Some (VScal b) ->
  Forall f64_valid xs -> Forall f64_valid ws -> f64_valid b ->
  evaluate (Un Double (Sub (Contract 1 (Var x) (Var w)) (Var y))) c = (c, Ok (VScal e)) ->
  Forall (fun p => normal_product (fst p) (snd p)) (combine xs ws) ->
  Forall (normal_product e) xs ->
  evaluate_adjoint (sse x w y) w c = Some (c, Ok (VArr [length xs] (AN (map AF g)))) ->
  (j < length xs)%nat -> finite (nth j g f64_zero) ->
  Rabs (f64_real (nth j g f64_zero)
        - 2 * (fold_right Rplus 0
                 (map (fun p => f64_real (fst p) * f64_real (snd p)) (combine xs ws)) - f64_real b)
          * f64_real (nth j xs f64_zero))
    <= ((1 + / 2 ^ 53) ^ (length xs + 2) - 1) *
       (2 * (fold_right Rplus 0
               (map (fun p => Rabs (f64_real (fst p)) * Rabs (f64_real (snd p))) (combine xs ws))
             + Rabs (f64_real b))
        * Rabs (f64_real (nth j xs f64_zero))).
Proof. exact (@regression_error 53 1024 Float_facts.f64_format). Qed.
Print Assumptions C61_error.

(** C72.  Expressions that add, multiply, divide, sum, contract and take absolute values of
    non-negative inputs are computed to high relative accuracy: every finite entry lies within [k]
    factors of [1 - 2^-53] of the exact value, [k] being the number of roundings on the way. *)
Theorem C72_relative_error : forall (pow : f64 -> f64 -> f64) (lib : libfn -> f64 -> f64)
  (inf : R) (sp : libfn -> R -> R),
  let S := f64_scalar pow lib in
  forall (c c' : ctx f64) (n : node f64) (v : value f64) ix,
  ctx_wf c -> node_wf n -> written c n -> subtraction_free n ->
  inputs_all (fun x => f64_valid x /\ 0 <= f64_real x) c n ->
  no_underflow c n -> evaluate n c = (c', Ok v) ->
  in_box (dims (vshape v)) ix -> finite (vat f64_zero v ix) ->
  tat (real_value inf sp c n) ix * (1 - / 2 ^ 53) ^ roundings c n <= f64_real (vat f64_zero v ix) /\
  f64_real (vat f64_zero v ix) * (1 - / 2 ^ 53) ^ roundings c n <= tat (real_value inf sp c n) ix.
Proof. exact relative_error. Qed.
Print Assumptions C72_relative_error.

(** The exact value is not negative, and the computed one is zero exactly when it is. *)
Theorem C72_zero : forall (pow : f64 -> f64 -> f64) (lib : libfn -> f64 -> f64)
  (inf : R) (sp : libfn -> R -> R),
  let S := f64_scalar pow lib in
  forall (c c' : ctx f64) (n : node f64) (v : value f64) ix,
  ctx_wf c -> node_wf n -> written c n -> subtraction_free n ->
  inputs_all (fun x => f64_valid x /\ 0 <= f64_real x) c n ->
  no_underflow c n -> evaluate n c = (c', Ok v) ->
  in_box (dims (vshape v)) ix -> finite (vat f64_zero v ix) ->
  0 <= tat (real_value inf sp c n) ix /\
  (f64_real (vat f64_zero v ix) = 0 <-> tat (real_value inf sp c n) ix = 0).
Proof. exact relative_pos. Qed.
Print Assumptions C72_zero.

(** The relative error in its usual closed form. *)
Theorem C72_gamma : forall (pow : f64 -> f64 -> f64) (lib : libfn -> f64 -> f64)
  (inf : R) (sp : libfn -> R -> R),
  let S := f64_scalar pow lib in
  forall (c c' : ctx f64) (n : node f64) (v : value f64) ix,
  ctx_wf c -> node_wf n -> written c n -> subtraction_free n ->
  inputs_all (fun x => f64_valid x /\ 0 <= f64_real x) c n ->
  no_underflow c n -> evaluate n c = (c', Ok v) ->
  in_box (dims (vshape v)) ix -> finite (vat f64_zero v ix) ->
  INR (roundings c n) * / 2 ^ 53 < 1 ->
  Rabs (f64_real (vat f64_zero v ix) - tat (real_value inf sp c n) ix)
    <= INR (roundings c n) * / 2 ^ 53 / (1 - INR (roundings c n) * / 2 ^ 53)
       * tat (real_value inf sp c n) ix.
Proof. exact relative_gamma. Qed.
Print Assumptions C72_gamma.

(** The weighted mean [x.dot(w) / w.sum()] of [m] numbers, in plain terms: [2 m] roundings. *)
Theorem C72_mean : forall (pow : f64 -> f64 -> f64) (lib : libfn -> f64 -> f64),
  let S := f64_scalar pow lib in
  forall (xs ws : list f64) (c : ctx f64) i j p q s,
  ctx_wf c ->
  (forall k v, c k = Some v -> entries_all (fun x => f64_valid x /\ 0 <= f64_real x) v) ->
  c i = Some (VArr [length xs] (AN (map AF xs))) -> c j = Some (VArr [length xs] (AN (map AF ws))) ->
  length xs = length ws -> xs <> [] ->
  Forall (fun p => normal_product (fst p) (snd p)) (combine xs ws) ->
  evaluate (Contract 1 (Var i) (Var j)) c = (c, Ok (VScal p)) ->
  evaluate (Sum (Var j)) c = (c, Ok (VScal q)) -> normal_quotient p q ->
  evaluate (Div (Contract 1 (Var i) (Var j)) (Sum (Var j))) c = (c, Ok (VScal s)) -> finite s ->
  let e := fold_right Rplus 0
             (map (fun p => f64_real (fst p) * f64_real (snd p)) (combine xs ws))
           / fold_right Rplus 0 (map f64_real ws) in
  e * (1 - / 2 ^ 53) ^ (2 * length xs) <= f64_real s /\
  f64_real s * (1 - / 2 ^ 53) ^ (2 * length xs) <= e.
Proof. exact mean_error. Qed.
Print Assumptions C72_mean.

(** C75.  Evaluation does not overflow as long as the magnitudes leave room for the rounding errors:
    if no part of the expression has a magnitude above [b], and [b] enlarged by all the roundings
    stays below [2^1024], then every entry is finite, and therefore as close to the exact value as
    C56 says.  Any [b] from two upwards will do. *)
Theorem C75_room : forall (pow : f64 -> f64 -> f64) (lib : libfn -> f64 -> f64)
  (inf : R) (sp : libfn -> R -> R),
  let S := f64_scalar pow lib in
  forall (c c' : ctx f64) (n : node f64) (v : value f64) (b : R) ix,
  ctx_wf c -> node_wf n -> written c n -> arithmetic n ->
  inputs_all (fun x => f64_valid x /\ finite x) c n -> no_underflow c n ->
  2 <= b -> parts_within b c n -> (1 + / 2 ^ 53) ^ roundings c n * b < 2 ^ 1024 ->
  evaluate n c = (c', Ok v) -> in_box (dims (vshape v)) ix ->
  finite (vat f64_zero v ix) /\
  Rabs (f64_real (vat f64_zero v ix) - tat (real_value inf sp c n) ix)
    <= ((1 + / 2 ^ 53) ^ roundings c n - 1) * tat (magnitude c n) ix.
Proof. exact no_overflow. Qed.
Print Assumptions C75_room.

(** In particular with magnitudes of at most [2^1023] and fewer than [2^52] roundings. *)
Theorem C75_finite : forall (pow : f64 -> f64 -> f64) (lib : libfn -> f64 -> f64)
  (inf : R) (sp : libfn -> R -> R),
  let S := f64_scalar pow lib in
  forall (c c' : ctx f64) (n : node f64) (v : value f64) ix,
  ctx_wf c -> node_wf n -> written c n -> arithmetic n ->
  inputs_all (fun x => f64_valid x /\ finite x) c n -> no_underflow c n ->
  parts_within (2 ^ 1023) c n -> INR (roundings c n) < 2 ^ 52 ->
  evaluate n c = (c', Ok v) -> in_box (dims (vshape v)) ix ->
  finite (vat f64_zero v ix) /\
  Rabs (f64_real (vat f64_zero v ix) - tat (real_value inf sp c n) ix)
    <= ((1 + / 2 ^ 53) ^ roundings c n - 1) * tat (magnitude c n) ix.
Proof. exact no_overflow_plain. Qed.
Print Assumptions C75_finite.

(** C76.  Rounding does not disturb the order: where the rules of signs say that an expression goes up
    (or down) from the inputs [c] to the inputs [d], the computed entries do, unless one is infinite
    or NaN.  Parts with equal inputs may use [powf] and the library functions, whatever they are. *)
Theorem C76_monotone : forall (pow : f64 -> f64 -> f64) (lib : libfn -> f64 -> f64),
  (forall x y, f64_valid (pow x y)) -> (forall f x, f64_valid (lib f x)) ->
  let S := f64_scalar pow lib in
  forall (c d : ctx f64) (up : bool) (c' d' : ctx f64) (n : node f64) (v w : value f64),
  ctx_wf c -> ctx_wf d -> node_wf n -> written c n -> written d n ->
  inputs_all f64_valid c n -> inputs_all f64_valid d n -> goes c d up n ->
  evaluate n c = (c', Ok v) -> evaluate n d = (d', Ok w) ->
  dims (vshape v) = dims (vshape w) /\
  forall ix, in_box (dims (vshape v)) ix ->
    finite (vat f64_zero v ix) -> finite (vat f64_zero w ix) ->
    if up then f64_real (vat f64_zero v ix) <= f64_real (vat f64_zero w ix)
    else f64_real (vat f64_zero w ix) <= f64_real (vat f64_zero v ix).
Proof. exact monotone. Qed.
Print Assumptions C76_monotone.

(** Sums and products of numbers that are not negative: smaller inputs give smaller results, and no
    overflow where larger inputs give none. *)
Theorem C76_positive : forall (pow : f64 -> f64 -> f64) (lib : libfn -> f64 -> f64),
  let S := f64_scalar pow lib in
  forall (c d c' d' : ctx f64) (n : node f64) (v w : value f64),
  ctx_wf c -> ctx_wf d -> node_wf n -> written c n -> written d n -> adds_multiplies n ->
  inputs_all (fun x => f64_valid x /\ finite x /\ 0 <= f64_real x) c n ->
  inputs_all f64_valid d n -> (forall i, uses n i -> lower (c i) (d i)) ->
  evaluate n c = (c', Ok v) -> evaluate n d = (d', Ok w) ->
  dims (vshape v) = dims (vshape w) /\
  forall ix, in_box (dims (vshape v)) ix -> finite (vat f64_zero w ix) ->
    finite (vat f64_zero v ix) /\
    0 <= f64_real (vat f64_zero v ix) <= f64_real (vat f64_zero w ix).
Proof. exact monotone_positive. Qed.
Print Assumptions C76_positive.

(** C77.  Units do not matter as long as they change by powers of two: where an expression is
    homogeneous and nothing underflows, inputs scaled by powers of two give the very same digits,
    scaled by the power that the exact expression is scaled by. *)
Theorem C77_scaling : forall (pow : f64 -> f64 -> f64) (lib : libfn -> f64 -> f64),
  let S := f64_scalar pow lib in
  forall (w : ident -> Z) (c d c' d' : ctx f64) (n : node f64) (k : Z) (v u : value f64),
  ctx_wf c -> ctx_wf d -> node_wf n -> written c n -> written d n ->
  inputs_all f64_valid c n -> inputs_all f64_valid d n -> scaled_inputs w c d ->
  no_underflow c n -> no_underflow d n -> homogeneous w c n k ->
  evaluate n c = (c', Ok v) -> evaluate n d = (d', Ok u) ->
  dims (vshape v) = dims (vshape u) /\
  forall ix, in_box (dims (vshape v)) ix ->
    finite (vat f64_zero v ix) -> finite (vat f64_zero u ix) ->
    f64_real (vat f64_zero u ix) = powerRZ 2 k * f64_real (vat f64_zero v ix).
Proof. exact scaling. Qed.
Print Assumptions C77_scaling.

(** * Cases *)
Section Cases.
Variables (powf : f64 -> f64 -> f64) (lib : libfn -> f64 -> f64) (sp : libfn -> R -> R).
#[local] Instance F64 : Scalar f64 := f64_scalar powf lib.

(** 0.1, 0.2 and 0.3 as read by Rust, in two variables. *)
Definition tenth : f64 := S754_finite false 7205759403792794 (-56).
Definition fifth : f64 := S754_finite false 7205759403792794 (-55).
Definition three_tenths : f64 := S754_finite false 5404319552844595 (-54).
Definition rho : ctx f64 := fun i => match i with
  | 0%nat => Some (VVec [tenth; fifth; three_tenths])
  | 1%nat => Some (VVec [fifth; fifth; tenth])
  | _ => None end.
Definition tree : node f64 := Sum (Sub (Mul (Var 0%nat) (Var 1%nat)) (Var 0%nat)).

Lemma reals : f64_real tenth = 7205759403792794 / 72057594037927936 /\
  f64_real fifth = 7205759403792794 / 36028797018963968 /\
  f64_real three_tenths = 5404319552844595 / 18014398509481984.
Proof. unfold f64_real, tenth, fifth, three_tenths; simpl; lra. Qed.

Lemma normal_of x y : / 16 <= f64_real x -> / 16 <= f64_real y -> normal_product x y.
Proof.
  intros Hx Hy; right; rewrite Rabs_pos_eq by nra.
  apply Rle_trans with (/ 2 ^ 8); [|simpl; nra].
  apply Rinv_le_contravar; [apply pow_lt; lra|apply Rle_pow; [lra|lia]].
Qed.

Lemma quotient_of x y : / 16 <= f64_real x -> / 16 <= f64_real y <= 4 -> normal_quotient x y.
Proof.
  intros Hx Hy; split; [lra|]; right.
  assert (K : / 64 <= f64_real x / f64_real y).
  { apply Rmult_le_reg_r with (f64_real y); [lra|].
    unfold Rdiv; rewrite Rmult_assoc, Rinv_l by lra; lra. }
  rewrite Rabs_pos_eq by lra; apply Rle_trans with (2 := K).
  replace (/ 64) with (/ 2 ^ 6) by (simpl; lra).
  apply Rinv_le_contravar; [apply pow_lt; lra|apply Rle_pow; [lra|lia]].
Qed.

Lemma box3 ix : in_box [3%nat] ix -> ix = [0%nat] \/ ix = [1%nat] \/ ix = [2%nat].
Proof.
  intro H; inversion H as [|i d l l' Hi H']; subst; inversion H'; subst.
  destruct i as [|[|[|i]]]; auto; lia.
Qed.

(** [sum(x * y - x)]: four roundings at most, and the result is not exact. *)
Example C56_example :
  ctx_wf rho /\ node_wf tree /\ written rho tree /\ arithmetic tree /\
  inputs_all f64_valid rho tree /\ no_underflow rho tree /\ roundings rho tree = 4%nat /\
  exists s, evaluate tree rho = (rho, Ok (VScal s)) /\ finite s /\
    f64_real s <> tat (real_value 0 sp rho tree) [].
Proof.
  destruct reals as (R1 & R2 & R3).
  split; [intros [|[|i]] v E; inversion E; exact Logic.I|].
  split; [cbn; auto|]. split; [cbn; auto|]. split; [cbn; auto|].
  split.
  { split; [|cbn; auto]; intros [|[|i]] v E d ix Bx; inversion E; subst v; cbn in Bx;
      apply box3 in Bx; destruct Bx as [->|[->| ->]]; reflexivity. }
  split.
  { cbn; split; [|exact Logic.I]; split; [exact Logic.I|split; [exact Logic.I|]]; intros ix Bx.
    apply box3 in Bx; destruct Bx as [->|[->| ->]]; cbn; apply normal_of; lra. }
  split; [reflexivity|].
  eexists; split; [vm_compute; reflexivity|]; split; [exact Logic.I|].
  unfold real_value; cbn -[f64_real]; rewrite R1, R2, R3; unfold f64_real; simpl; lra.
Qed.

(** The scalar product of two such vectors. *)
Example C56_example_dot :
  let xs := [tenth; fifth; three_tenths] in
  let ys := [fifth; fifth; tenth] in
  let c : ctx f64 := fun i => match i with
    | 0%nat => Some (VArr [3%nat] (AN (map AF xs)))
    | 1%nat => Some (VArr [3%nat] (AN (map AF ys)))
    | _ => None end in
  ctx_wf c /\ (forall k v, c k = Some v -> entries_all f64_valid v) /\
  Forall (fun p => normal_product (fst p) (snd p)) (combine xs ys) /\
  exists s, evaluate (Contract 1 (Var 0%nat) (Var 1%nat)) c = (c, Ok (VScal s)) /\ finite s.
Proof.
  destruct reals as (R1 & R2 & R3); cbn zeta.
  split; [intros [|[|i]] v E; inversion E; cbn; repeat constructor|].
  split.
  { intros [|[|i]] v E d ix Bx; inversion E; subst v; cbn in Bx;
      apply box3 in Bx; destruct Bx as [->|[->| ->]]; reflexivity. }
  split; [repeat (apply Forall_cons; [apply normal_of; cbn [fst snd]; lra|]); apply Forall_nil|].
  eexists; split; [vm_compute; reflexivity|exact Logic.I].
Qed.

(** Without the condition on products the bound fails: the square of the smallest positive number
    is rounded to zero. *)
Example C56_underflow_refuted : exists (c : ctx f64) (n : node f64) v,
  ctx_wf c /\ node_wf n /\ written c n /\ arithmetic n /\ inputs_all f64_valid c n /\
  evaluate n c = (c, Ok v) /\ finite (vat f64_zero v []) /\
  ~ Rabs (f64_real (vat f64_zero v []) - tat (real_value 0 sp c n) [])
      <= ((1 + / 2 ^ 53) ^ roundings c n - 1) * tat (magnitude c n) [].
Proof.
  exists (fun _ => Some (VScal (S754_finite false 1 (-1074)))), (Mul (Var 0%nat) (Var 0%nat)), (VScal f64_zero).
  split; [intros i v E; inversion E; exact Logic.I|].
  split; [cbn; auto|]. split; [cbn; auto|]. split; [cbn; auto|].
  split.
  { split; [|cbn; auto]; intros i v E d ix Bx; inversion E; subst v; reflexivity. }
  split; [reflexivity|]. split; [exact Logic.I|].
  unfold real_value, magnitude; cbn -[f64_real pow Rinv].
  set (x := f64_real (S754_finite false 1 (-1074))).
  assert (Hx : 0 < x).
  { unfold x, f64_real; rewrite !Rmult_1_l; apply powerRZ_lt; lra. }
  change (f64_real f64_zero) with 0; rewrite (Rabs_pos_eq x) by lra.
  rewrite Rminus_0_l, Rabs_Ropp, (Rabs_pos_eq (x * x)) by nra.
  assert (U : / 2 ^ 53 < 1) by (simpl; lra).
  assert (0 < x * x) by nra; rewrite pow_1; nra.
Qed.

(** [sum(x * y - x)] again: there is room. *)
Example C75_example :
  ctx_wf rho /\ node_wf tree /\ written rho tree /\ arithmetic tree /\
  inputs_all (fun x => f64_valid x /\ finite x) rho tree /\ no_underflow rho tree /\
  parts_within (2 ^ 1023) rho tree /\ INR (roundings rho tree) < 2 ^ 52 /\
  parts_within 2 rho tree /\ (1 + / 2 ^ 53) ^ roundings rho tree * 2 < 2 ^ 1024.
Proof.
  destruct C56_example as (W1 & W2 & W3 & W4 & _ & W6 & W7 & _); destruct reals as (R1 & R2 & R3).
  split; [exact W1|split; [exact W2|split; [exact W3|split; [exact W4|]]]].
  split.
  { split; [|cbn; auto]; intros [|[|i]] v E d ix Bx; inversion E; subst v; cbn in Bx;
      apply box3 in Bx; destruct Bx as [->|[->| ->]]; (split; [reflexivity|exact Logic.I]). }
  split; [exact W6|].
  assert (Q : forall b, 2 <= b -> parts_within b rho tree).
  { intros b Hb; cbn [parts_within tree]; unfold magnitude; cbn -[f64_real].
    rewrite !(Rabs_pos_eq (f64_real _)) by lra.
    repeat match goal with |- _ /\ _ => split | |- True => exact Logic.I end; intros ix Bx;
      try (apply box3 in Bx; destruct Bx as [->|[->| ->]]); cbn -[f64_real]; 
      rewrite ?(Rabs_pos_eq (f64_real _)) by lra; nra. }
  assert (P1 : 1 <= 2 ^ 1022) by (apply pow_R1_Rle; lra).
  assert (P2 : 2 ^ 1023 = 2 * 2 ^ 1022) by reflexivity.
  assert (P3 : 2 ^ 1024 = 2 * 2 ^ 1023) by reflexivity.
  split; [apply Q; lra|]; rewrite W7.
  split; [simpl; lra|split; [apply Q; lra|]].
  assert ((1 + / 2 ^ 53) ^ 4 < 2 ^ 1022 * 2); [|lra].
  apply Rlt_le_trans with 2; [simpl; lra|lra].
Qed.

(** Without room it overflows: twice [2^1023] is infinite, although the number put in is not. *)
Definition huge : f64 := S754_finite false 4503599627370496 971.
Example C75_limit_refuted : exists (c : ctx f64) (n : node f64) v,
  ctx_wf c /\ node_wf n /\ written c n /\ arithmetic n /\
  inputs_all (fun x => f64_valid x /\ finite x) c n /\ no_underflow c n /\
  parts_within (2 ^ 1024) c n /\ INR (roundings c n) < 2 ^ 52 /\
  evaluate n c = (c, Ok v) /\ ~ finite (vat f64_zero v []).
Proof.
  assert (Rh : f64_real huge = 2 ^ 1023).
  { unfold huge, f64_real; rewrite Rmult_1_l.
    replace (IZR 4503599627370496) with (2 ^ 52) by (simpl; lra).
    change 971%Z with (Z.of_nat 971); rewrite <- pow_powerRZ, <- pow_add; reflexivity. }
  exists (fun _ => Some (VScal huge)), (Add (Var 0%nat) (Var 1%nat)), (VScal (S754_infinity false)).
  assert (P3 : 2 ^ 1024 = 2 * 2 ^ 1023) by reflexivity.
  assert (P1 : 1 <= 2 ^ 1023) by (apply pow_R1_Rle; lra).
  split; [intros i v E; inversion E; exact Logic.I|].
  split; [cbn; auto|]. split; [cbn; auto|]. split; [cbn; auto|].
  split.
  { split; [|cbn; auto]; intros i v E d ix Bx; inversion E; subst v; split; [reflexivity|exact Logic.I]. }
  split; [cbn; auto|].
  split.
  { cbn [parts_within]; unfold magnitude; cbn -[f64_real huge pow].
    rewrite Rh, (Rabs_pos_eq (2 ^ 1023)) by lra; repeat split; intros; lra. }
  split; [cbn [roundings Nat.max Nat.add]; simpl; lra|].
  split; [vm_compute; reflexivity|exact (fun H => H)].
Qed.

(** The short cut for two constant vectors multiplies by the number of entries first
    (contraction_ops.rs:135-142), and overflows where the sum of products does not. *)
Example C75_shortcut_refuted :
  let x := Full (TA [2%nat]) huge in
  let y := Full (TA [2%nat]) (SFdiv 53 1024 (f64_of_Z 1) (f64_of_Z 2)) in
  spec_wf x /\ spec_wf y /\
  contract_spec 1 x y = Ok (Full TS (S754_infinity false)) /\
  contract 1 (unwrap x) (unwrap y) = Ok (VScal huge).
Proof. split; [repeat constructor|split; [repeat constructor|split; vm_compute; reflexivity]]. Qed.

(** [sum(x * x / (y + 1))], with larger [x] and smaller [y]. *)
Definition rho' : ctx f64 := fun i => match i with
  | 0%nat => Some (VVec [fifth; fifth; three_tenths])
  | 1%nat => Some (VVec [tenth; fifth; tenth])
  | _ => None end.
Example C76_example :
  let n := Sum (Div (Mul (Var 0%nat) (Var 0%nat)) (Un AddOne (Var 1%nat))) in
  ctx_wf rho /\ ctx_wf rho' /\ node_wf n /\ written rho n /\ written rho' n /\
  inputs_all f64_valid rho n /\ inputs_all f64_valid rho' n /\ goes rho rho' true n /\
  exists s t, evaluate n rho = (rho, Ok (VScal s)) /\ evaluate n rho' = (rho', Ok (VScal t)) /\
    finite s /\ finite t /\ f64_real s <> f64_real t.
Proof.
  destruct reals as (R1 & R2 & R3); cbn zeta.
  assert (S1 : f64_real (SFadd 53 1024 fifth (f64_of_Z 1)) = 5404319552844595 / 4503599627370496).
  { vm_compute (f64_of_Z 1); vm_compute SFadd; unfold f64_real; simpl; lra. }
  assert (S2 : f64_real (SFadd 53 1024 tenth (f64_of_Z 1)) = 4953959590107546 / 4503599627370496).
  { vm_compute (f64_of_Z 1); vm_compute SFadd; unfold f64_real; simpl; lra. }
  assert (M1 : forall x, f64_valid x -> 0 <= f64_real x -> 0 <= f64_real (SFmul 53 1024 x x)).
  { intros x V N; destruct (under_mul (prec := 53) (emax := 1024) x x x x) as (_ & _ & K & _); try exact K;
      (split; [exact V|split; [exact V|split; [exact N|intro; split; [assumption|lra]]]]). }
  split; [intros [|[|i]] v E; inversion E; exact Logic.I|].
  split; [intros [|[|i]] v E; inversion E; exact Logic.I|].
  split; [cbn; auto|]. split; [cbn; auto|]. split; [cbn; auto|].
  split; [|split; [|split]].
  1,2: split; [|cbn; auto]; intros [|[|i]] v E d ix Bx; inversion E; subst v; cbn in Bx;
      apply box3 in Bx; destruct Bx as [->|[->| ->]]; reflexivity.
  - assert (V0 : goes rho rho' true (Var 0%nat)).
    { right; split; [reflexivity|]; intros ix Bx; apply box3 in Bx; destruct Bx as [->|[->| ->]]; cbn -[f64_real]; lra. }
    assert (V1 : goes rho rho' false (Var 1%nat)).
    { right; split; [reflexivity|]; intros ix Bx; apply box3 in Bx; destruct Bx as [->|[->| ->]]; cbn -[f64_real]; lra. }
    assert (N0 : nonneg rho (Var 0%nat)).
    { intros ix Bx; apply box3 in Bx; destruct Bx as [->|[->| ->]]; cbn -[f64_real]; lra. }
    right; right; change (exchanged rho (Mul (Var 0%nat) (Var 0%nat)) (Un AddOne (Var 1%nat))) with false.
    split; [|split; [|split; [|split]]].
    + right; left; auto.
    + right; exact V1.
    + intros ix Bx; apply box3 in Bx; destruct Bx as [->|[->| ->]]; cbn -[f64_real SFadd float_of_Z]; change (float_of_Z 53 1024) with f64_of_Z; lra.
    + intros ix Bx; apply box3 in Bx; destruct Bx as [->|[->| ->]]; cbn -[f64_real SFadd float_of_Z]; change (float_of_Z 53 1024) with f64_of_Z; lra.
    + left; intros ix Bx; apply box3 in Bx; destruct Bx as [->|[->| ->]]; cbn -[f64_real SFmul];
        apply M1; try reflexivity; lra.
  - eexists _, _; split; [vm_compute; reflexivity|]; split; [vm_compute; reflexivity|].
    split; [exact Logic.I|split; [exact Logic.I|]]; unfold f64_real; simpl; lra.
Qed.

(** [2 (sum(x * x) + (y + 1))], with larger [x] and [y]. *)
Definition larger : ctx f64 := fun i => match i with
  | 0%nat => Some (VVec [fifth; three_tenths; three_tenths])
  | 1%nat => Some (VVec [fifth; fifth; three_tenths])
  | _ => None end.
Example C76_positive_example :
  let n := Un Double (Add (Sum (Mul (Var 0%nat) (Var 0%nat))) (Un AddOne (Var 1%nat))) in
  ctx_wf rho /\ ctx_wf larger /\ node_wf n /\ written rho n /\ written larger n /\ adds_multiplies n /\
  inputs_all (fun x => f64_valid x /\ finite x /\ 0 <= f64_real x) rho n /\
  inputs_all f64_valid larger n /\ (forall i, uses n i -> lower (rho i) (larger i)) /\
  exists v w, evaluate n rho = (rho, Ok v) /\ evaluate n larger = (larger, Ok w) /\
    finite (vat f64_zero w [2%nat]).
Proof.
  destruct reals as (R1 & R2 & R3); cbn zeta.
  split; [intros [|[|i]] v E; inversion E; exact Logic.I|].
  split; [intros [|[|i]] v E; inversion E; exact Logic.I|].
  split; [cbn; auto|]. split; [cbn; auto|]. split; [cbn; auto|]. split; [cbn; auto|].
  split; [|split; [|split]].
  - split; [|cbn; auto]; intros [|[|i]] v E d ix Bx; inversion E; subst v; cbn in Bx;
      apply box3 in Bx; destruct Bx as [->|[->| ->]]; cbn [vat nth];
      (split; [reflexivity|split; [exact Logic.I|lra]]).
  - split; [|cbn; auto]; intros [|[|i]] v E d ix Bx; inversion E; subst v; cbn in Bx;
      apply box3 in Bx; destruct Bx as [->|[->| ->]]; reflexivity.
  - intros [|[|i]] U; try (exfalso; cbn in U; intuition discriminate); (split; [reflexivity|]); intros ix Bx;
      apply box3 in Bx; destruct Bx as [->|[->| ->]]; cbn -[f64_real]; lra.
  - eexists _, _; split; [vm_compute; reflexivity|]; split; [vm_compute; reflexivity|exact Logic.I].
Qed.

(** Signs matter: from [-2] to [1] the square goes down; and over a matrix a scalar dividend goes
    down, because the quotient is taken the other way round. *)
Example C76_signs_refuted :
  let s z : ctx f64 := fun _ => Some (VScal (f64_of_Z z)) in
  lower (s (-2)%Z 0%nat) (s 1%Z 0%nat) /\
  evaluate (Mul (Var 0%nat) (Var 0%nat)) (s (-2)%Z) = (s (-2)%Z, Ok (VScal (f64_of_Z 4))) /\
  evaluate (Mul (Var 0%nat) (Var 0%nat)) (s 1%Z) = (s 1%Z, Ok (VScal (f64_of_Z 1))) /\
  let m z : ctx f64 := fun i => if Nat.eqb i 0 then Some (VScal (f64_of_Z z))
                                else Some (VArr [1%nat; 1%nat] (AN [AN [AF (f64_of_Z 4)]])) in
  evaluate (Div (Var 0%nat) (Var 1%nat)) (m 1%Z) = (m 1%Z, Ok (VArr [1%nat; 1%nat] (AN [AN [AF (f64_of_Z 4)]]))) /\
  evaluate (Div (Var 0%nat) (Var 1%nat)) (m 2%Z) = (m 2%Z, Ok (VArr [1%nat; 1%nat] (AN [AN [AF (f64_of_Z 2)]]))).
Proof.
  cbn zeta; split; [|repeat split; vm_compute; reflexivity].
  split; [reflexivity|]; intros ix _; cbn -[f64_real f64_of_Z].
  vm_compute (f64_of_Z (-2)); vm_compute (f64_of_Z 1); unfold f64_real; simpl; lra.
Qed.

(** [sum(x * y - x)] with [x] doubled: the result is doubled, though it is not exact. *)
Definition doubled : ctx f64 := fun i => match i with
  | 0%nat => Some (VVec [fifth; S754_finite false 7205759403792794 (-54); S754_finite false 5404319552844595 (-53)])
  | 1%nat => Some (VVec [fifth; fifth; tenth])
  | _ => None end.
Definition units (i : ident) : Z := match i with 0%nat => 1%Z | _ => 0%Z end.
Example C77_example :
  ctx_wf rho /\ ctx_wf doubled /\ node_wf tree /\ written rho tree /\ written doubled tree /\
  inputs_all f64_valid rho tree /\ inputs_all f64_valid doubled tree /\ scaled_inputs units rho doubled /\
  no_underflow rho tree /\ no_underflow doubled tree /\ homogeneous units rho tree 1 /\
  exists s t, evaluate tree rho = (rho, Ok (VScal s)) /\ evaluate tree doubled = (doubled, Ok (VScal t)) /\
    finite s /\ finite t /\ s <> t /\ f64_real s <> tat (real_value 0 sp rho tree) [].
Proof.
  destruct reals as (R1 & R2 & R3).
  assert (R4 : f64_real (S754_finite false 7205759403792794 (-54)) = 7205759403792794 / 18014398509481984)
    by (unfold f64_real; simpl; lra).
  assert (R5 : f64_real (S754_finite false 5404319552844595 (-53)) = 5404319552844595 / 9007199254740992)
    by (unfold f64_real; simpl; lra).
  split; [intros [|[|i]] v E; inversion E; exact Logic.I|].
  split; [intros [|[|i]] v E; inversion E; exact Logic.I|].
  split; [cbn; auto|]. split; [cbn; auto|]. split; [cbn; auto|].
  split; [|split; [|split; [|split; [|split; [|split]]]]].
  1,2: split; [|cbn; auto]; intros [|[|i]] v E d ix Bx; inversion E; subst v; cbn in Bx;
      apply box3 in Bx; destruct Bx as [->|[->| ->]]; reflexivity.
  - intros [|[|i]]; cbn [rho doubled]; auto; (split; [reflexivity|]); intros ix Bx; apply box3 in Bx;
      destruct Bx as [->|[->| ->]]; cbn -[f64_real powerRZ]; change (powerRZ 2 1) with (2 * 1); change (powerRZ 2 0) with 1; lra.
  - split; [|exact Logic.I]; split; [exact Logic.I|split; [exact Logic.I|]]; intros ix Bx.
    apply box3 in Bx; destruct Bx as [->|[->| ->]]; cbn -[f64_real]; apply normal_of; lra.
  - split; [|exact Logic.I]; split; [exact Logic.I|split; [exact Logic.I|]]; intros ix Bx.
    apply box3 in Bx; destruct Bx as [->|[->| ->]]; cbn -[f64_real]; apply normal_of; lra.
  - split; [exists 1%Z, 0%Z; split; [reflexivity|split; reflexivity]|reflexivity].
  - eexists _, _; split; [vm_compute; reflexivity|]; split; [vm_compute; reflexivity|].
    split; [exact Logic.I|split; [exact Logic.I|split; [discriminate|]]].
    unfold real_value; cbn -[f64_real]; rewrite R1, R2, R3; unfold f64_real; simpl; lra.
Qed.

(** Both conditions matter: adding one is not homogeneous, and the square of [2 ^ -600] underflows
    to zero where that of [2 ^ -300] does not. *)
Example C77_conditions_refuted :
  let s x : ctx f64 := fun _ => Some (VScal x) in
  let p e := S754_finite false 4503599627370496 (e - 52) in
  scaled_inputs (fun _ => 1%Z) (s (f64_of_Z 1)) (s (f64_of_Z 2)) /\
  evaluate (Un AddOne (Var 0%nat)) (s (f64_of_Z 1)) = (s (f64_of_Z 1), Ok (VScal (f64_of_Z 2))) /\
  evaluate (Un AddOne (Var 0%nat)) (s (f64_of_Z 2)) = (s (f64_of_Z 2), Ok (VScal (f64_of_Z 3))) /\
  let sq := Mul (Var 0%nat) (Var 0%nat) in
  homogeneous (fun _ => 300%Z) (s (p (-600)%Z)) sq 600 /\
  evaluate sq (s (p (-600)%Z)) = (s (p (-600)%Z), Ok (VScal f64_zero)) /\
  evaluate sq (s (p (-300)%Z)) = (s (p (-300)%Z), Ok (VScal (p (-600)%Z))).
Proof.
  cbn zeta; split; [|split; [vm_compute; reflexivity|split; [vm_compute; reflexivity|split; [|split; vm_compute; reflexivity]]]].
  - intro i; split; [reflexivity|]; intros ix _; cbn -[f64_real f64_of_Z].
    vm_compute (f64_of_Z 1); vm_compute (f64_of_Z 2); unfold f64_real; simpl; lra.
  - exists 300%Z, 300%Z; split; [reflexivity|split; reflexivity].
Qed.

(** [(x + y) / y] on the two vectors. *)
Example C72_example :
  let n := Div (Add (Var 0%nat) (Var 1%nat)) (Var 1%nat) in
  ctx_wf rho /\ node_wf n /\ written rho n /\ subtraction_free n /\
  inputs_all (fun x => f64_valid x /\ 0 <= f64_real x) rho n /\ no_underflow rho n /\
  roundings rho n = 2%nat /\ INR (roundings rho n) * / 2 ^ 53 < 1 /\
  exists v, evaluate n rho = (rho, Ok v) /\ finite (vat f64_zero v [2%nat]) /\
    f64_real (vat f64_zero v [2%nat]) <> tat (real_value 0 sp rho n) [2%nat].
Proof.
  destruct reals as (R1 & R2 & R3); cbn zeta.
  assert (S1 : f64_real (SFadd 53 1024 tenth fifth) = 5404319552844596 / 18014398509481984)
    by (vm_compute SFadd; unfold f64_real; simpl; lra).
  assert (S2 : f64_real (SFadd 53 1024 fifth fifth) = 7205759403792794 / 18014398509481984)
    by (vm_compute SFadd; unfold f64_real; simpl; lra).
  assert (S3 : f64_real (SFadd 53 1024 three_tenths tenth) = 7205759403792794 / 18014398509481984)
    by (vm_compute SFadd; unfold f64_real; simpl; lra).
  split; [intros [|[|i]] v E; inversion E; exact Logic.I|].
  split; [cbn; auto|]. split; [cbn; auto|]. split; [cbn; auto|].
  split.
  { split; [|cbn; auto]; intros [|[|i]] v E d ix Bx; inversion E; subst v; cbn in Bx;
      apply box3 in Bx; destruct Bx as [->|[->| ->]]; cbn [vat nth]; (split; [reflexivity|lra]). }
  split.
  { cbn; split; [auto|split; [exact Logic.I|]]; intros ix Bx.
    apply box3 in Bx; destruct Bx as [->|[->| ->]]; cbn -[f64_real SFadd]; apply quotient_of; lra. }
  split; [reflexivity|]. split; [cbn [roundings INR Nat.add Nat.max]; simpl; lra|].
  eexists; split; [vm_compute; reflexivity|]; split; [exact Logic.I|].
  unfold real_value; cbn -[f64_real]; rewrite R1, R3; unfold f64_real; simpl; lra.
Qed.

(** The mean of 0.1, 0.2 and 0.3 with weights 0.2, 0.2 and 0.1. *)
Example C72_example_mean :
  let xs := [tenth; fifth; three_tenths] in
  let ws := [fifth; fifth; tenth] in
  let c : ctx f64 := fun i => match i with
    | 0%nat => Some (VArr [3%nat] (AN (map AF xs)))
    | 1%nat => Some (VArr [3%nat] (AN (map AF ws)))
    | _ => None end in
  ctx_wf c /\
  (forall k v, c k = Some v -> entries_all (fun x => f64_valid x /\ 0 <= f64_real x) v) /\
  Forall (fun p => normal_product (fst p) (snd p)) (combine xs ws) /\
  exists p q s,
  evaluate (Contract 1 (Var 0%nat) (Var 1%nat)) c = (c, Ok (VScal p)) /\
  evaluate (Sum (Var 1%nat)) c = (c, Ok (VScal q)) /\ normal_quotient p q /\
  evaluate (Div (Contract 1 (Var 0%nat) (Var 1%nat)) (Sum (Var 1%nat))) c = (c, Ok (VScal s)) /\ finite s.
Proof.
  destruct reals as (R1 & R2 & R3); cbn zeta.
  split; [intros [|[|i]] v E; inversion E; cbn; repeat constructor|].
  split.
  { intros [|[|i]] v E d ix Bx; inversion E; subst v; cbn in Bx;
      apply box3 in Bx; destruct Bx as [->|[->| ->]]; cbn -[f64_real]; (split; [reflexivity|lra]). }
  split; [repeat (apply Forall_cons; [apply normal_of; cbn [fst snd]; lra|]); apply Forall_nil|].
  eexists; eexists; eexists; split; [vm_compute; reflexivity|].
  split; [vm_compute; reflexivity|].
  split; [apply quotient_of; unfold f64_real; simpl; lra|].
  split; [vm_compute; reflexivity|exact Logic.I].
Qed.

(** With inputs of both signs no such bound holds: in [(x + y) + 1] at [2^-60]
    and [-1] the first sum is rounded to [-1], and adding one gives zero. *)
Example C72_signs_refuted : exists (c : ctx f64) (n : node f64) v,
  ctx_wf c /\ node_wf n /\ written c n /\ subtraction_free n /\ inputs_all f64_valid c n /\
  no_underflow c n /\ evaluate n c = (c, Ok v) /\ finite (vat f64_zero v []) /\
  f64_real (vat f64_zero v []) = 0 /\ tat (real_value 0 sp c n) [] > 0.
Proof.
  exists (fun i => match i with 0%nat => Some (VScal (S754_finite false 4503599627370496 (-112)))
                   | _ => Some (VScal (f64_of_Z (-1))) end),
    (Un AddOne (Add (Var 0%nat) (Var 1%nat))), (VScal f64_zero).
  split; [intros [|i] v E; inversion E; exact Logic.I|].
  split; [cbn; auto|]. split; [cbn; auto|]. split; [cbn; auto|].
  split.
  { split; [|cbn; auto]; intros [|i] v E d ix Bx; inversion E; subst v; reflexivity. }
  split; [cbn; auto|]. split; [vm_compute; reflexivity|]. split; [exact Logic.I|].
  split; [reflexivity|].
  unfold real_value; cbn -[f64_real f64_of_Z]; vm_compute f64_of_Z; unfold f64_real; simpl; lra.
Qed.

(** [sum(x (1 - x))] at (3, -5, 7). *)
Example C57_example :
  let c : ctx f64 := fun i => match i with
    | 0%nat => Some (VVec [f64_of_Z 3; f64_of_Z (-5); f64_of_Z 7]) | _ => None end in
  let n := Sum (Un Rabbit (Var 0%nat)) in
  ctx_wf c /\ node_wf n /\ written c n /\ arithmetic n /\
  inputs_all (fun x => f64_valid x /\ whole x) c n /\ parts_within (2 ^ 53) c n /\
  exists v, evaluate n c = (c, Ok v) /\ f64_real (vat f64_zero v []) = - 78.
Proof.
  assert (R3 : f64_real (f64_of_Z 3) = 3) by (vm_compute f64_of_Z; unfold f64_real; simpl; lra).
  assert (R5 : f64_real (f64_of_Z (-5)) = -5) by (vm_compute f64_of_Z; unfold f64_real; simpl; lra).
  assert (R7 : f64_real (f64_of_Z 7) = 7) by (vm_compute f64_of_Z; unfold f64_real; simpl; lra).
  cbn zeta.
  split; [intros [|i] v E; inversion E; exact Logic.I|].
  split; [cbn; auto|]. split; [cbn; auto|]. split; [cbn; auto|].
  split.
  { split; [|cbn; auto]; intros [|i] v E d ix Bx; inversion E; subst v; cbn in Bx;
      apply box3 in Bx; destruct Bx as [->|[->| ->]]; cbn [vat nth];
      (split; [reflexivity|split; [exact Logic.I|]]); [exists 3%Z|exists (-5)%Z|exists 7%Z]; assumption. }
  assert (L : 98 <= 2 ^ 53) by (simpl; lra).
  split.
  { cbn [parts_within]; unfold magnitude; cbn -[f64_real f64_of_Z pow].
    rewrite R3, R5, R7, (Rabs_pos_eq 3), (Rabs_left (-5)), (Rabs_pos_eq 7) by lra.
    split; [intros ix _; lra|split; [|split; [|exact Logic.I]]]; intros ix Bx;
      apply box3 in Bx; destruct Bx as [->|[->| ->]]; cbn [nth map Rplus Rmult]; lra. }
  eexists; split; [vm_compute; reflexivity|]; unfold f64_real; simpl; lra.
Qed.

(** Above the limit exactness fails: [2^53 + 1] is rounded to [2^53]. *)
Definition big : f64 := f64_of_Z (2 ^ 53).
Example C57_limit_refuted : exists (c : ctx f64) (n : node f64) v,
  ctx_wf c /\ node_wf n /\ written c n /\ arithmetic n /\
  inputs_all (fun x => f64_valid x /\ whole x) c n /\ parts_within (2 ^ 53 + 1) c n /\
  evaluate n c = (c, Ok v) /\
  f64_real (vat f64_zero v []) <> tat (real_value 0 sp c n) [].
Proof.
  assert (R53 : f64_real (big) = 2 ^ 53) by (unfold big; vm_compute f64_of_Z; unfold f64_real; simpl; lra).
  exists (fun _ => Some (VScal (big))), (Un AddOne (Var 0%nat)), (VScal (big)).
  split; [intros i v E; inversion E; exact Logic.I|].
  split; [cbn; auto|]. split; [cbn; auto|]. split; [cbn; auto|].
  split.
  { split; [|cbn; auto]; intros i v E d ix Bx; inversion E; subst v; cbn [vat].
    split; [reflexivity|split; [exact Logic.I|]]; exists (2 ^ 53)%Z; rewrite R53, pow_IZR; reflexivity. }
  assert (0 < 2 ^ 53) by (apply pow_lt; lra).
  split.
  { cbn [parts_within]; unfold magnitude; cbn -[f64_real big pow].
    rewrite R53, (Rabs_pos_eq (2 ^ 53)) by lra; repeat split; intros; lra. }
  split; [vm_compute; reflexivity|].
  unfold real_value; cbn -[f64_real big pow]; rewrite R53; lra.
Qed.
(** Products of floats whose exponents are not too small do not underflow. *)
Definition safe (x y : f64) : bool :=
  match x, y with S754_finite _ _ e, S754_finite _ _ e' => Z.leb (-1022) (e + e') | _, _ => true end.
Lemma safe_normal x y : safe x y = true -> normal_product x y.
Proof.
  unfold normal_product; destruct x as [|?| |s m e]; try (left; cbn [f64_real]; ring).
  destruct y as [|?| |s' m' e']; try (left; cbn [f64_real]; ring).
  intro H; apply Z.leb_le in H; right; cbn [f64_real].
  rewrite !Rabs_mult, !(Rabs_pos_eq (powerRZ 2 _)) by (apply powerRZ_le; lra).
  assert (Hs : forall b : bool, Rabs (if b then -1 else 1) = 1) by (intros [|]; [rewrite Rabs_left; lra|apply Rabs_R1]).
  rewrite !Hs, !(Rabs_pos_eq (IZR _)) by (apply IZR_le; lia).
  assert (A : 1 <= IZR (Z.pos m)) by (apply IZR_le; lia).
  assert (B : 1 <= IZR (Z.pos m')) by (apply IZR_le; lia).
  assert (P : / 2 ^ 1022 <= powerRZ 2 e * powerRZ 2 e').
  { rewrite <- powerRZ_add by lra.
    apply Rle_trans with (powerRZ 2 (-1022)); [right; reflexivity|].
    replace (e + e')%Z with (-1022 + Z.of_nat (Z.to_nat (e + e' + 1022)))%Z by lia.
    rewrite powerRZ_add, <- pow_powerRZ by lra.
    assert (1 <= 2 ^ Z.to_nat (e + e' + 1022)) by (apply pow_R1_Rle; lra).
    assert (0 < powerRZ 2 (-1022)) by (apply powerRZ_lt; lra); nra. }
  assert (0 < powerRZ 2 e) by (apply powerRZ_lt; lra).
  assert (0 < powerRZ 2 e') by (apply powerRZ_lt; lra).
  apply Rle_trans with (1 := P).
  assert (powerRZ 2 e <= IZR (Z.pos m) * powerRZ 2 e) by nra.
  assert (powerRZ 2 e' <= IZR (Z.pos m') * powerRZ 2 e') by nra.
  rewrite !Rmult_1_l; apply Rmult_le_compat; lra.
Qed.

Lemma box2 ix : in_box [2%nat] ix -> ix = [0%nat] \/ ix = [1%nat].
Proof.
  intro H; inversion H as [|i d l l' Hi H']; subst; inversion H'; subst.
  destruct i as [|[|i]]; auto; lia.
Qed.
Lemma box22 ix : in_box [2%nat; 2%nat] ix ->
  ix = [0%nat; 0%nat] \/ ix = [0%nat; 1%nat] \/ ix = [1%nat; 0%nat] \/ ix = [1%nat; 1%nat].
Proof.
  intro H; inversion H as [|i d l l' Hi H']; subst; apply box2 in H'.
  destruct i as [|[|i]]; [| |lia]; destruct H' as [-> | ->]; auto.
Qed.

(** README.md:51-56 in f64: squared error of a linear prediction with two weights, with the numbers
    0.1, 0.2 and 0.3. *)
Definition data : ctx f64 := fun i => match i with
  | 0%nat => Some (VArr [2%nat] (AN [AF tenth; AF three_tenths]))
  | 1%nat => Some (VArr [2%nat] (AN [AF fifth; AF tenth]))
  | 2%nat => Some (VScal three_tenths)
  | _ => None end.

Ltac entries :=
  repeat match goal with
  | H : in_box [] ?ix |- _ => inversion H; subst ix; clear H
  | H : in_box [_] ?ix |- _ => apply box2 in H; destruct H as [-> | ->]
  | H : in_box [_; _] ?ix |- _ => apply box22 in H; destruct H as [-> | [-> | [-> | ->]]]
  end; apply safe_normal; reflexivity.

Example C60_example : let n := sse 0%nat 1%nat 2%nat in
  exists n' w, ctx_wf data /\ node_wf n /\ inputs_all f64_valid data n /\ adjoint n 1%nat = Some n' /\
  (exists G, posed G (ctx_through f64_real data) 1%nat (node_through f64_real n) (node_through f64_real n')) /\
  @regular R (R_scalar 0 sp) (real_un 0 sp) (ctx_through f64_real data) (node_through f64_real n) /\
  smooth 0 sp (ctx_through f64_real data) 1%nat (node_through f64_real n) /\
  ring_tree n' /\ regular un_fn data n' /\ no_tiny_product data n' /\ adjoint_roundings data n' = 12%nat /\
  evaluate_adjoint n 1%nat data = Some (data, Ok w) /\ dims (vshape w) = [2%nat] /\
  finite (vat f64_zero w [0%nat]) /\ finite (vat f64_zero w [1%nat]).
Proof.
  cbn zeta; eexists; eexists.
  split; [intros [|[|[|i]]] v E; inversion E; cbn; repeat constructor|].
  split; [cbn; auto|].
  split.
  { split; [|cbn; auto]; intros [|[|[|i]]] v E d ix Bx; inversion E; subst v; cbn in Bx;
      try (apply box2 in Bx; destruct Bx as [-> | ->]); reflexivity. }
  split; [reflexivity|].
  split.
  { exists (fun i => match i with 0%nat | 1%nat => Some (KA [2%nat]) | 2%nat => Some KS | _ => None end).
    constructor; try reflexivity.
    - intros [|[|[|i]]] v E; inversion E; subst; cbn; repeat constructor.
    - intros i; cbn [uses node_through sse]; intros [[[-> | ->] | ->] | ->]; discriminate.
    - cbn; auto.
    - cbn; auto.
    - discriminate.
    - discriminate.
    - cbn; repeat split; auto; intros kl kr E1 E2; injection E1 as <-; injection E2 as <-; auto.
    - cbn; repeat split; auto; intros kl kr E1 E2; injection E1 as <-; injection E2 as <-; auto. }
  split; [cbn; repeat split; auto; unfold keeps_order; cbn; auto|].
  split.
  { cbn [smooth node_through sse]; split; [split; [split; [auto|split; [auto|]]|auto]|intros; exact Logic.I].
    right; apply symmetric_absent; reflexivity. }
  split; [cbn; auto|].
  split; [cbn; repeat split; auto; unfold keeps_order; cbn; auto|].
  split.
  { unfold no_tiny_product; cbn [no_tiny_product_in]; unfold normal_products_in.
    repeat match goal with |- _ /\ _ => split | |- True => exact Logic.I end;
      intros x y Ex Ey ix jx Bx By _; vm_compute in Ex, Ey; injection Ex as <-; injection Ey as <-;
      cbn in Bx, By; entries. }
  split; [reflexivity|].
  split; [vm_compute; reflexivity|].
  split; [reflexivity|split; exact Logic.I].
Qed.

(** The same data: the conditions of C61 hold and the gradient is inexact. *)
Example C61_example :
  let xs := [tenth; three_tenths] in
  let ws := [fifth; tenth] in
  exists e g, is_zero (fzero : f64) = true /\
  data 0%nat = Some (VArr [2%nat] (AN (map AF xs))) /\ data 1%nat = Some (VArr [2%nat] (AN (map AF ws))) /\
  data 2%nat = Some (VScal three_tenths) /\
  Forall f64_valid xs /\ Forall f64_valid ws /\ f64_valid three_tenths /\
  evaluate (Un Double (Sub (Contract 1 (Var 0%nat) (Var 1%nat)) (Var 2%nat))) data = (data, Ok (VScal e)) /\
  Forall (fun p => normal_product (fst p) (snd p)) (combine xs ws) /\
  Forall (normal_product e) xs /\
  evaluate_adjoint (sse 0%nat 1%nat 2%nat) 1%nat data = Some (data, Ok (VArr [2%nat] (AN (map AF g)))) /\
  finite (nth 0 g f64_zero) /\
  f64_real (nth 0 g f64_zero) <>
    2 * (f64_real tenth * f64_real fifth + f64_real three_tenths * f64_real tenth - f64_real three_tenths)
      * f64_real tenth.
Proof.
  destruct reals as (R1 & R2 & R3).
  cbn zeta; eexists; eexists [_; _]; split; [reflexivity|]; split; [reflexivity|]; split; [reflexivity|]; split; [reflexivity|].
  split; [repeat constructor|]; split; [repeat constructor|]; split; [reflexivity|].
  split; [vm_compute; reflexivity|].
  split; [apply Forall_cons; [apply safe_normal; reflexivity|apply Forall_cons; [apply safe_normal; reflexivity|apply Forall_nil]]|].
  split; [apply Forall_cons; [apply safe_normal; reflexivity|apply Forall_cons; [apply safe_normal; reflexivity|apply Forall_nil]]|].
  split; [vm_compute; reflexivity|].
  split; [exact Logic.I|].
  rewrite R1, R2, R3; cbn [nth]; unfold f64_real; simpl; lra.
Qed.

End Cases.

(** C58: a function meeting both conditions on gamma, and [3! = 6] with it. *)
Fixpoint descend (k : nat) (y : R) : R := match k with O => 1 | S k => y * descend k (y - 1) end.
Definition gamma_like (f : libfn) (x : R) : R := descend (Z.to_nat (Int_part x) - 1) (x - 1).

Example C58_example_factorial :
  gamma_like Lgamma 1 = 1 /\
  (forall x, 1 <= x -> gamma_like Lgamma (x + 1) = x * gamma_like Lgamma x) /\
  @evaluate R (R_scalar 0 gamma_like) (factorial (Var 0%nat)) (fun _ => Some (VScal 3))
    = (fun _ => Some (VScal 3), Ok (VScal (gamma_like Lgamma (3 + 1)))) /\
  gamma_like Lgamma (3 + 1) = 6.
Proof.
  assert (IP : forall (k : Z) r, IZR k <= r < IZR k + 1 -> Int_part r = k).
  { intros k r H; unfold Int_part; rewrite <- (tech_up r (k + 1)); [lia| |]; rewrite plus_IZR; lra. }
  split; [unfold gamma_like; rewrite (IP 1%Z) by lra; reflexivity|].
  split.
  { intros x H; unfold gamma_like.
    destruct (base_Int_part x) as [L U]; set (k := Int_part x) in *.
    assert (K1 : (1 <= k)%Z) by (enough (0 < k)%Z by lia; apply lt_IZR; lra).
    rewrite (IP (k + 1)%Z (x + 1)) by (rewrite plus_IZR; lra).
    replace (Z.to_nat (k + 1) - 1)%nat with (S (Z.to_nat k - 1)) by lia.
    cbn [descend]; replace (x + 1 - 1) with x by ring; reflexivity. }
  split; [reflexivity|].
  unfold gamma_like; rewrite (IP 4%Z) by lra; simpl; lra.
Qed.

(** Error functions returning [3/4] and [2^-60]. *)
Definition three_quarters : f64 := S754_finite false 6755399441055744 (-53).
Definition small : f64 := S754_finite false 4503599627370496 (-112).
Example C58_example_erfc :
  f64_valid three_quarters /\ / 2 <= f64_real three_quarters <= 1 /\
  f64_valid small /\ 0 < f64_real small <= / 2 ^ 54 /\
  SFsub 53 1024 (f64_of_Z 1) (SFsub 53 1024 (f64_of_Z 1) three_quarters) = three_quarters /\
  SFsub 53 1024 (f64_of_Z 1) (SFsub 53 1024 (f64_of_Z 1) small) = f64_zero.
Proof.
  split; [reflexivity|]. split; [unfold three_quarters, f64_real; simpl; lra|].
  split; [reflexivity|]. split; [unfold small, f64_real; simpl; lra|].
  split; vm_compute; reflexivity.
Qed.

(** An exponential with four values: one at zero, [3/8] below, zero at minus infinity. *)
Definition coarse (f : libfn) (z : f64) : f64 := match z with
  | S754_zero _ => f64_of_Z 1
  | S754_finite true _ _ => S754_finite false 6755399441055744 (-54)
  | S754_finite false _ _ => f64_of_Z 2
  | _ => f64_zero end.

Example C59_example : forall z, f64_valid z -> SFleb z f64_zero = true ->
  f64_valid (coarse Lexp z) /\ finite (coarse Lexp z) /\ 0 <= f64_real (coarse Lexp z) <= 1.
Proof.
  intros [[]|[]| |[] m e] V L; cbn in L; try discriminate;
    (split; [reflexivity|split; [exact Logic.I|]]); unfold f64_real; simpl; lra.
Qed.

(** At [-1] its relative error is below a quarter. *)
Example C59_example_error :
  let x := f64_of_Z (-1) in
  f64_valid x /\ finite x /\ SFleb f64_zero x = false /\ f64_valid (coarse Lexp x) /\
  Rabs (f64_real (coarse Lexp x) - exp (f64_real x)) <= / 4 * exp (f64_real x) /\
  / 2 ^ 1021 <= f64_real (coarse Lexp x) <= 1.
Proof.
  cbn zeta; split; [reflexivity|]. split; [exact Logic.I|]. split; [reflexivity|]. split; [reflexivity|].
  assert (X : f64_real (f64_of_Z (-1)) = - (1)) by (vm_compute f64_of_Z; unfold f64_real; simpl; lra).
  assert (E : f64_real (coarse Lexp (f64_of_Z (-1))) = 3 / 8) by (vm_compute f64_of_Z; unfold f64_real; simpl; lra).
  rewrite E, X, exp_Ropp.
  assert (L := exp_ineq1_le 1); assert (U := exp_le_3); assert (P := exp_pos 1).
  assert (I1 : / exp 1 * exp 1 = 1) by (apply Rinv_l; lra).
  assert (I2 : 0 < / exp 1) by (apply Rinv_0_lt_compat; lra).
  split; [apply Rabs_le; split; nra|].
  split; [|lra]; apply Rle_trans with (/ 2 ^ 2); [|simpl; lra].
  apply Rinv_le_contravar; [apply pow_lt; lra|apply Rle_pow; [lra|lia]].
Qed.
