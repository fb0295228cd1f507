(** The same in f32 (property C78): the statements of Properties_float.v for every binary floating-point
    format with rounding to nearest, [prec] binary digits and exponents below [emax].  f64 is
    [prec = 53], [emax = 1024]; f32 (scalars.rs:106) is [prec = 24], [emax = 128]. *)
From Coq Require Import List Arith ZArith Reals SpecFloat Lia Lra.
Import ListNotations.
From Verif Require Import Base Shapes Scalar Buffers Spec Contraction Node Eval Types Instances
  Vocab Math Real_math Calculus Code_math Float_math Float_facts Float_claims Special_claims
  Calculus_claims Gradient_claims Positive_claims Overflow_claims Monotone_claims Scale_claims Programs
  Regression_claims.
Local Open Scope R_scope.

(** C56: every finite entry of an expression of ring operations, sums, contractions and absolute
    values is within [(1 + 2^-prec)^k - 1] times the magnitude from the exact value. *)
Theorem C78_forward_error : forall (prec emax : Z), (2 <= prec < emax)%Z ->
  forall (pow : f64 -> f64 -> f64) (lib : libfn -> f64 -> f64)
  (inf : R) (sp : libfn -> R -> R),
  let S := float_scalar prec emax pow lib in
  forall (c c' : ctx f64) (n : node f64) (v : value f64) ix,
  ctx_wf c -> node_wf n -> written c n -> arithmetic n -> inputs_all (float_valid prec emax) c n ->
  no_underflow_in c emax n -> evaluate n c = (c', Ok v) ->
  in_box (dims (vshape v)) ix -> finite (vat f64_zero v ix) ->
  Rabs (f64_real (vat f64_zero v ix) - tat (real_value inf sp c n) ix)
    <= ((1 + / 2 ^ Z.to_nat prec) ^ roundings c n - 1) * tat (magnitude c n) ix.
Proof. exact @forward_error. Qed.
Print Assumptions C78_forward_error.

(** The same with the usual closed form of the factor. *)
Theorem C78_forward_gamma : forall (prec emax : Z), (2 <= prec < emax)%Z ->
  forall (pow : f64 -> f64 -> f64) (lib : libfn -> f64 -> f64)
  (inf : R) (sp : libfn -> R -> R),
  let S := float_scalar prec emax pow lib in
  forall (c c' : ctx f64) (n : node f64) (v : value f64) ix,
  ctx_wf c -> node_wf n -> written c n -> arithmetic n -> inputs_all (float_valid prec emax) c n ->
  no_underflow_in c emax n -> evaluate n c = (c', Ok v) ->
  in_box (dims (vshape v)) ix -> finite (vat f64_zero v ix) ->
  INR (roundings c n) * / 2 ^ Z.to_nat prec < 1 ->
  Rabs (f64_real (vat f64_zero v ix) - tat (real_value inf sp c n) ix)
    <= INR (roundings c n) * / 2 ^ Z.to_nat prec / (1 - INR (roundings c n) * / 2 ^ Z.to_nat prec)
       * tat (magnitude c n) ix.
Proof. exact @forward_gamma. Qed.
Print Assumptions C78_forward_gamma.

(** The sum of a vector, in plain terms. *)
Theorem C78_sum : forall (prec emax : Z), (2 <= prec < emax)%Z ->
  forall (pow : f64 -> f64 -> f64) (lib : libfn -> f64 -> f64),
  let S := float_scalar prec emax pow lib in
  forall (l : list f64) (c : ctx f64) i s,
  ctx_wf c -> (forall j v, c j = Some v -> entries_all (float_valid prec emax) v) ->
  c i = Some (VVec l) -> evaluate (Sum (Var i)) c = (c, Ok (VScal s)) -> finite s ->
  Rabs (f64_real s - fold_right Rplus 0 (map f64_real l))
    <= ((1 + / 2 ^ Z.to_nat prec) ^ (length l - 1) - 1)
       * fold_right Rplus 0 (map (fun x => Rabs (f64_real x)) l).
Proof. exact @sum_error. Qed.
Print Assumptions C78_sum.

(** The scalar product of two vectors, in plain terms. *)
Theorem C78_dot : forall (prec emax : Z), (2 <= prec < emax)%Z ->
  forall (pow : f64 -> f64 -> f64) (lib : libfn -> f64 -> f64),
  let S := float_scalar prec emax pow lib in
  forall (xs ys : list f64) (c : ctx f64) i j s,
  ctx_wf c -> (forall k v, c k = Some v -> entries_all (float_valid prec emax) v) ->
  c i = Some (VArr [length xs] (AN (map AF xs))) -> c j = Some (VArr [length xs] (AN (map AF ys))) ->
  length xs = length ys ->
  Forall (fun p => (normal_product_in emax) (fst p) (snd p)) (combine xs ys) ->
  evaluate (Contract 1 (Var i) (Var j)) c = (c, Ok (VScal s)) -> finite s ->
  Rabs (f64_real s - fold_right Rplus 0
                       (map (fun p => f64_real (fst p) * f64_real (snd p)) (combine xs ys)))
    <= ((1 + / 2 ^ Z.to_nat prec) ^ length xs - 1) *
       fold_right Rplus 0
         (map (fun p => Rabs (f64_real (fst p)) * Rabs (f64_real (snd p))) (combine xs ys)).
Proof. exact @dot_error. Qed.
Print Assumptions C78_dot.

(** C57: exact on whole numbers as long as no part exceeds [2^prec] in magnitude. *)
Theorem C78_whole_exact : forall (prec emax : Z), (2 <= prec < emax)%Z ->
  forall (pow : f64 -> f64 -> f64) (lib : libfn -> f64 -> f64)
  (inf : R) (sp : libfn -> R -> R),
  let S := float_scalar prec emax pow lib in
  forall (c c' : ctx f64) (n : node f64) (v : value f64) ix,
  ctx_wf c -> node_wf n -> written c n -> arithmetic n ->
  inputs_all (fun x => float_valid prec emax x /\ whole x) c n -> parts_within (2 ^ Z.to_nat prec) c n ->
  evaluate n c = (c', Ok v) -> in_box (dims (vshape v)) ix ->
  finite (vat f64_zero v ix) /\
  f64_real (vat f64_zero v ix) = tat (real_value inf sp c n) ix.
Proof. exact @whole_exact. Qed.
Print Assumptions C78_whole_exact.

(** C58: [op == 1 - op.complement()] to the last bit where the error function is in [1/2, 1]. *)
Theorem C78_erfc : forall (prec emax : Z), (2 <= prec < emax)%Z ->
  forall (pow : f64 -> f64 -> f64) (lib : libfn -> f64 -> f64),
  let S := float_scalar prec emax pow lib in
  forall (m : node f64) c c' v ix, vwf v -> evaluate m c = (c', Ok v) ->
  in_box (dims (vshape v)) ix ->
  float_valid prec emax (lib Lerf (vat f64_zero v ix)) -> / 2 <= f64_real (lib Lerf (vat f64_zero v ix)) <= 1 ->
  exists e w, evaluate (Un Erf m) c = (c', Ok e) /\ evaluate (erfc m) c = (c', Ok w) /\
    vat f64_zero e ix = SFsub prec emax (float_of_Z prec emax 1) (vat f64_zero w ix).
Proof. exact @erfc_f64. Qed.
Print Assumptions C78_erfc.

(** C59: the sigmoid is a number of [1/2, 1] or [0, 1/2], on the correct side of a half. *)
Theorem C78_sigmoid_range : forall (prec emax : Z), (2 <= prec < emax)%Z ->
  forall (pow : f64 -> f64 -> f64) (lib : libfn -> f64 -> f64),
  let S := float_scalar prec emax pow lib in
  (forall z, float_valid prec emax z -> SFleb z f64_zero = true ->
    float_valid prec emax (lib Lexp z) /\ finite (lib Lexp z) /\ 0 <= f64_real (lib Lexp z) <= 1) ->
  forall x, float_valid prec emax x -> x <> S754_nan ->
  float_valid prec emax (sigmoid x) /\ finite (sigmoid x) /\
  (SFleb f64_zero x = true -> / 2 <= f64_real (sigmoid x) <= 1) /\
  (SFleb f64_zero x = false -> 0 <= f64_real (sigmoid x) <= / 2).
Proof. exact @sigmoid_f64_range. Qed.
Print Assumptions C78_sigmoid_range.

(** The same for the entries of [m.sigmoid()]. *)
Theorem C78_sigmoid_node : forall (prec emax : Z), (2 <= prec < emax)%Z ->
  forall (pow : f64 -> f64 -> f64) (lib : libfn -> f64 -> f64),
  let S := float_scalar prec emax pow lib in
  (forall z, float_valid prec emax z -> SFleb z f64_zero = true ->
    float_valid prec emax (lib Lexp z) /\ finite (lib Lexp z) /\ 0 <= f64_real (lib Lexp z) <= 1) ->
  forall (m : node f64) c c' v, vwf v -> evaluate m c = (c', Ok v) ->
  (forall ix, in_box (dims (vshape v)) ix ->
    float_valid prec emax (vat f64_zero v ix) /\ vat f64_zero v ix <> S754_nan) ->
  exists w, evaluate (Un Sigmoid m) c = (c', Ok w) /\ vshape w = vshape v /\
    forall ix, in_box (dims (vshape v)) ix ->
      finite (vat f64_zero w ix) /\ 0 <= f64_real (vat f64_zero w ix) <= 1.
Proof. exact @sigmoid_node_range. Qed.
Print Assumptions C78_sigmoid_node.

(** The relative error of the sigmoid. *)
Theorem C78_sigmoid_error : forall (prec emax : Z), (2 <= prec < emax)%Z ->
  forall (pow : f64 -> f64 -> f64) (lib : libfn -> f64 -> f64),
  let S := float_scalar prec emax pow lib in
  forall (h : R) x, 0 <= h < 1 -> float_valid prec emax x -> finite x ->
  let z := if SFleb f64_zero x then SFopp x else x in
  let e := lib Lexp z in
  float_valid prec emax e -> finite e -> f64_real e <= 1 ->
  Rabs (f64_real e - exp (f64_real z)) <= h * exp (f64_real z) ->
  (SFleb f64_zero x = false -> / 2 ^ Z.to_nat (emax - 3) <= f64_real e) ->
  Rabs (f64_real (sigmoid x) - / (1 + exp (- f64_real x)))
    <= ((1 + / 2 ^ Z.to_nat prec) / ((1 - / 2 ^ Z.to_nat prec) * (1 - h)) - 1) * / (1 + exp (- f64_real x)).
Proof. exact @sigmoid_error. Qed.
Print Assumptions C78_sigmoid_error.

(** C60: trees of ring operations with derivatives of variables, whatever short cuts are taken. *)
Theorem C78_tree_error : forall (prec emax : Z), (2 <= prec < emax)%Z ->
  forall (pow : f64 -> f64 -> f64) (lib : libfn -> f64 -> f64)
  (inf : R) (sp : libfn -> R -> R),
  let S := float_scalar prec emax pow lib in
  forall (c c' : ctx f64) (n : node f64) (v : value f64) ix,
  ctx_wf c -> node_wf n -> ring_tree n -> regular un_fn c n -> inputs_all (float_valid prec emax) c n ->
  no_tiny_product_in c emax n -> evaluate n c = (c', Ok v) ->
  in_box (dims (vshape v)) ix -> finite (vat f64_zero v ix) ->
  Rabs (f64_real (vat f64_zero v ix) - tat (exact_value inf sp c n) ix)
    <= ((1 + / 2 ^ Z.to_nat prec) ^ adjoint_roundings c n - 1) * tat (size_value c n) ix.
Proof. exact @tree_error. Qed.
Print Assumptions C78_tree_error.

(** So the computed gradient is that close to the partial derivatives over the reals. *)
Theorem C78_gradient_error : forall (prec emax : Z), (2 <= prec < emax)%Z ->
  forall (pow : f64 -> f64 -> f64) (lib : libfn -> f64 -> f64)
  (inf : R) (sp : libfn -> R -> R),
  let S := float_scalar prec emax pow lib in
  forall G (c c' : ctx f64) t (n n' : node f64) (w x : value f64) i j,
  ctx_wf c -> node_wf n -> inputs_all (float_valid prec emax) c n -> adjoint n t = Some n' ->
  posed G (ctx_through f64_real c) t (node_through f64_real n) (node_through f64_real n') ->
  @regular R (R_scalar inf sp) (real_un inf sp) (ctx_through f64_real c) (node_through f64_real n) ->
  smooth inf sp (ctx_through f64_real c) t (node_through f64_real n) ->
  ring_tree n' -> no_tiny_product_in c emax n' ->
  evaluate_adjoint n t c = Some (c', Ok w) -> c t = Some x ->
  in_box (dims (vshape w)) (i ++ j) -> in_box (dims (vshape x)) j ->
  finite (vat f64_zero w (i ++ j)) ->
  exists d,
    derivable_pt_lim
      (fun h => entry inf sp (node_through f64_real n) (bump (ctx_through f64_real c) t j h) i) 0 d /\
    Rabs (f64_real (vat f64_zero w (i ++ j)) - d)
      <= ((1 + / 2 ^ Z.to_nat prec) ^ adjoint_roundings c n' - 1) * tat (size_value c n') (i ++ j).
Proof. exact @gradient_error. Qed.
Print Assumptions C78_gradient_error.

(** C72: high relative accuracy of expressions that do not subtract. *)
Theorem C78_relative_error : forall (prec emax : Z), (2 <= prec < emax)%Z ->
  forall (pow : f64 -> f64 -> f64) (lib : libfn -> f64 -> f64)
  (inf : R) (sp : libfn -> R -> R),
  let S := float_scalar prec emax pow lib in
  forall (c c' : ctx f64) (n : node f64) (v : value f64) ix,
  ctx_wf c -> node_wf n -> written c n -> subtraction_free n ->
  inputs_all (fun x => float_valid prec emax x /\ 0 <= f64_real x) c n ->
  no_underflow_in c emax n -> evaluate n c = (c', Ok v) ->
  in_box (dims (vshape v)) ix -> finite (vat f64_zero v ix) ->
  tat (real_value inf sp c n) ix * (1 - / 2 ^ Z.to_nat prec) ^ roundings c n <= f64_real (vat f64_zero v ix) /\
  f64_real (vat f64_zero v ix) * (1 - / 2 ^ Z.to_nat prec) ^ roundings c n <= tat (real_value inf sp c n) ix.
Proof. exact @relative_error. Qed.
Print Assumptions C78_relative_error.

(** The exact value is not negative, and the computed one is zero exactly when it is. *)
Theorem C78_relative_zero : forall (prec emax : Z), (2 <= prec < emax)%Z ->
  forall (pow : f64 -> f64 -> f64) (lib : libfn -> f64 -> f64)
  (inf : R) (sp : libfn -> R -> R),
  let S := float_scalar prec emax pow lib in
  forall (c c' : ctx f64) (n : node f64) (v : value f64) ix,
  ctx_wf c -> node_wf n -> written c n -> subtraction_free n ->
  inputs_all (fun x => float_valid prec emax x /\ 0 <= f64_real x) c n ->
  no_underflow_in c emax n -> evaluate n c = (c', Ok v) ->
  in_box (dims (vshape v)) ix -> finite (vat f64_zero v ix) ->
  0 <= tat (real_value inf sp c n) ix /\
  (f64_real (vat f64_zero v ix) = 0 <-> tat (real_value inf sp c n) ix = 0).
Proof. exact @relative_pos. Qed.
Print Assumptions C78_relative_zero.

(** The relative error in its usual closed form. *)
Theorem C78_relative_gamma : forall (prec emax : Z), (2 <= prec < emax)%Z ->
  forall (pow : f64 -> f64 -> f64) (lib : libfn -> f64 -> f64)
  (inf : R) (sp : libfn -> R -> R),
  let S := float_scalar prec emax pow lib in
  forall (c c' : ctx f64) (n : node f64) (v : value f64) ix,
  ctx_wf c -> node_wf n -> written c n -> subtraction_free n ->
  inputs_all (fun x => float_valid prec emax x /\ 0 <= f64_real x) c n ->
  no_underflow_in c emax n -> evaluate n c = (c', Ok v) ->
  in_box (dims (vshape v)) ix -> finite (vat f64_zero v ix) ->
  INR (roundings c n) * / 2 ^ Z.to_nat prec < 1 ->
  Rabs (f64_real (vat f64_zero v ix) - tat (real_value inf sp c n) ix)
    <= INR (roundings c n) * / 2 ^ Z.to_nat prec / (1 - INR (roundings c n) * / 2 ^ Z.to_nat prec)
       * tat (real_value inf sp c n) ix.
Proof. exact @relative_gamma. Qed.
Print Assumptions C78_relative_gamma.

(** The weighted mean of [m] numbers, in plain terms: [2 m] roundings. *)
Theorem C78_mean : forall (prec emax : Z), (2 <= prec < emax)%Z ->
  forall (pow : f64 -> f64 -> f64) (lib : libfn -> f64 -> f64),
  let S := float_scalar prec emax pow lib in
  forall (xs ws : list f64) (c : ctx f64) i j p q s,
  ctx_wf c ->
  (forall k v, c k = Some v -> entries_all (fun x => float_valid prec emax x /\ 0 <= f64_real x) v) ->
  c i = Some (VArr [length xs] (AN (map AF xs))) -> c j = Some (VArr [length xs] (AN (map AF ws))) ->
  length xs = length ws -> xs <> [] ->
  Forall (fun p => (normal_product_in emax) (fst p) (snd p)) (combine xs ws) ->
  evaluate (Contract 1 (Var i) (Var j)) c = (c, Ok (VScal p)) ->
  evaluate (Sum (Var j)) c = (c, Ok (VScal q)) -> (normal_quotient_in emax) p q ->
  evaluate (Div (Contract 1 (Var i) (Var j)) (Sum (Var j))) c = (c, Ok (VScal s)) -> finite s ->
  let e := fold_right Rplus 0
             (map (fun p => f64_real (fst p) * f64_real (snd p)) (combine xs ws))
           / fold_right Rplus 0 (map f64_real ws) in
  e * (1 - / 2 ^ Z.to_nat prec) ^ (2 * length xs) <= f64_real s /\
  f64_real s * (1 - / 2 ^ Z.to_nat prec) ^ (2 * length xs) <= e.
Proof. exact @mean_error. Qed.
Print Assumptions C78_mean.

(** C75: no overflow as long as the magnitudes leave room for the rounding errors. *)
Theorem C78_room : forall (prec emax : Z), (2 <= prec < emax)%Z ->
  forall (pow : f64 -> f64 -> f64) (lib : libfn -> f64 -> f64)
  (inf : R) (sp : libfn -> R -> R),
  let S := float_scalar prec emax pow lib in
  forall (c c' : ctx f64) (n : node f64) (v : value f64) (b : R) ix,
  ctx_wf c -> node_wf n -> written c n -> arithmetic n ->
  inputs_all (fun x => float_valid prec emax x /\ finite x) c n -> no_underflow_in c emax n ->
  2 <= b -> parts_within b c n -> (1 + / 2 ^ Z.to_nat prec) ^ roundings c n * b < 2 ^ Z.to_nat emax ->
  evaluate n c = (c', Ok v) -> in_box (dims (vshape v)) ix ->
  finite (vat f64_zero v ix) /\
  Rabs (f64_real (vat f64_zero v ix) - tat (real_value inf sp c n) ix)
    <= ((1 + / 2 ^ Z.to_nat prec) ^ roundings c n - 1) * tat (magnitude c n) ix.
Proof. exact @no_overflow. Qed.
Print Assumptions C78_room.

(** In particular with magnitudes of at most [2^(emax - 1)] and fewer than [2^(prec - 1)] roundings. *)
Theorem C78_no_overflow : forall (prec emax : Z), (2 <= prec < emax)%Z ->
  forall (pow : f64 -> f64 -> f64) (lib : libfn -> f64 -> f64)
  (inf : R) (sp : libfn -> R -> R),
  let S := float_scalar prec emax pow lib in
  forall (c c' : ctx f64) (n : node f64) (v : value f64) ix,
  ctx_wf c -> node_wf n -> written c n -> arithmetic n ->
  inputs_all (fun x => float_valid prec emax x /\ finite x) c n -> no_underflow_in c emax n ->
  parts_within (2 ^ Z.to_nat (emax - 1)) c n -> INR (roundings c n) < 2 ^ Z.to_nat (prec - 1) ->
  evaluate n c = (c', Ok v) -> in_box (dims (vshape v)) ix ->
  finite (vat f64_zero v ix) /\
  Rabs (f64_real (vat f64_zero v ix) - tat (real_value inf sp c n) ix)
    <= ((1 + / 2 ^ Z.to_nat prec) ^ roundings c n - 1) * tat (magnitude c n) ix.
Proof. exact @no_overflow_plain. Qed.
Print Assumptions C78_no_overflow.

(** C76: rounding does not disturb the order. *)
Theorem C78_monotone : forall (prec emax : Z), (2 <= prec < emax)%Z ->
  forall (pow : f64 -> f64 -> f64) (lib : libfn -> f64 -> f64),
  (forall x y, float_valid prec emax (pow x y)) -> (forall f x, float_valid prec emax (lib f x)) ->
  let S := float_scalar prec emax pow lib in
  forall (c d : ctx f64) (up : bool) (c' d' : ctx f64) (n : node f64) (v w : value f64),
  ctx_wf c -> ctx_wf d -> node_wf n -> written c n -> written d n ->
  inputs_all (float_valid prec emax) c n -> inputs_all (float_valid prec emax) d n -> goes c d up n ->
  evaluate n c = (c', Ok v) -> evaluate n d = (d', Ok w) ->
  dims (vshape v) = dims (vshape w) /\
  forall ix, in_box (dims (vshape v)) ix ->
    finite (vat f64_zero v ix) -> finite (vat f64_zero w ix) ->
    if up then f64_real (vat f64_zero v ix) <= f64_real (vat f64_zero w ix)
    else f64_real (vat f64_zero w ix) <= f64_real (vat f64_zero v ix).
Proof. exact @monotone. Qed.
Print Assumptions C78_monotone.

(** Sums and products of numbers that are not negative. *)
Theorem C78_monotone_positive : forall (prec emax : Z), (2 <= prec < emax)%Z ->
  forall (pow : f64 -> f64 -> f64) (lib : libfn -> f64 -> f64),
  let S := float_scalar prec emax pow lib in
  forall (c d c' d' : ctx f64) (n : node f64) (v w : value f64),
  ctx_wf c -> ctx_wf d -> node_wf n -> written c n -> written d n -> adds_multiplies n ->
  inputs_all (fun x => float_valid prec emax x /\ finite x /\ 0 <= f64_real x) c n ->
  inputs_all (float_valid prec emax) d n -> (forall i, uses n i -> lower (c i) (d i)) ->
  evaluate n c = (c', Ok v) -> evaluate n d = (d', Ok w) ->
  dims (vshape v) = dims (vshape w) /\
  forall ix, in_box (dims (vshape v)) ix -> finite (vat f64_zero w ix) ->
    finite (vat f64_zero v ix) /\
    0 <= f64_real (vat f64_zero v ix) <= f64_real (vat f64_zero w ix).
Proof. exact @monotone_positive. Qed.
Print Assumptions C78_monotone_positive.

(** C77: scaling by powers of two does not change the digits. *)
Theorem C78_scaling : forall (prec emax : Z), (2 <= prec < emax)%Z ->
  forall (pow : f64 -> f64 -> f64) (lib : libfn -> f64 -> f64),
  let S := float_scalar prec emax pow lib in
  forall (w : ident -> Z) (c d c' d' : ctx f64) (n : node f64) (k : Z) (v u : value f64),
  ctx_wf c -> ctx_wf d -> node_wf n -> written c n -> written d n ->
  inputs_all (float_valid prec emax) c n -> inputs_all (float_valid prec emax) d n -> scaled_inputs w c d ->
  no_underflow_in c emax n -> no_underflow_in d emax n -> homogeneous w c n k ->
  evaluate n c = (c', Ok v) -> evaluate n d = (d', Ok u) ->
  dims (vshape v) = dims (vshape u) /\
  forall ix, in_box (dims (vshape v)) ix ->
    finite (vat f64_zero v ix) -> finite (vat f64_zero u ix) ->
    f64_real (vat f64_zero u ix) = powerRZ 2 k * f64_real (vat f64_zero v ix).
Proof. exact @scaling. Qed.
Print Assumptions C78_scaling.

(** Error bound and absence of overflow for f32, in numbers. *)
Theorem C78_f32_error : forall (pow : f64 -> f64 -> f64) (lib : libfn -> f64 -> f64)
  (inf : R) (sp : libfn -> R -> R),
  let S := f32_scalar pow lib in
  forall (c c' : ctx f64) (n : node f64) (v : value f64) ix,
  ctx_wf c -> node_wf n -> written c n -> arithmetic n -> inputs_all f32_valid c n ->
  no_underflow_in c 128 n -> evaluate n c = (c', Ok v) ->
  in_box (dims (vshape v)) ix -> finite (vat f64_zero v ix) ->
  Rabs (f64_real (vat f64_zero v ix) - tat (real_value inf sp c n) ix)
    <= ((1 + / 2 ^ 24) ^ roundings c n - 1) * tat (magnitude c n) ix.
Proof. exact (forward_error (prec := 24) (emax := 128)). Qed.
Print Assumptions C78_f32_error.

Theorem C78_f32_finite : forall (pow : f64 -> f64 -> f64) (lib : libfn -> f64 -> f64)
  (inf : R) (sp : libfn -> R -> R),
  let S := f32_scalar pow lib in
  forall (c c' : ctx f64) (n : node f64) (v : value f64) ix,
  ctx_wf c -> node_wf n -> written c n -> arithmetic n ->
  inputs_all (fun x => f32_valid x /\ finite x) c n -> no_underflow_in c 128 n ->
  parts_within (2 ^ 127) c n -> INR (roundings c n) < 2 ^ 23 ->
  evaluate n c = (c', Ok v) -> in_box (dims (vshape v)) ix ->
  finite (vat f64_zero v ix) /\
  Rabs (f64_real (vat f64_zero v ix) - tat (real_value inf sp c n) ix)
    <= ((1 + / 2 ^ 24) ^ roundings c n - 1) * tat (magnitude c n) ix.
Proof. exact (no_overflow_plain (prec := 24) (emax := 128)). Qed.
Print Assumptions C78_f32_finite.

(** C61: the gradient of the squared error of a linear prediction is, bit for bit, the computed value
    of [2 (x . w - y)] times each entry of [x]. *)
Theorem C78_regression_floats : forall (prec emax : Z), (2 <= prec < emax)%Z ->
  forall (pow : f64 -> f64 -> f64) (lib : libfn -> f64 -> f64),
  let S := float_scalar prec emax pow lib in
  forall (xs ws : list f64) (b e : f64) (x w y : ident) (c : ctx f64),
  x <> w -> y <> w -> length xs = length ws ->
  c x = Some (VArr [length xs] (AN (map AF xs))) -> c w = Some (VArr [length xs] (AN (map AF ws))) ->
  c y = Some (VScal b) ->
  Forall (float_valid prec emax) xs ->
  evaluate (Un Double (Sub (Contract 1 (Var x) (Var w)) (Var y))) c = (c, Ok (VScal e)) ->
  evaluate_adjoint (sse x w y) w c =
    Some (c, Ok (VArr [length xs] (AN (map AF (map (SFmul prec emax e) xs))))).
Proof. exact @regression_floats. Qed.
Print Assumptions C78_regression_floats.

(** So its error is that of [length xs + 2] roundings. *)
Theorem C78_regression_error : forall (prec emax : Z), (2 <= prec < emax)%Z ->
  forall (pow : f64 -> f64 -> f64) (lib : libfn -> f64 -> f64),
  let S := float_scalar prec emax pow lib in
  forall (xs ws : list f64) (b e : f64) (x w y : ident) (c : ctx f64) g j,
  x <> w -> y <> w -> length xs = length ws ->
  c x = Some (VArr [length xs] (AN (map AF xs))) -> c w = Some (VArr [length xs] (AN (map AF ws))) ->
  c y = Some (VScal b) ->
  Forall (float_valid prec emax) xs -> Forall (float_valid prec emax) ws -> float_valid prec emax b ->
  evaluate (Un Double (Sub (Contract 1 (Var x) (Var w)) (Var y))) c = (c, Ok (VScal e)) ->
  Forall (fun p => normal_product_in emax (fst p) (snd p)) (combine xs ws) ->
  Forall (normal_product_in emax e) xs ->
  evaluate_adjoint (sse x w y) w c = Some (c, Ok (VArr [length xs] (AN (map AF g)))) ->
  (j < length xs)%nat -> finite (nth j g f64_zero) ->
  Rabs (f64_real (nth j g f64_zero)
        - 2 * (fold_right Rplus 0
                 (map (fun p => f64_real (fst p) * f64_real (snd p)) (combine xs ws)) - f64_real b)
          * f64_real (nth j xs f64_zero))
    <= ((1 + / 2 ^ Z.to_nat prec) ^ (length xs + 2) - 1) *
       (2 * (fold_right Rplus 0
               (map (fun p => Rabs (f64_real (fst p)) * Rabs (f64_real (snd p))) (combine xs ws))
             + Rabs (f64_real b))
        * Rabs (f64_real (nth j xs f64_zero))).
Proof. exact @regression_error. Qed.
Print Assumptions C78_regression_error.

(** C47: the three gradients of the linear regression benchmark are the same floats, *)
Theorem C78_same_gradients : forall (prec emax : Z), (2 <= prec < emax)%Z ->
  forall (pow : f64 -> f64 -> f64) (lib : libfn -> f64 -> f64),
  let S := float_scalar prec emax pow lib in
  forall xs ws y,
  length xs = length ws -> Forall (float_valid prec emax) xs ->
  exists g, linear_auto (xyw xs y ws) = Ok (array1 g) /\ linear_by_hand (xyw xs y ws) = Ok (array1 g) /\
            linear_raw (xyw xs y ws) = Ok (array1 g) /\ length g = length ws.
Proof. exact @format_gradients_same. Qed.
Print Assumptions C78_same_gradients.

(** and so are the weights the three runs end with. *)
Theorem C78_same_runs : forall (prec emax : Z), (2 <= prec < emax)%Z ->
  forall (pow : f64 -> f64 -> f64) (lib : libfn -> f64 -> f64),
  let S := float_scalar prec emax pow lib in
  forall rate tw ws draws,
  Forall (fun xs => length xs = length ws /\ Forall (float_valid prec emax) xs) draws ->
  exists ws', linear_run linear_auto rate tw ws draws = Ok ws' /\
              linear_run linear_by_hand rate tw ws draws = Ok ws' /\
              linear_run linear_raw rate tw ws draws = Ok ws' /\ length ws' = length ws.
Proof. exact @format_runs_same. Qed.
Print Assumptions C78_same_runs.

(** * Cases *)
Section Cases.
Variables (powf : f64 -> f64 -> f64) (lib : libfn -> f64 -> f64) (sp : libfn -> R -> R).
#[local] Instance F32 : Scalar f64 := f32_scalar powf lib.

(** 0.1, 0.2 and 0.3 as read by Rust, in two variables. *)
Definition tenth : f64 := S754_finite false 13421773 (-27).
Definition fifth : f64 := S754_finite false 13421773 (-26).
Definition three_tenths : f64 := S754_finite false 10066330 (-25).
Definition rho : ctx f64 := fun i => match i with
  | 0%nat => Some (VVec [tenth; fifth; three_tenths])
  | 1%nat => Some (VVec [fifth; fifth; tenth])
  | _ => None end.
Definition tree : node f64 := Sum (Sub (Mul (Var 0%nat) (Var 1%nat)) (Var 0%nat)).

Lemma reals : f64_real tenth = 13421773 / 134217728 /\
  f64_real fifth = 13421773 / 67108864 /\
  f64_real three_tenths = 10066330 / 33554432.
Proof. unfold f64_real, tenth, fifth, three_tenths; simpl; lra. Qed.

Lemma normal_of x y : / 16 <= f64_real x -> / 16 <= f64_real y -> normal_product_in 128 x y.
Proof.
  intros Hx Hy; right; rewrite Rabs_pos_eq by nra.
  apply Rle_trans with (/ 2 ^ 8); [|simpl; nra].
  apply Rinv_le_contravar; [apply pow_lt; lra|apply Rle_pow; [lra|lia]].
Qed.

Lemma quotient_of x y : / 16 <= f64_real x -> / 16 <= f64_real y <= 4 -> normal_quotient_in 128 x y.
Proof.
  intros Hx Hy; split; [lra|]; right.
  assert (K : / 64 <= f64_real x / f64_real y).
  { apply Rmult_le_reg_r with (f64_real y); [lra|].
    unfold Rdiv; rewrite Rmult_assoc, Rinv_l by lra; lra. }
  rewrite Rabs_pos_eq by lra; apply Rle_trans with (2 := K).
  replace (/ 64) with (/ 2 ^ 6) by (simpl; lra).
  apply Rinv_le_contravar; [apply pow_lt; lra|apply Rle_pow; [lra|lia]].
Qed.

Lemma box3 ix : in_box [3%nat] ix -> ix = [0%nat] \/ ix = [1%nat] \/ ix = [2%nat].
Proof.
  intro H; inversion H as [|i d l l' Hi H']; subst; inversion H'; subst.
  destruct i as [|[|[|i]]]; auto; lia.
Qed.

(** [sum(x * y - x)]: four roundings at most, and the result is not exact. *)
Example C78_example_error :
  ctx_wf rho /\ node_wf tree /\ written rho tree /\ arithmetic tree /\
  inputs_all f32_valid rho tree /\ no_underflow_in rho 128 tree /\ roundings rho tree = 4%nat /\
  exists s, evaluate tree rho = (rho, Ok (VScal s)) /\ finite s /\
    f64_real s <> tat (real_value 0 sp rho tree) [].
Proof.
  destruct reals as (R1 & R2 & R3).
  split; [intros [|[|i]] v E; inversion E; exact Logic.I|].
  split; [cbn; auto|]. split; [cbn; auto|]. split; [cbn; auto|].
  split.
  { split; [|cbn; auto]; intros [|[|i]] v E d ix Bx; inversion E; subst v; cbn in Bx;
      apply box3 in Bx; destruct Bx as [->|[->| ->]]; reflexivity. }
  split.
  { cbn; split; [|exact Logic.I]; split; [exact Logic.I|split; [exact Logic.I|]]; intros ix Bx.
    apply box3 in Bx; destruct Bx as [->|[->| ->]]; cbn; apply normal_of; lra. }
  split; [reflexivity|].
  eexists; split; [vm_compute; reflexivity|]; split; [exact Logic.I|].
  unfold real_value; cbn -[f64_real]; rewrite R1, R2, R3; unfold f64_real; simpl; lra.
Qed.

(** Without the condition on products the bound fails: the square of the smallest positive number
    is rounded to zero. *)
Example C78_underflow_refuted : exists (c : ctx f64) (n : node f64) v,
  ctx_wf c /\ node_wf n /\ written c n /\ arithmetic n /\ inputs_all f32_valid c n /\
  evaluate n c = (c, Ok v) /\ finite (vat f64_zero v []) /\
  ~ Rabs (f64_real (vat f64_zero v []) - tat (real_value 0 sp c n) [])
      <= ((1 + / 2 ^ 24) ^ roundings c n - 1) * tat (magnitude c n) [].
Proof.
  exists (fun _ => Some (VScal (S754_finite false 1 (-149)))), (Mul (Var 0%nat) (Var 0%nat)), (VScal f64_zero).
  split; [intros i v E; inversion E; exact Logic.I|].
  split; [cbn; auto|]. split; [cbn; auto|]. split; [cbn; auto|].
  split.
  { split; [|cbn; auto]; intros i v E d ix Bx; inversion E; subst v; reflexivity. }
  split; [reflexivity|]. split; [exact Logic.I|].
  unfold real_value, magnitude; cbn -[f64_real pow Rinv].
  set (x := f64_real (S754_finite false 1 (-149))).
  assert (Hx : 0 < x).
  { unfold x, f64_real; rewrite !Rmult_1_l; apply powerRZ_lt; lra. }
  change (f64_real f64_zero) with 0; rewrite (Rabs_pos_eq x) by lra.
  rewrite Rminus_0_l, Rabs_Ropp, (Rabs_pos_eq (x * x)) by nra.
  assert (U : / 2 ^ 24 < 1) by (simpl; lra).
  assert (0 < x * x) by nra; rewrite pow_1; nra.
Qed.

(** [sum(x * y - x)] again: there is room. *)
Example C78_example_room :
  ctx_wf rho /\ node_wf tree /\ written rho tree /\ arithmetic tree /\
  inputs_all (fun x => f32_valid x /\ finite x) rho tree /\ no_underflow_in rho 128 tree /\
  parts_within (2 ^ 127) rho tree /\ INR (roundings rho tree) < 2 ^ 23 /\
  parts_within 2 rho tree /\ (1 + / 2 ^ 24) ^ roundings rho tree * 2 < 2 ^ 128.
Proof.
  destruct C78_example_error as (W1 & W2 & W3 & W4 & _ & W6 & W7 & _); destruct reals as (R1 & R2 & R3).
  split; [exact W1|split; [exact W2|split; [exact W3|split; [exact W4|]]]].
  split.
  { split; [|cbn; auto]; intros [|[|i]] v E d ix Bx; inversion E; subst v; cbn in Bx;
      apply box3 in Bx; destruct Bx as [->|[->| ->]]; (split; [reflexivity|exact Logic.I]). }
  split; [exact W6|].
  assert (Q : forall b, 2 <= b -> parts_within b rho tree).
  { intros b Hb; cbn [parts_within tree]; unfold magnitude; cbn -[f64_real].
    rewrite !(Rabs_pos_eq (f64_real _)) by lra.
    repeat match goal with |- _ /\ _ => split | |- True => exact Logic.I end; intros ix Bx;
      try (apply box3 in Bx; destruct Bx as [->|[->| ->]]); cbn -[f64_real]; 
      rewrite ?(Rabs_pos_eq (f64_real _)) by lra; nra. }
  assert (P1 : 1 <= 2 ^ 126) by (apply pow_R1_Rle; lra).
  assert (P2 : 2 ^ 127 = 2 * 2 ^ 126) by reflexivity.
  assert (P3 : 2 ^ 128 = 2 * 2 ^ 127) by reflexivity.
  split; [apply Q; lra|]; rewrite W7.
  split; [simpl; lra|split; [apply Q; lra|]].
  assert ((1 + / 2 ^ 24) ^ 4 < 2 ^ 126 * 2); [|lra].
  apply Rlt_le_trans with 2; [simpl; lra|lra].
Qed.

(** [sum(x * x / (y + 1))], with larger [x] and smaller [y]. *)
Definition rho' : ctx f64 := fun i => match i with
  | 0%nat => Some (VVec [fifth; fifth; three_tenths])
  | 1%nat => Some (VVec [tenth; fifth; tenth])
  | _ => None end.
Example C78_example_monotone :
  let n := Sum (Div (Mul (Var 0%nat) (Var 0%nat)) (Un AddOne (Var 1%nat))) in
  ctx_wf rho /\ ctx_wf rho' /\ node_wf n /\ written rho n /\ written rho' n /\
  inputs_all f32_valid rho n /\ inputs_all f32_valid rho' n /\ goes rho rho' true n /\
  exists s t, evaluate n rho = (rho, Ok (VScal s)) /\ evaluate n rho' = (rho', Ok (VScal t)) /\
    finite s /\ finite t /\ f64_real s <> f64_real t.
Proof.
  destruct reals as (R1 & R2 & R3); cbn zeta.
  assert (S1 : f64_real (SFadd 24 128 fifth (float_of_Z 24 128 1)) = 10066330 / 8388608).
  { vm_compute (float_of_Z 24 128 1); vm_compute SFadd; unfold f64_real; simpl; lra. }
  assert (S2 : f64_real (SFadd 24 128 tenth (float_of_Z 24 128 1)) = 9227469 / 8388608).
  { vm_compute (float_of_Z 24 128 1); vm_compute SFadd; unfold f64_real; simpl; lra. }
  assert (M1 : forall x, f32_valid x -> 0 <= f64_real x -> 0 <= f64_real (SFmul 24 128 x x)).
  { intros x V N; destruct (under_mul (prec := 24) (emax := 128) x x x x) as (_ & _ & K & _); try exact K;
      (split; [exact V|split; [exact V|split; [exact N|intro; split; [assumption|lra]]]]). }
  split; [intros [|[|i]] v E; inversion E; exact Logic.I|].
  split; [intros [|[|i]] v E; inversion E; exact Logic.I|].
  split; [cbn; auto|]. split; [cbn; auto|]. split; [cbn; auto|].
  split; [|split; [|split]].
  1,2: split; [|cbn; auto]; intros [|[|i]] v E d ix Bx; inversion E; subst v; cbn in Bx;
      apply box3 in Bx; destruct Bx as [->|[->| ->]]; reflexivity.
  - assert (V0 : goes rho rho' true (Var 0%nat)).
    { right; split; [reflexivity|]; intros ix Bx; apply box3 in Bx; destruct Bx as [->|[->| ->]]; cbn -[f64_real]; lra. }
    assert (V1 : goes rho rho' false (Var 1%nat)).
    { right; split; [reflexivity|]; intros ix Bx; apply box3 in Bx; destruct Bx as [->|[->| ->]]; cbn -[f64_real]; lra. }
    assert (N0 : nonneg rho (Var 0%nat)).
    { intros ix Bx; apply box3 in Bx; destruct Bx as [->|[->| ->]]; cbn -[f64_real]; lra. }
    right; right; change (exchanged rho (Mul (Var 0%nat) (Var 0%nat)) (Un AddOne (Var 1%nat))) with false.
    split; [|split; [|split; [|split]]].
    + right; left; auto.
    + right; exact V1.
    + intros ix Bx; apply box3 in Bx; destruct Bx as [->|[->| ->]]; cbn -[f64_real SFadd float_of_Z]; lra.
    + intros ix Bx; apply box3 in Bx; destruct Bx as [->|[->| ->]]; cbn -[f64_real SFadd float_of_Z]; lra.
    + left; intros ix Bx; apply box3 in Bx; destruct Bx as [->|[->| ->]]; cbn -[f64_real SFmul];
        apply M1; try reflexivity; lra.
  - eexists _, _; split; [vm_compute; reflexivity|]; split; [vm_compute; reflexivity|].
    split; [exact Logic.I|split; [exact Logic.I|]]; unfold f64_real; simpl; lra.
Qed.

(** [2 (sum(x * x) + (y + 1))], with larger [x] and [y]. *)
Definition larger : ctx f64 := fun i => match i with
  | 0%nat => Some (VVec [fifth; three_tenths; three_tenths])
  | 1%nat => Some (VVec [fifth; fifth; three_tenths])
  | _ => None end.
Example C78_example_positive :
  let n := Un Double (Add (Sum (Mul (Var 0%nat) (Var 0%nat))) (Un AddOne (Var 1%nat))) in
  ctx_wf rho /\ ctx_wf larger /\ node_wf n /\ written rho n /\ written larger n /\ adds_multiplies n /\
  inputs_all (fun x => f32_valid x /\ finite x /\ 0 <= f64_real x) rho n /\
  inputs_all f32_valid larger n /\ (forall i, uses n i -> lower (rho i) (larger i)) /\
  exists v w, evaluate n rho = (rho, Ok v) /\ evaluate n larger = (larger, Ok w) /\
    finite (vat f64_zero w [2%nat]).
Proof.
  destruct reals as (R1 & R2 & R3); cbn zeta.
  split; [intros [|[|i]] v E; inversion E; exact Logic.I|].
  split; [intros [|[|i]] v E; inversion E; exact Logic.I|].
  split; [cbn; auto|]. split; [cbn; auto|]. split; [cbn; auto|]. split; [cbn; auto|].
  split; [|split; [|split]].
  - split; [|cbn; auto]; intros [|[|i]] v E d ix Bx; inversion E; subst v; cbn in Bx;
      apply box3 in Bx; destruct Bx as [->|[->| ->]]; cbn [vat nth];
      (split; [reflexivity|split; [exact Logic.I|lra]]).
  - split; [|cbn; auto]; intros [|[|i]] v E d ix Bx; inversion E; subst v; cbn in Bx;
      apply box3 in Bx; destruct Bx as [->|[->| ->]]; reflexivity.
  - intros [|[|i]] U; try (exfalso; cbn in U; intuition discriminate); (split; [reflexivity|]); intros ix Bx;
      apply box3 in Bx; destruct Bx as [->|[->| ->]]; cbn -[f64_real]; lra.
  - eexists _, _; split; [vm_compute; reflexivity|]; split; [vm_compute; reflexivity|exact Logic.I].
Qed.

(** [sum(x * y - x)] with [x] doubled: the result is doubled, though it is not exact. *)
Definition doubled : ctx f64 := fun i => match i with
  | 0%nat => Some (VVec [fifth; S754_finite false 13421773 (-25); S754_finite false 10066330 (-24)])
  | 1%nat => Some (VVec [fifth; fifth; tenth])
  | _ => None end.
Definition units (i : ident) : Z := match i with 0%nat => 1%Z | _ => 0%Z end.
Example C78_example_scaling :
  ctx_wf rho /\ ctx_wf doubled /\ node_wf tree /\ written rho tree /\ written doubled tree /\
  inputs_all f32_valid rho tree /\ inputs_all f32_valid doubled tree /\ scaled_inputs units rho doubled /\
  no_underflow_in rho 128 tree /\ no_underflow_in doubled 128 tree /\ homogeneous units rho tree 1 /\
  exists s t, evaluate tree rho = (rho, Ok (VScal s)) /\ evaluate tree doubled = (doubled, Ok (VScal t)) /\
    finite s /\ finite t /\ s <> t /\ f64_real s <> tat (real_value 0 sp rho tree) [].
Proof.
  destruct reals as (R1 & R2 & R3).
  assert (R4 : f64_real (S754_finite false 13421773 (-25)) = 13421773 / 33554432)
    by (unfold f64_real; simpl; lra).
  assert (R5 : f64_real (S754_finite false 10066330 (-24)) = 10066330 / 16777216)
    by (unfold f64_real; simpl; lra).
  split; [intros [|[|i]] v E; inversion E; exact Logic.I|].
  split; [intros [|[|i]] v E; inversion E; exact Logic.I|].
  split; [cbn; auto|]. split; [cbn; auto|]. split; [cbn; auto|].
  split; [|split; [|split; [|split; [|split; [|split]]]]].
  1,2: split; [|cbn; auto]; intros [|[|i]] v E d ix Bx; inversion E; subst v; cbn in Bx;
      apply box3 in Bx; destruct Bx as [->|[->| ->]]; reflexivity.
  - intros [|[|i]]; cbn [rho doubled]; auto; (split; [reflexivity|]); intros ix Bx; apply box3 in Bx;
      destruct Bx as [->|[->| ->]]; cbn -[f64_real powerRZ]; change (powerRZ 2 1) with (2 * 1); change (powerRZ 2 0) with 1; lra.
  - split; [|exact Logic.I]; split; [exact Logic.I|split; [exact Logic.I|]]; intros ix Bx.
    apply box3 in Bx; destruct Bx as [->|[->| ->]]; cbn -[f64_real]; apply normal_of; lra.
  - split; [|exact Logic.I]; split; [exact Logic.I|split; [exact Logic.I|]]; intros ix Bx.
    apply box3 in Bx; destruct Bx as [->|[->| ->]]; cbn -[f64_real]; apply normal_of; lra.
  - split; [exists 1%Z, 0%Z; split; [reflexivity|split; reflexivity]|reflexivity].
  - eexists _, _; split; [vm_compute; reflexivity|]; split; [vm_compute; reflexivity|].
    split; [exact Logic.I|split; [exact Logic.I|split; [discriminate|]]].
    unfold real_value; cbn -[f64_real]; rewrite R1, R2, R3; unfold f64_real; simpl; lra.
Qed.

(** [(x + y) / y] on the two vectors. *)
Example C78_example_relative :
  let n := Div (Add (Var 0%nat) (Var 1%nat)) (Var 1%nat) in
  ctx_wf rho /\ node_wf n /\ written rho n /\ subtraction_free n /\
  inputs_all (fun x => f32_valid x /\ 0 <= f64_real x) rho n /\ no_underflow_in rho 128 n /\
  roundings rho n = 2%nat /\ INR (roundings rho n) * / 2 ^ 24 < 1 /\
  exists v, evaluate n rho = (rho, Ok v) /\ finite (vat f64_zero v [2%nat]) /\
    f64_real (vat f64_zero v [2%nat]) <> tat (real_value 0 sp rho n) [2%nat].
Proof.
  destruct reals as (R1 & R2 & R3); cbn zeta.
  assert (S1 : f64_real (SFadd 24 128 tenth fifth) = 10066330 / 33554432)
    by (vm_compute SFadd; unfold f64_real; simpl; lra).
  assert (S2 : f64_real (SFadd 24 128 fifth fifth) = 13421773 / 33554432)
    by (vm_compute SFadd; unfold f64_real; simpl; lra).
  assert (S3 : f64_real (SFadd 24 128 three_tenths tenth) = 13421773 / 33554432)
    by (vm_compute SFadd; unfold f64_real; simpl; lra).
  split; [intros [|[|i]] v E; inversion E; exact Logic.I|].
  split; [cbn; auto|]. split; [cbn; auto|]. split; [cbn; auto|].
  split.
  { split; [|cbn; auto]; intros [|[|i]] v E d ix Bx; inversion E; subst v; cbn in Bx;
      apply box3 in Bx; destruct Bx as [->|[->| ->]]; cbn [vat nth]; (split; [reflexivity|lra]). }
  split.
  { cbn; split; [auto|split; [exact Logic.I|]]; intros ix Bx.
    apply box3 in Bx; destruct Bx as [->|[->| ->]]; cbn -[f64_real SFadd]; apply quotient_of; lra. }
  split; [reflexivity|]. split; [cbn [roundings INR Nat.add Nat.max]; simpl; lra|].
  eexists; split; [vm_compute; reflexivity|]; split; [exact Logic.I|].
  unfold real_value; cbn -[f64_real]; rewrite R1, R3; unfold f64_real; simpl; lra.
Qed.

(** The mean of 0.1, 0.2 and 0.3 with weights 0.2, 0.2 and 0.1. *)
Example C78_example_mean :
  let xs := [tenth; fifth; three_tenths] in
  let ws := [fifth; fifth; tenth] in
  let c : ctx f64 := fun i => match i with
    | 0%nat => Some (VArr [3%nat] (AN (map AF xs)))
    | 1%nat => Some (VArr [3%nat] (AN (map AF ws)))
    | _ => None end in
  ctx_wf c /\
  (forall k v, c k = Some v -> entries_all (fun x => f32_valid x /\ 0 <= f64_real x) v) /\
  Forall (fun p => normal_product_in 128 (fst p) (snd p)) (combine xs ws) /\
  exists p q s,
  evaluate (Contract 1 (Var 0%nat) (Var 1%nat)) c = (c, Ok (VScal p)) /\
  evaluate (Sum (Var 1%nat)) c = (c, Ok (VScal q)) /\ normal_quotient_in 128 p q /\
  evaluate (Div (Contract 1 (Var 0%nat) (Var 1%nat)) (Sum (Var 1%nat))) c = (c, Ok (VScal s)) /\ finite s.
Proof.
  destruct reals as (R1 & R2 & R3); cbn zeta.
  split; [intros [|[|i]] v E; inversion E; cbn; repeat constructor|].
  split.
  { intros [|[|i]] v E d ix Bx; inversion E; subst v; cbn in Bx;
      apply box3 in Bx; destruct Bx as [->|[->| ->]]; cbn -[f64_real]; (split; [reflexivity|lra]). }
  split; [repeat (apply Forall_cons; [apply normal_of; cbn [fst snd]; lra|]); apply Forall_nil|].
  eexists; eexists; eexists; split; [vm_compute; reflexivity|].
  split; [vm_compute; reflexivity|].
  split; [apply quotient_of; unfold f64_real; simpl; lra|].
  split; [vm_compute; reflexivity|exact Logic.I].
Qed.

(** [sum(x (1 - x))] at (3, -5, 7). *)
Example C78_example_whole :
  let c : ctx f64 := fun i => match i with
    | 0%nat => Some (VVec [float_of_Z 24 128 3; float_of_Z 24 128 (-5); float_of_Z 24 128 7]) | _ => None end in
  let n := Sum (Un Rabbit (Var 0%nat)) in
  ctx_wf c /\ node_wf n /\ written c n /\ arithmetic n /\
  inputs_all (fun x => f32_valid x /\ whole x) c n /\ parts_within (2 ^ 24) c n /\
  exists v, evaluate n c = (c, Ok v) /\ f64_real (vat f64_zero v []) = - 78.
Proof.
  assert (R3 : f64_real (float_of_Z 24 128 3) = 3) by (vm_compute float_of_Z; unfold f64_real; simpl; lra).
  assert (R5 : f64_real (float_of_Z 24 128 (-5)) = -5) by (vm_compute float_of_Z; unfold f64_real; simpl; lra).
  assert (R7 : f64_real (float_of_Z 24 128 7) = 7) by (vm_compute float_of_Z; unfold f64_real; simpl; lra).
  cbn zeta.
  split; [intros [|i] v E; inversion E; exact Logic.I|].
  split; [cbn; auto|]. split; [cbn; auto|]. split; [cbn; auto|].
  split.
  { split; [|cbn; auto]; intros [|i] v E d ix Bx; inversion E; subst v; cbn in Bx;
      apply box3 in Bx; destruct Bx as [->|[->| ->]]; cbn [vat nth];
      (split; [reflexivity|split; [exact Logic.I|]]); [exists 3%Z|exists (-5)%Z|exists 7%Z]; assumption. }
  assert (L : 98 <= 2 ^ 24) by (simpl; lra).
  split.
  { cbn [parts_within]; unfold magnitude; cbn -[f64_real float_of_Z pow].
    rewrite R3, R5, R7, (Rabs_pos_eq 3), (Rabs_left (-5)), (Rabs_pos_eq 7) by lra.
    split; [intros ix _; lra|split; [|split; [|exact Logic.I]]]; intros ix Bx;
      apply box3 in Bx; destruct Bx as [->|[->| ->]]; cbn [nth map Rplus Rmult]; lra. }
  eexists; split; [vm_compute; reflexivity|]; unfold f64_real; simpl; lra.
Qed.

(** Above the limit exactness fails: [2^53 + 1] is rounded to [2^53]. *)
Definition big : f64 := float_of_Z 24 128 (2 ^ 24).
Example C78_limit_refuted : exists (c : ctx f64) (n : node f64) v,
  ctx_wf c /\ node_wf n /\ written c n /\ arithmetic n /\
  inputs_all (fun x => f32_valid x /\ whole x) c n /\ parts_within (2 ^ 24 + 1) c n /\
  evaluate n c = (c, Ok v) /\
  f64_real (vat f64_zero v []) <> tat (real_value 0 sp c n) [].
Proof.
  assert (R53 : f64_real (big) = 2 ^ 24) by (unfold big; vm_compute float_of_Z; unfold f64_real; simpl; lra).
  exists (fun _ => Some (VScal (big))), (Un AddOne (Var 0%nat)), (VScal (big)).
  split; [intros i v E; inversion E; exact Logic.I|].
  split; [cbn; auto|]. split; [cbn; auto|]. split; [cbn; auto|].
  split.
  { split; [|cbn; auto]; intros i v E d ix Bx; inversion E; subst v; cbn [vat].
    split; [reflexivity|split; [exact Logic.I|]]; exists (2 ^ 24)%Z; rewrite R53, pow_IZR; reflexivity. }
  assert (0 < 2 ^ 24) by (apply pow_lt; lra).
  split.
  { cbn [parts_within]; unfold magnitude; cbn -[f64_real big pow].
    rewrite R53, (Rabs_pos_eq (2 ^ 24)) by lra; repeat split; intros; lra. }
  split; [vm_compute; reflexivity|].
  unfold real_value; cbn -[f64_real big pow]; rewrite R53; lra.
Qed.
(** Products of floats whose exponents are not too small do not underflow. *)
Definition safe (x y : f64) : bool :=
  match x, y with S754_finite _ _ e, S754_finite _ _ e' => Z.leb (-126) (e + e') | _, _ => true end.
Lemma safe_normal x y : safe x y = true -> normal_product_in 128 x y.
Proof.
  unfold normal_product_in; destruct x as [|?| |s m e]; try (left; cbn [f64_real]; ring).
  destruct y as [|?| |s' m' e']; try (left; cbn [f64_real]; ring).
  intro H; apply Z.leb_le in H; right; cbn [f64_real].
  rewrite !Rabs_mult, !(Rabs_pos_eq (powerRZ 2 _)) by (apply powerRZ_le; lra).
  assert (Hs : forall b : bool, Rabs (if b then -1 else 1) = 1) by (intros [|]; [rewrite Rabs_left; lra|apply Rabs_R1]).
  rewrite !Hs, !(Rabs_pos_eq (IZR _)) by (apply IZR_le; lia).
  assert (A : 1 <= IZR (Z.pos m)) by (apply IZR_le; lia).
  assert (B : 1 <= IZR (Z.pos m')) by (apply IZR_le; lia).
  assert (P : / 2 ^ 126 <= powerRZ 2 e * powerRZ 2 e').
  { rewrite <- powerRZ_add by lra.
    apply Rle_trans with (powerRZ 2 (-126)); [right; reflexivity|].
    replace (e + e')%Z with (-126 + Z.of_nat (Z.to_nat (e + e' + 126)))%Z by lia.
    rewrite powerRZ_add, <- pow_powerRZ by lra.
    assert (1 <= 2 ^ Z.to_nat (e + e' + 126)) by (apply pow_R1_Rle; lra).
    assert (0 < powerRZ 2 (-126)) by (apply powerRZ_lt; lra); nra. }
  assert (0 < powerRZ 2 e) by (apply powerRZ_lt; lra).
  assert (0 < powerRZ 2 e') by (apply powerRZ_lt; lra).
  apply Rle_trans with (1 := P).
  assert (powerRZ 2 e <= IZR (Z.pos m) * powerRZ 2 e) by nra.
  assert (powerRZ 2 e' <= IZR (Z.pos m') * powerRZ 2 e') by nra.
  rewrite !Rmult_1_l; apply Rmult_le_compat; lra.
Qed.

Lemma box2 ix : in_box [2%nat] ix -> ix = [0%nat] \/ ix = [1%nat].
Proof.
  intro H; inversion H as [|i d l l' Hi H']; subst; inversion H'; subst.
  destruct i as [|[|i]]; auto; lia.
Qed.
Lemma box22 ix : in_box [2%nat; 2%nat] ix ->
  ix = [0%nat; 0%nat] \/ ix = [0%nat; 1%nat] \/ ix = [1%nat; 0%nat] \/ ix = [1%nat; 1%nat].
Proof.
  intro H; inversion H as [|i d l l' Hi H']; subst; apply box2 in H'.
  destruct i as [|[|i]]; [| |lia]; destruct H' as [-> | ->]; auto.
Qed.

(** README.md:51-56 in f32: squared error of a linear prediction with two weights, with the numbers
    0.1, 0.2 and 0.3. *)
Definition data : ctx f64 := fun i => match i with
  | 0%nat => Some (VArr [2%nat] (AN [AF tenth; AF three_tenths]))
  | 1%nat => Some (VArr [2%nat] (AN [AF fifth; AF tenth]))
  | 2%nat => Some (VScal three_tenths)
  | _ => None end.

Ltac entries :=
  repeat match goal with
  | H : in_box [] ?ix |- _ => inversion H; subst ix; clear H
  | H : in_box [_] ?ix |- _ => apply box2 in H; destruct H as [-> | ->]
  | H : in_box [_; _] ?ix |- _ => apply box22 in H; destruct H as [-> | [-> | [-> | ->]]]
  end; apply safe_normal; reflexivity.

Example C78_example_gradient : let n := sse 0%nat 1%nat 2%nat in
  exists n' w, ctx_wf data /\ node_wf n /\ inputs_all f32_valid data n /\ adjoint n 1%nat = Some n' /\
  (exists G, posed G (ctx_through f64_real data) 1%nat (node_through f64_real n) (node_through f64_real n')) /\
  @regular R (R_scalar 0 sp) (real_un 0 sp) (ctx_through f64_real data) (node_through f64_real n) /\
  smooth 0 sp (ctx_through f64_real data) 1%nat (node_through f64_real n) /\
  ring_tree n' /\ regular un_fn data n' /\ no_tiny_product_in data 128 n' /\ adjoint_roundings data n' = 12%nat /\
  evaluate_adjoint n 1%nat data = Some (data, Ok w) /\ dims (vshape w) = [2%nat] /\
  finite (vat f64_zero w [0%nat]) /\ finite (vat f64_zero w [1%nat]).
Proof.
  cbn zeta; eexists; eexists.
  split; [intros [|[|[|i]]] v E; inversion E; cbn; repeat constructor|].
  split; [cbn; auto|].
  split.
  { split; [|cbn; auto]; intros [|[|[|i]]] v E d ix Bx; inversion E; subst v; cbn in Bx;
      try (apply box2 in Bx; destruct Bx as [-> | ->]); reflexivity. }
  split; [reflexivity|].
  split.
  { exists (fun i => match i with 0%nat | 1%nat => Some (KA [2%nat]) | 2%nat => Some KS | _ => None end).
    constructor; try reflexivity.
    - intros [|[|[|i]]] v E; inversion E; subst; cbn; repeat constructor.
    - intros i; cbn [uses node_through sse]; intros [[[-> | ->] | ->] | ->]; discriminate.
    - cbn; auto.
    - cbn; auto.
    - discriminate.
    - discriminate.
    - cbn; repeat split; auto; intros kl kr E1 E2; injection E1 as <-; injection E2 as <-; auto.
    - cbn; repeat split; auto; intros kl kr E1 E2; injection E1 as <-; injection E2 as <-; auto. }
  split; [cbn; repeat split; auto; unfold keeps_order; cbn; auto|].
  split.
  { cbn [smooth node_through sse]; split; [split; [split; [auto|split; [auto|]]|auto]|intros; exact Logic.I].
    right; apply symmetric_absent; reflexivity. }
  split; [cbn; auto|].
  split; [cbn; repeat split; auto; unfold keeps_order; cbn; auto|].
  split.
  { cbn [no_tiny_product_in]; unfold normal_products_in.
    repeat match goal with |- _ /\ _ => split | |- True => exact Logic.I end;
      intros x y Ex Ey ix jx Bx By _; vm_compute in Ex, Ey; injection Ex as <-; injection Ey as <-;
      cbn in Bx, By; entries. }
  split; [reflexivity|].
  split; [vm_compute; reflexivity|].
  split; [reflexivity|split; exact Logic.I].
Qed.

End Cases.

(** An error function returning [3/4]. *)
Definition three_quarters : f64 := S754_finite false 12582912 (-24).
Example C78_example_erfc : f32_valid three_quarters /\ / 2 <= f64_real three_quarters <= 1 /\
  SFsub 24 128 (float_of_Z 24 128 1) (SFsub 24 128 (float_of_Z 24 128 1) three_quarters) = three_quarters.
Proof.
  split; [reflexivity|]. split; [unfold three_quarters, f64_real; simpl; lra|vm_compute; reflexivity].
Qed.

(** An exponential with four values: one at zero, [3/8] below, zero at minus infinity. *)
Definition coarse (f : libfn) (z : f64) : f64 := match z with
  | S754_zero _ => float_of_Z 24 128 1
  | S754_finite true _ _ => S754_finite false 12582912 (-25)
  | S754_finite false _ _ => float_of_Z 24 128 2
  | _ => f64_zero end.

Example C78_example_sigmoid : forall z, f32_valid z -> SFleb z f64_zero = true ->
  f32_valid (coarse Lexp z) /\ finite (coarse Lexp z) /\ 0 <= f64_real (coarse Lexp z) <= 1.
Proof.
  intros [[]|[]| |[] m e] V L; cbn in L; try discriminate;
    (split; [reflexivity|split; [exact Logic.I|]]); unfold f64_real; simpl; lra.
Qed.

(** At [-1] its relative error is below a quarter. *)
Example C78_example_sigmoid_error :
  let x := float_of_Z 24 128 (-1) in
  f32_valid x /\ finite x /\ SFleb f64_zero x = false /\ f32_valid (coarse Lexp x) /\
  Rabs (f64_real (coarse Lexp x) - exp (f64_real x)) <= / 4 * exp (f64_real x) /\
  / 2 ^ 125 <= f64_real (coarse Lexp x) <= 1.
Proof.
  cbn zeta; split; [reflexivity|]. split; [exact Logic.I|]. split; [reflexivity|]. split; [reflexivity|].
  assert (X : f64_real (float_of_Z 24 128 (-1)) = - (1)) by (vm_compute float_of_Z; unfold f64_real; simpl; lra).
  assert (E : f64_real (coarse Lexp (float_of_Z 24 128 (-1))) = 3 / 8) by (vm_compute float_of_Z; unfold f64_real; simpl; lra).
  rewrite E, X, exp_Ropp.
  assert (L := exp_ineq1_le 1); assert (U := exp_le_3); assert (P := exp_pos 1).
  assert (I1 : / exp 1 * exp 1 = 1) by (apply Rinv_l; lra).
  assert (I2 : 0 < / exp 1) by (apply Rinv_0_lt_compat; lra).
  split; [apply Rabs_le; split; nra|].
  split; [|lra]; apply Rle_trans with (/ 2 ^ 2); [|simpl; lra].
  apply Rinv_le_contravar; [apply pow_lt; lra|apply Rle_pow; [lra|lia]].
Qed.

(** Linear regression on 0.1, 0.3 with the weights 0.2, 0.1. *)
Section Regression.
Variables (powf : f64 -> f64 -> f64) (lib : libfn -> f64 -> f64).
#[local] Instance F32' : Scalar f64 := f32_scalar powf lib.
Definition table : ctx f64 := fun i => match i with
  | 0%nat => Some (VArr [2%nat] (AN (map AF [tenth; three_tenths])))
  | 1%nat => Some (VArr [2%nat] (AN (map AF [fifth; tenth])))
  | 2%nat => Some (VScal three_tenths)
  | _ => None end.
Example C78_example_regression :
  let xs := [tenth; three_tenths] in
  let ws := [fifth; tenth] in
  exists e g, Forall f32_valid xs /\ Forall f32_valid ws /\ f32_valid three_tenths /\
  evaluate (Un Double (Sub (Contract 1 (Var 0%nat) (Var 1%nat)) (Var 2%nat))) table = (table, Ok (VScal e)) /\
  Forall (fun p => normal_product_in 128 (fst p) (snd p)) (combine xs ws) /\
  Forall (normal_product_in 128 e) xs /\
  evaluate_adjoint (sse 0%nat 1%nat 2%nat) 1%nat table = Some (table, Ok (VArr [2%nat] (AN (map AF g)))) /\
  finite (nth 0 g f64_zero) /\
  linear_auto (xyw xs three_tenths ws) = Ok (array1 g) /\
  exists ws', linear_run linear_raw tenth xs ws [xs; ws] = Ok ws' /\ ws' <> ws.
Proof.
  cbn zeta; eexists; eexists [_; _]; split; [repeat constructor|]; split; [repeat constructor|]; split; [reflexivity|].
  split; [vm_compute; reflexivity|].
  split; [apply Forall_cons; [apply safe_normal; reflexivity|apply Forall_cons; [apply safe_normal; reflexivity|apply Forall_nil]]|].
  split; [apply Forall_cons; [apply safe_normal; reflexivity|apply Forall_cons; [apply safe_normal; reflexivity|apply Forall_nil]]|].
  split; [vm_compute; reflexivity|].
  split; [exact Logic.I|]. split; [vm_compute; reflexivity|].
  eexists; split; [vm_compute; reflexivity|discriminate].
Qed.
End Regression.
