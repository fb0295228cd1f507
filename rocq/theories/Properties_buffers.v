(** Properties of buffers, specs, contractions and adjoint leaves: C20-C24, C31, C36, C40, C41. *)
From Coq Require Import List Arith ZArith Bool Lia.
Import ListNotations.
From Verif Require Import Base Shapes Scalar Buffers Spec Contraction Node Eval Types Instances
  Vocab Math Buffers_facts Subset_facts Exact_facts Buffer_claims.

(** C20 Buffer access laws.  Building, then reading. *)
Theorem C20_build_get : forall F E t (f : list nat -> F) ix,
  length ix = length (tdims_of t) ->
  (in_box (tdims_of t) ix -> @get F E (build t f) ix = Ok (Some (f ix))) /\
  (~ in_box (tdims_of t) ix -> @get F E (build t f) ix = Ok None).
Proof. exact @build_get. Qed.
Print Assumptions C20_build_get.

(** Every buffer is determined by its type and what [get] returns ([vat]). *)
Theorem C20_get : forall F E (v : value F) d ix,
  vwf v -> length ix = length (dims (vshape v)) ->
  (in_box (dims (vshape v)) ix -> @get F E v ix = Ok (Some (vat d v ix)) /\
                                  @get_unchecked F E v ix = Ok (vat d v ix)) /\
  (~ in_box (dims (vshape v)) ix -> @get F E v ix = Ok None).
Proof. exact @get_vat. Qed.
Print Assumptions C20_get.

(** Reading outside the box without the check panics, whatever the buffer. *)
Theorem C20_unchecked : forall F E (v : value F) ix,
  vwf v -> length ix = length (dims (vshape v)) -> ~ in_box (dims (vshape v)) ix ->
  @get_unchecked F E v ix = Panic.
Proof. exact @unchecked_outside. Qed.
Print Assumptions C20_unchecked.

Example C20_unchecked_example :
  vwf (VTup 4 5) /\ length [2] = length (dims (vshape (VTup 4 5))) /\
  ~ in_box (dims (vshape (VTup 4 5))) [2] /\ @get_unchecked nat unit (VTup 4 5) [2] = Panic.
Proof.
  repeat split; simpl; auto; intro H; inversion H; lia.
Qed.

Theorem C20_extensional : forall F d (v w : value F),
  vwf v -> vwf w -> bty_of v = bty_of w ->
  (forall ix, in_box (tdims_of (bty_of v)) ix -> vat d v ix = vat d w ix) -> v = w.
Proof. exact @value_ext. Qed.
Print Assumptions C20_extensional.

(** The constant and diagonal buffers. *)
Theorem C20_constants : forall F (S : Scalar F) t (x : F),
  (bty_of (full t x) = t /\ bty_of (zeroes t) = t /\ bty_of (ones t) = t /\
   bty_of (diagonal t x) = t /\ bty_of (identity t) = t) /\
  forall d ix, in_box (tdims_of t) ix ->
    vat d (full t x) ix = x /\ vat d (zeroes t) ix = fzero /\ vat d (ones t) ix = fone /\
    vat d (diagonal t x) ix = (if same_components ix then x else fzero) /\
    vat d (identity t) ix = (if same_components ix then fone else fzero).
Proof. exact @constant_buffers. Qed.
Print Assumptions C20_constants.

(** Mapping acts pointwise; [map_ref] and [mutate] agree with [map]. *)
Theorem C20_map : forall F B (f : F -> B) (g : F -> F) v,
  vwf v ->
  bty_of (vmap f v) = bty_of v /\ vwf (vmap f v) /\
  (forall d d' ix, in_box (dims (vshape v)) ix -> vat d (vmap f v) ix = f (vat d' v ix)) /\
  vmap_ref f v = vmap f v /\ vmutate g v = vmap g v.
Proof. exact @mapping. Qed.
Print Assumptions C20_map.

(** Folding visits every element once, in row-major order; [sum] folds addition. *)
Theorem C20_fold : forall F A (f : A -> F -> A) init d v,
  vwf v ->
  vfold f init v = fold_left (fun acc ix => f acc (vat d v ix)) (all_ix (dims (vshape v))) init.
Proof. exact @folding. Qed.
Print Assumptions C20_fold.

Theorem C20_sum : forall F (S : Scalar F) d v,
  vwf v ->
  vsum v = fold_left (fun acc ix => fadd acc (vat d v ix)) (all_ix (dims (vshape v))) fzero.
Proof. exact @summing. Qed.
Print Assumptions C20_sum.

Example C20_example :
  let v := VArr [2; 3] (AN [AN [AF 1; AF 2; AF 3]; AN [AF 4; AF 5; AF 6]]) in
  vwf v /\ length [1; 2] = length (dims (vshape v)) /\
  @get nat unit v [1; 2] = Ok (Some 6) /\ @get nat unit v [2; 0] = Ok None /\
  vfold (fun acc x => x :: acc) [] v = [6; 5; 4; 3; 2; 1] /\
  v = build (TA [2; 3]) (fun ix => 3 * nth 0 ix 0 + nth 1 ix 0 + 1).
Proof. simpl; repeat split; repeat constructor. Qed.

(** C21 Sparse construction: listed indices (any order, repetitions allowed) get [active], the
    others the base value. *)
Theorem C21_subset : forall F E t base subset (active : list nat -> F),
  (forall ix, In ix subset -> in_box (tdims_of t) ix) ->
  exists v, @build_subset F E t base subset active = Ok v /\ bty_of v = t /\
    forall d ix, in_box (tdims_of t) ix ->
      (In ix subset -> vat d v ix = active ix) /\ (~ In ix subset -> vat d v ix = base).
Proof. exact @subset_build. Qed.
Print Assumptions C21_subset.

(** An index outside panics for Vecs and arrays (not pairs, see below; a scalar has no index
    outside). *)
Theorem C21_outside_partial : forall F E t base subset (active : list nat -> F) ix,
  match t with TV _ | TA _ => True | _ => False end ->
  (forall jx, In jx subset -> length jx = length (tdims_of t)) ->
  In ix subset -> ~ in_box (tdims_of t) ix ->
  @build_subset F E t base subset active = Panic.
Proof. exact @build_subset_panic. Qed.
Print Assumptions C21_outside_partial.

(** A pair ignores the indices outside, whatever else is listed. *)
Theorem C21_pair : forall F E (base : F) subset active, exists x y,
  @build_subset F E TT base subset active = Ok (VTup x y) /\
  (In [0] subset -> x = active [0]) /\ (~ In [0] subset -> x = base) /\
  (In [1] subset -> y = active [1]) /\ (~ In [1] subset -> y = base).
Proof. exact pair_subset. Qed.
Print Assumptions C21_pair.

(** So not every index outside panics. *)
Theorem C21_outside_refuted :
  exists (t : bty) (ix : list nat), ~ in_box (tdims_of t) ix /\ length ix = length (tdims_of t) /\
    forall F E (base : F) active, @build_subset F E t base [ix] active = Ok (VTup base base).
Proof. exact tuple_subset_ignored. Qed.
Print Assumptions C21_outside_refuted.

Example C21_example :
  (forall ix, In ix [[0; 1]; [1; 0]; [0; 1]] -> in_box (tdims_of (TA [2; 2])) ix) /\
  @build_subset nat unit (TA [2; 2]) 7 [[0; 1]; [1; 0]; [0; 1]] (fun ix => 10 * nth 0 ix 0 + nth 1 ix 0) =
    Ok (VArr [2; 2] (AN [AN [AF 7; AF 1]; AN [AF 10; AF 7]])) /\
  @build_subset nat unit (TA [2]) 7 [[0]; [2]] (fun _ => 1) = Panic /\
  @build_subset nat unit TT 7 [[5]; [1]; [2; 0]] (fun ix => 10 + nth 0 ix 0) = Ok (VTup 7 11).
Proof.
  split; [|split; [reflexivity|split; reflexivity]].
  simpl; intros ix [<- |[<- |[<- |[]]]]; repeat constructor.
Qed.

(** C22 Spec operations commute with unwrapping. *)
Theorem C22_map : forall F (SF : Scalar F) B (SB : Scalar B) (f : F -> B) (s : spec F),
  spec_wf s ->
  unwrap (spec_map f s) = vmap f (unwrap s) /\ spec_shape (spec_map f s) = spec_shape s /\
  vshape (unwrap s) = spec_shape s.
Proof. exact @spec_map_claim. Qed.
Print Assumptions C22_map.

(** All pairs of specs except a full scalar with a full array of rank at least 2. *)
Theorem C22_zip_map_partial :
  forall F (SF : Scalar F) B (SB : Scalar B) (f : F -> F -> B) (l r : spec F),
  spec_wf l -> spec_wf r ->
  ~ (exists x y ds, l = Full TS x /\ r = Full (TA ds) y /\ 2 <= length ds) ->
  res_map unwrap (spec_zip_map f l r) = zip_map f (unwrap l) (unwrap r).
Proof. exact @spec_zip_claim. Qed.
Print Assumptions C22_zip_map_partial.

(** In that case the results differ, because the dense code swaps the arguments of [f]. *)
Theorem C22_zip_map_refuted :
  let S := Z_scalar in
  exists (l r : spec Z), spec_wf l /\ spec_wf r /\
    exists v w, res_map unwrap (spec_zip_map Z.sub l r) = Ok v /\
                zip_map Z.sub (unwrap l) (unwrap r) = Ok w /\ v <> w.
Proof. exact spec_zip_differs. Qed.
Print Assumptions C22_zip_map_refuted.

Example C22_example :
  let S := Z_scalar in
  let l := Diagonal (TA [2; 2]) 3%Z in let r := Full TS 1%Z in
  spec_wf l /\ spec_wf r /\
  ~ (exists x y ds, l = Full TS x /\ r = Full (TA ds) y /\ 2 <= length ds) /\
  res_map unwrap (spec_zip_map Z.sub l r) =
    Ok (VArr [2; 2]%nat (AN [AN [AF 2; AF (-1)]; AN [AF (-1); AF 2]]))%Z.
Proof.
  split; [simpl; lia|]; split; [exact I|]; split; [|reflexivity].
  intros (x & y & ds & H & _); discriminate.
Qed.

(** C23 Elementwise combination, for every function [f]; [zip_map] of a scalar with an array of
    rank at least 2 is excluded. *)
Theorem C23_zip_map_partial : forall F (S : Scalar F) B (f : F -> F -> B) l r v,
  vwf l -> vwf r ->
  ~ (exists x ds a, l = VScal x /\ r = VArr ds a /\ 2 <= length ds) ->
  zip_map f l r = Ok v ->
  vwf v /\ dims (vshape v) = (match dims (vshape l) with [] => dims (vshape r) | ds => ds end) /\
  forall d d' ix, in_box (dims (vshape v)) ix -> vat d v ix = f (vat d' l ix) (vat d' r ix).
Proof. exact @zip_map_pointwise. Qed.
Print Assumptions C23_zip_map_partial.

(** It is defined for equal types, and for a scalar with anything but a pair. *)
Theorem C23_zip_map_defined : forall F B (f : F -> F -> B) l r,
  vwf l -> vwf r ->
  bty_of l = bty_of r \/ (bty_of r = TS /\ bty_of l <> TT) \/ (bty_of l = TS /\ bty_of r <> TT) ->
  exists v, zip_map f l r = Ok v.
Proof. exact @zip_map_total. Qed.
Print Assumptions C23_zip_map_defined.

(** [zip_map_id] and [zip_mut] are [zip_map]. *)
Theorem C23_zip_map_id : forall F (f : F -> F -> F) l r, zip_map_id f l r = zip_map f l r.
Proof. exact @zip_map_id_eq. Qed.
Print Assumptions C23_zip_map_id.

Theorem C23_zip_mut : forall F (f : F -> F -> F) l r v,
  zip_mut f l r = Ok v -> zip_map f l r = Ok v.
Proof. exact @zip_mut_map. Qed.
Print Assumptions C23_zip_mut.

(** [zip_fold] visits the pairs in row-major order. *)
Theorem C23_zip_fold : forall F A (f : A -> F * F -> A) init l r,
  vwf l -> vwf r ->
  bty_of l = bty_of r \/ (bty_of r = TS /\ exists ds, bty_of l = TA ds) ->
  forall d, zip_fold f init l r =
    Ok (fold_left (fun acc ix => f acc (vat d l ix, vat d r ix)) (all_ix (dims (vshape l))) init).
Proof. exact @zip_fold_pointwise. Qed.
Print Assumptions C23_zip_fold.

(** Different lengths at run time. *)
Theorem C23_mismatch : forall F B (f : F -> F -> B) xs ys,
  length xs <> length ys ->
  zip_map f (VVec xs) (VVec ys) = Err (Incompat (Dy [length xs]) (Dy [length ys])).
Proof. exact @zip_map_mismatch. Qed.
Print Assumptions C23_mismatch.

Theorem C23_zip_map_refuted :
  exists (l r v : value Z) ix, vwf l /\ vwf r /\ zip_map Z.sub l r = Ok v /\
    in_box (dims (vshape v)) ix /\ vat 0%Z v ix <> Z.sub (vat 0%Z l ix) (vat 0%Z r ix).
Proof. exact zip_scalar_swaps. Qed.
Print Assumptions C23_zip_map_refuted.

Example C23_example :
  let l := VArr [2; 1] (AN [AN [AF 5]; AN [AF 7]]) in
  let r := VArr [2; 1] (AN [AN [AF 1]; AN [AF 2]]) in
  vwf l /\ vwf r /\ bty_of l = bty_of r /\
  zip_map Nat.sub l r = Ok (VArr [2; 1] (AN [AN [AF 4]; AN [AF 5]])) /\
  zip_fold (fun acc p => acc ++ [p]) [] l r = Ok [(5, 1); (7, 2)] /\
  zip_map Nat.sub (VScal 9) (VVec [1; 2]) = Ok (VVec [8; 7]) /\
  zip_map Nat.sub (VVec [1]) (VVec [1; 2]) = Err (Incompat (Dy [1]) (Dy [2])).
Proof. simpl; repeat split; repeat constructor. Qed.

(** C40 The excluded case of C23: a scalar against an array of rank at least 2 hands [f] the
    array element first; so [s - M] and [s / M] evaluate to [M - s] and [M / s]. *)
Theorem C40_zip_map_swapped : forall F B (f : F -> F -> B) x ds a v,
  vwf (VArr ds a) -> 2 <= length ds -> zip_map f (VScal x) (VArr ds a) = Ok v ->
  vshape v = St ds /\
  forall d d' ix, in_box ds ix -> vat d v ix = f (vat d' (VArr ds a) ix) x.
Proof. exact @zip_map_swapped. Qed.
Print Assumptions C40_zip_map_swapped.

Theorem C40_sub_div : forall F (S : Scalar F) (c : ctx F) i j x ds a,
  c i = Some (VScal x) -> c j = Some (VArr ds a) -> vwf (VArr ds a) -> 2 <= length ds ->
  exists v w,
    evaluate (Sub (Var i) (Var j)) c = (c, Ok v) /\ evaluate (Div (Var i) (Var j)) c = (c, Ok w) /\
    vshape v = St ds /\ vshape w = St ds /\
    forall ix, in_box ds ix ->
      vat fzero v ix = fsub (vat fzero (VArr ds a) ix) x /\
      vat fzero w ix = fdiv (vat fzero (VArr ds a) ix) x.
Proof. exact @sub_div_swapped. Qed.
Print Assumptions C40_sub_div.

Example C40_example :
  let S := Z_scalar in
  let m := VArr [2; 1] (AN [AN [AF 5%Z]; AN [AF 7%Z]]) in
  let c := fun i => match i with 0 => Some (VScal 1%Z) | 1 => Some m | _ => None end in
  vwf m /\ 2 <= length [2; 1] /\
  evaluate (Sub (Var 0) (Var 1)) c = (c, Ok (VArr [2; 1] (AN [AN [AF 4%Z]; AN [AF 6%Z]]))).
Proof. simpl; repeat split; repeat constructor. Qed.

(** C24 Contractions over exact scalars: the outer product, and the sum of products over the last
    axis of the left and first axis of the right operand; products of a vector with a
    non-square matrix are excluded. *)
Theorem C24_contract_partial : forall F (S : Scalar F), exact F ->
  forall axes (l r : value F) t,
  vwf l -> vwf r -> contract_bty axes (bty_of l) (bty_of r) = Some t ->
  (axes = 0 \/ square_dims (tensor_of l) (tensor_of r)) ->
  exists v, contract axes l r = Ok v /\ bty_of v = t /\ vwf v /\
    holds v (match axes with 0 => outer (tensor_of l) (tensor_of r)
             | _ => inner (tensor_of l) (tensor_of r) end).
Proof. exact @contract_claim. Qed.
Print Assumptions C24_contract_partial.

(** The short cuts on specs give the same buffer. *)
Theorem C24_contract_spec_partial : forall F (S : Scalar F), exact F ->
  forall axes (x y : spec F) t,
  spec_wf x -> spec_wf y -> contract_bty axes (spec_bty x) (spec_bty y) = Some t ->
  (axes = 0 \/ square_dims (tensor_of (unwrap x)) (tensor_of (unwrap y))) ->
  exists s v, contract_spec axes x y = Ok s /\ contract axes (unwrap x) (unwrap y) = Ok v /\
    unwrap s = v.
Proof. exact @contract_spec_claim. Qed.
Print Assumptions C24_contract_spec_partial.

(** For non-square matrices: a panic on well-typed operands, a wrong result, and a spec short
    cut succeeding where the dense code panics. *)
Theorem C24_contract_refuted :
  let S := Z_scalar in
  (exists l r : value Z, vwf l /\ vwf r /\ contract_bty 1 (bty_of l) (bty_of r) <> None /\
     contract 1 l r = Panic) /\
  (exists l r v : value Z, vwf l /\ vwf r /\ contract 1 l r = Ok v /\
     ~ holds v (inner (tensor_of l) (tensor_of r))) /\
  (exists x y : spec Z, spec_wf x /\ spec_wf y /\ exists s, contract_spec 1 x y = Ok s /\
     contract 1 (unwrap x) (unwrap y) = Panic).
Proof. exact contract_wrong. Qed.
Print Assumptions C24_contract_refuted.

Example C24_example :
  let S := Z_scalar in
  let l := (VArr [2; 3]%nat (AN [AN [AF 1; AF 2; AF 3]; AN [AF 4; AF 5; AF 6]]))%Z in
  let r := (VArr [3; 1]%nat (AN [AN [AF 1]; AN [AF 10]; AN [AF 100]]))%Z in
  vwf l /\ vwf r /\ contract_bty 1 (bty_of l) (bty_of r) = Some (TA [2; 1]) /\
  square_dims (tensor_of l) (tensor_of r) /\
  contract 1 l r = Ok (VArr [2; 1]%nat (AN [AN [AF 321]; AN [AF 654]]))%Z.
Proof. simpl; repeat split; repeat constructor. Qed.

(** C41 Products of a vector with a rectangular matrix ([n] rows, [m] columns, vector of length
    [n], on either side): a panic when there are more columns than rows, otherwise the product of
    the leading [m] by [m] block with the first [m] entries. *)
Theorem C41_matrix_vector : forall F (S : Scalar F) n m a b,
  vwf (VArr [n; m] a : value F) -> vwf (VArr [n] b : value F) ->
  (n < m -> contract 1 (VArr [n; m] a) (VArr [n] b) = Panic) /\
  (m <= n -> exists v, contract 1 (VArr [n; m] a) (VArr [n] b) = Ok v /\ vshape v = St [m] /\
     forall i, i < m -> vat fzero v [i] =
       sum_over (seq 0 m) (fun k => fmul (vat fzero (VArr [n; m] a) [i; k])
                                         (vat fzero (VArr [n] b) [k]))).
Proof. exact @mat_vec_rect. Qed.
Print Assumptions C41_matrix_vector.

Theorem C41_vector_matrix : forall F (S : Scalar F) n m a b,
  vwf (VArr [n] a : value F) -> vwf (VArr [n; m] b : value F) ->
  (n < m -> contract 1 (VArr [n] a) (VArr [n; m] b) = Panic) /\
  (m <= n -> exists v, contract 1 (VArr [n] a) (VArr [n; m] b) = Ok v /\ vshape v = St [m] /\
     forall i, i < m -> vat fzero v [i] =
       sum_over (seq 0 m) (fun k => fmul (vat fzero (VArr [n] a) [k])
                                         (vat fzero (VArr [n; m] b) [k; i]))).
Proof. exact @vec_mat_rect. Qed.
Print Assumptions C41_vector_matrix.

Example C41_example :
  let S := Z_scalar in
  let a := (VArr [3; 2]%nat (AN [AN [AF 1; AF 2]; AN [AF 3; AF 4]; AN [AF 5; AF 6]]))%Z in
  let b := (VArr [3]%nat (AN [AF 1; AF 10; AF 100]))%Z in
  vwf a /\ vwf b /\ contract 1 a b = Ok (VArr [2]%nat (AN [AF 21; AF 43]))%Z.
Proof. simpl; repeat split; repeat constructor. Qed.

(** C31 The adjoint of a variable is the identity tensor or zero; that of a constant is zero. *)
Theorem C31_variable : forall F (S : Scalar F) (G : tenv) (c : ctx F) i t k vi vt,
  ctx_ok G c -> typeof G (@VarAdj F i t) = Some k -> c i = Some vi -> c t = Some vt ->
  exists v, evaluate (VarAdj i t) c = (c, Ok v) /\
    vshape v = St (dims (vshape vi) ++ dims (vshape vt)) /\
    forall ix jx, in_box (dims (vshape vi)) ix -> in_box (dims (vshape vt)) jx ->
      (i = t -> ix = jx -> vat fzero v (ix ++ jx) = fone) /\
      (i <> t \/ ix <> jx -> vat fzero v (ix ++ jx) = fzero).
Proof. exact @varadj_claim. Qed.
Print Assumptions C31_variable.

Theorem C31_constant : forall F (S : Scalar F) (G : tenv) (c : ctx F) w t k vt,
  vwf w -> ctx_ok G c -> typeof G (ConstAdj (Const w) t) = Some k -> c t = Some vt ->
  exists v, evaluate (ConstAdj (Const w) t) c = (c, Ok v) /\
    vshape v = St (dims (vshape w) ++ dims (vshape vt)) /\
    forall ix, in_box (dims (vshape v)) ix -> vat fzero v ix = fzero.
Proof. exact @constadj_claim. Qed.
Print Assumptions C31_constant.

Example C31_example :
  let S := Z_scalar in
  let m := (VArr [2]%nat (AN [AF 5; AF 7]))%Z in
  let c := fun i => match i with 0 => Some m | _ => None end in
  let G := fun i => match i with 0 => Some (KA [2]) | _ => None end in
  ctx_ok G c /\ typeof G (@VarAdj Z 0 0) = Some (KA [2; 2]) /\
  evaluate (VarAdj 0 0) c = (c, Ok (VArr [2; 2]%nat (AN [AN [AF 1; AF 0]; AN [AF 0; AF 1]]))%Z).
Proof.
  split; [|split; reflexivity].
  intros i v; destruct i; [|discriminate]; intro H; injection H as <-; simpl; repeat split; repeat constructor.
Qed.

(** C36 Class precedence: order does not matter except between Vecs and arrays, where the left
    operand wins. *)
Theorem C36_precedence_partial :
  (forall c, precedence CScalars c = c /\ precedence c CScalars = c /\ precedence c c = c) /\
  (forall c, c = CVecs \/ c = CArrays -> precedence CTuples c = c /\ precedence c CTuples = c) /\
  (forall a b, (a = CVecs /\ b = CArrays) \/ (a = CArrays /\ b = CVecs) \/
               precedence a b = precedence b a) /\
  (forall a b c, precedence (precedence a b) c = precedence a (precedence b c)).
Proof. exact precedence_laws. Qed.
Print Assumptions C36_precedence_partial.

Theorem C36_order_refuted : exists a b, precedence a b <> precedence b a.
Proof. exact precedence_order. Qed.
Print Assumptions C36_order_refuted.

Example C36_example : precedence CTuples CArrays = CArrays /\ precedence CVecs CArrays = CVecs.
Proof. split; reflexivity. Qed.
