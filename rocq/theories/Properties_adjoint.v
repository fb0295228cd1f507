(** Adjoints: C05, C06, C11, C42, C55, C68, C69, C73. *)
From Coq Require Import List Arith ZArith Reals Bool SpecFloat Lia Lra.
Import ListNotations.
From Verif Require Import Base Shapes Scalar Buffers Spec Contraction Node Eval Types Instances
  Vocab Math Code_math Instance_facts Math_claims Adjoint_facts Adjoint_claims Absent_claims
  Real_math Diff_math Diff_claims Diff_types Diff_twice Size_claims.

(** C06 The adjoint with respect to an absent variable is zero. *)
Theorem C06_absent_zero : forall F (S : Scalar F) (n : node F) t (c c' : ctx F) w,
  exact F -> (forall y : F, y <> fzero -> fdiv fzero y = fzero) ->
  (forall y : F, y <> fzero -> fpow y ftwo <> fzero) ->
  node_wf n -> ctx_wf c -> contains n t = false -> quotients_ok c n ->
  evaluate_adjoint n t c = Some (c', Ok w) ->
  forall ix, in_box (dims (vshape w)) ix -> vat fzero w ix = fzero.
Proof. exact @absent_zero. Qed.
Print Assumptions C06_absent_zero.

Theorem C06_absent_zero_real : forall inf sp (n : node R) t (c c' : ctx R) w,
  let S := R_scalar inf sp in
  node_wf n -> ctx_wf c -> contains n t = false -> quotients_ok c n ->
  evaluate_adjoint n t c = Some (c', Ok w) ->
  forall ix, in_box (dims (vshape w)) ix -> vat 0%R w ix = 0%R.
Proof. exact absent_zero_real. Qed.
Print Assumptions C06_absent_zero_real.

(** The same if the variable occurs in adjoints only. *)
Theorem C06_absent_adjoints : forall F (S : Scalar F) (n : node F) t (c c' : ctx F) w,
  exact F -> (forall y : F, y <> fzero -> fdiv fzero y = fzero) ->
  (forall y : F, y <> fzero -> fpow y ftwo <> fzero) ->
  node_wf n -> ctx_wf c -> varies n t = false -> quotients_ok c n ->
  evaluate_adjoint n t c = Some (c', Ok w) ->
  forall ix, in_box (dims (vshape w)) ix -> vat fzero w ix = fzero.
Proof. exact @absent_adjoints. Qed.
Print Assumptions C06_absent_adjoints.

Example C06_example_adjoints : forall inf sp,
  let S := R_scalar inf sp in
  let n : node R := Mul (VarAdj 0 0) (Var 1) in
  let c : ctx R := fun i => match i with 0 => Some (VScal 3%R) | 1 => Some (VScal 5%R) | _ => None end in
  node_wf n /\ ctx_wf c /\ contains n 0 = true /\ varies n 0 = false /\ quotients_ok c n /\
  exists c' w, evaluate_adjoint n 0 c = Some (c', Ok w).
Proof.
  intros inf sp S n c. split; [simpl; auto|].
  split; [intros i v E; do 2 (destruct i; [inversion E; subst; exact I|]); discriminate|].
  split; [reflexivity|]. split; [reflexivity|]. split; [exact (conj I I)|].
  unfold evaluate_adjoint; cbn. unfold eval_by_spec, both, varadj_spec, constadj_spec, constadj_shape, ok_or_undef; cbn.
  destruct (R_eqb 0 0), (R_eqb 1 0), (R_eqb 1 1); cbn; unfold add_match; cbn; do 2 eexists; reflexivity.
Qed.

Example C06_example :
  let S := Z_scalar in
  let n := Sub (Div (Var 0) (Var 1)) (Contract 1 (Const (vec2 1 2)) (Const (vec2 3 4))) in
  let c := fun i => match i with 0 => Some (VScal 12%Z) | 1 => Some (VScal 4%Z)
                               | 2 => Some (vec2 5 6) | _ => None end in
  node_wf n /\ ctx_wf c /\ contains n 2 = false /\ quotients_ok c n /\
  evaluate_adjoint n 2 c = Some (c, Ok (vec2 0 0)).
Proof.
  split; [simpl; repeat (split; auto; try lia)|].
  split; [intros [|[|[|i]]] v E; inversion E; subst; simpl; repeat constructor|].
  split; [reflexivity|split; [|reflexivity]].
  repeat (split; try exact I).
  intros v E; apply (f_equal (fun r => match r with Ok x => x | _ => v end)) in E; simpl in E; subst v.
  intros ix _; discriminate.
Qed.

(** C55 In any arithmetic whose zeros are closed under sums, differences, negation and doubling,
    and whatever the values (infinite or not a number included), the adjoint with respect to an
    absent variable is zero: the zero short cut of [Mul] applies before anything is multiplied.
    This is for trees without quotients, logarithms and contractions. *)
Theorem C55_absent_zero : forall F (S : Scalar F) (n : node F) t (c c' : ctx F) w,
  zeros_closed F -> no_quotients n -> contains n t = false ->
  evaluate_adjoint n t c = Some (c', Ok w) ->
  forall ix, in_box (dims (vshape w)) ix -> is_zero (vat fzero w ix) = true.
Proof. intros F S n t c c' w Z; exact (@absent_any F S Z n t c c' w). Qed.
Print Assumptions C55_absent_zero.

Theorem C55_absent_f64 : forall pow lib (n : node f64) t (c c' : ctx f64) w,
  let S := f64_scalar pow lib in
  no_quotients n -> contains n t = false -> evaluate_adjoint n t c = Some (c', Ok w) ->
  forall ix, in_box (dims (vshape w)) ix -> exists s, vat f64_zero w ix = S754_zero s.
Proof. exact absent_f64. Qed.
Print Assumptions C55_absent_f64.

(** [x * exp(y) + x ^ y] at infinite [x] and undefined [y], by a vector: plainly zero. *)
Example C55_example : forall pow lib,
  let S := f64_scalar pow lib in
  let n : node f64 := Add (Mul (Var 0) (Un Exp (Var 1))) (Power (Var 0) (Var 1)) in
  let c : ctx f64 := fun i => match i with 0 => Some (VScal (S754_infinity false)) | 1 => Some (VScal S754_nan)
                               | 2 => Some (VArr [2] (AN [AF f64_zero; AF f64_zero])) | _ => None end in
  no_quotients n /\ contains n 2 = false /\
  evaluate_adjoint n 2 c = Some (c, Ok (VArr [2] (AN [AF f64_zero; AF f64_zero]))).
Proof. intros; split; [|split; reflexivity]; cbn; intuition discriminate. Qed.

(** With a quotient, a logarithm or a contraction it may not be a number. *)
Theorem C55_quotient_refuted : exists (l r : value f64), forall pow lib,
  let S := f64_scalar pow lib in
  pow f64_zero ftwo = f64_zero ->
  let c : ctx f64 := fun i => match i with 0 => Some l | 1 => Some r | 2 => Some (VScal (f64_of_Z 1))
                                         | _ => None end in
  evaluate_adjoint (Div (Var 1) (Var 0)) 2 c = Some (c, Ok (VScal S754_nan)) /\
  evaluate_adjoint (Un Ln (Var 0)) 2 c = Some (c, Ok (VScal S754_nan)) /\
  evaluate_adjoint (Contract 1 (Const (VArr [1] (AN [AF (S754_infinity false)])))
                               (Const (VArr [1] (AN [AF (S754_infinity false)])))) 2 c
    = Some (c, Ok (VScal S754_nan)).
Proof. 
  exists (VScal f64_zero), (VScal (f64_of_Z 1)); intros pow lib S P c.
  split; [|split; reflexivity]; transitivity (Some (c, Ok (VScal (SFdiv 53 1024 f64_zero (pow f64_zero ftwo)))) : option (ctx f64 * res err (value f64))).
  - reflexivity.
  - rewrite P; reflexivity.
Qed.
Print Assumptions C55_quotient_refuted.

(** C11 Type of the adjoint. *)
Theorem C11_adjoint_type : forall F G t (n n' : node F) k k',
  sum_free n = true -> adjoint n t = Some n' -> typeof G n = Some k -> typeof G n' = Some k' ->
  exists kt d T, G t = Some kt /\ sty_dims k = Some d /\ sty_dims kt = Some T /\
                 sty_dims k' = Some (d ++ T).
Proof. exact @adjoint_type. Qed.
Print Assumptions C11_adjoint_type.

(** The same for the evaluated buffers. *)
Theorem C11_adjoint_shape : forall F (S : Scalar F) G t (n n' : node F) k k' (c : ctx F) v w vt,
  node_wf n -> sum_free n = true -> adjoint n t = Some n' ->
  typeof G n = Some k -> typeof G n' = Some k' -> ctx_ok G c ->
  snd (evaluate n c) = Ok v -> snd (evaluate n' c) = Ok w -> c t = Some vt ->
  dims (vshape w) = dims (vshape v) ++ dims (vshape vt).
Proof. exact @adjoint_shape. Qed.
Print Assumptions C11_adjoint_shape.

Example C11_example :
  let G : tenv := fun i => match i with 0 => Some (KA [3]) | 1 => Some KS | _ => None end in
  let n : node Z := Sub (Var 0) (Contract 0 (Un Negate (Var 0)) (Const (VScal 2%Z))) in
  let m : node Z := Mul (Var 1) (Contract 1 (Var 0) (Var 0)) in
  sum_free n = true /\ typeof G n = Some (KA [3]) /\
  (exists n', adjoint n 0 = Some n' /\ typeof G n' = Some (KA [3; 3])) /\
  sum_free m = true /\ typeof G m = Some KS /\
  (exists m', adjoint m 1 = Some m' /\ typeof G m' = Some KS).
Proof. simpl; eauto 12. Qed.

(** With a [Sum] the claim fails: the adjoint of [Sum] is not summed. *)
Example C11_sum_differs :
  let G : tenv := fun i => match i with 0 => Some (KA [3]) | _ => None end in
  let n : node Z := Sum (Var 0) in
  typeof G n = Some KS /\ exists n', adjoint n 0 = Some n' /\ typeof G n' = Some (KA [3; 3]).
Proof. simpl; eauto. Qed.

(** C05 Higher derivatives.  The full statement fails: nothing can be differentiated three times. *)
Theorem C05_repeat_refuted : exists (n n' n'' : node Z) t,
  adjoint n t = Some n' /\ adjoint n' t = Some n'' /\ forall u, adjoint n'' u = None.
Proof.
  exists (Var 0), (VarAdj 0 0), (ConstAdj (VarAdj 0 0) 0), 0; auto.
Qed.
Print Assumptions C05_repeat_refuted.

(** C42 How often an expression can be differentiated: never three times, and only once if it
    contains a constant. *)
Theorem C42_third : forall F (n n' n'' : node F) t u w,
  adjoint n t = Some n' -> adjoint n' u = Some n'' -> adjoint n'' w = None.
Proof. exact @third_none. Qed.
Print Assumptions C42_third.

Theorem C42_constant : forall F (n n' : node F) t u,
  has_const n = true -> adjoint n t = Some n' -> adjoint n' u = None.
Proof. exact @second_none. Qed.
Print Assumptions C42_constant.

Example C42_example :
  (exists n' n'', adjoint (Mul (Var 0) (Un Sin (Var 1)) : node Z) 0 = Some n' /\ adjoint n' 1 = Some n'') /\
  has_const (Mul (Var 0) (Const (VScal 2%Z))) = true /\
  exists n', adjoint (Mul (Var 0) (Const (VScal 2%Z))) 0 = Some n'.
Proof.
  split; [do 2 eexists; split; reflexivity|split; [reflexivity|eexists; reflexivity]].
Qed.

(** C68 Which expressions can be differentiated, once and twice, and what caches change. *)
Theorem C68_when : forall F (n : node F) t,
  adjoint n t <> None <-> forall m, part m n -> admits t m.
Proof. exact @differentiable_iff. Qed.
Print Assumptions C68_when.

Theorem C68_twice : forall F (n : node F) t u, cache_free n = true ->
  ((exists n' n'', adjoint n t = Some n' /\ adjoint n' u = Some n'') <->
   forall m, part m n -> admits_twice m).
Proof. exact @twice_iff. Qed.
Print Assumptions C68_twice.

Theorem C68_caches_removed : forall F (n n' : node F) t,
  adjoint n t = Some n' -> adjoint (strip n) t = Some (strip n').
Proof. exact @adjoint_strip. Qed.
Print Assumptions C68_caches_removed.

(** A cache can be differentiated by its own key only, so two caches with different keys by none. *)
Theorem C68_only_key : forall F (n m n' : node F) k t,
  part (Cached m k) n -> adjoint n t = Some n' -> t = k.
Proof. exact @only_key. Qed.
Print Assumptions C68_only_key.

(** With a key that is no variable of the cached expression, the derivative is zero. *)
Theorem C68_by_key : forall inf sp (m : node R) k (c c' : ctx R) w,
  let S := R_scalar inf sp in
  node_wf m -> ctx_wf c -> contains m k = false -> quotients_ok c m ->
  evaluate_adjoint (Cached m k) k c = Some (c', Ok w) ->
  forall ix, in_box (dims (vshape w)) ix -> vat 0%R w ix = 0%R.
Proof. exact by_key_zero. Qed.
Print Assumptions C68_by_key.

Example C68_example :
  let n : node Z := Mul (Cached (Un Sin (Var 0)) 7) (Var 1) in
  adjoint n 0 = None /\ adjoint n 7 <> None /\ adjoint (strip n) 0 <> None /\
  (exists n' n'', adjoint (strip n) 0 = Some n' /\ adjoint n' 1 = Some n'') /\
  adjoint (Mul (Un Gamma (Var 0)) (Var 1) : node Z) 0 <> None /\
  (forall n', adjoint (Mul (Un Gamma (Var 0)) (Var 1) : node Z) 0 = Some n' -> adjoint n' 0 = None) /\
  (forall t, adjoint (Add n (Cached (Var 0) 8)) t = None).
Proof.
  cbn zeta. split; [reflexivity|]. split; [discriminate|]. split; [discriminate|].
  split; [do 2 eexists; split; reflexivity|]. split; [discriminate|].
  split; [intros n' E; injection E as <-; reflexivity|].
  intro t. destruct (adjoint _ t) as [n'|] eqn:E; [|reflexivity]. exfalso.
  assert (t = 7) by (eapply only_key; [|exact E]; apply part_add_l, part_mul_l, part_self).
  assert (t = 8) by (eapply only_key; [|exact E]; apply part_add_r, part_self).
  lia.
Qed.

Example C68_by_key_example : forall inf sp,
  let S := R_scalar inf sp in
  let m : node R := Mul (Var 0) (Var 0) in
  let c : ctx R := fun i => match i with 0 => Some (VScal 3%R) | 7 => Some (VScal 1%R) | _ => None end in
  node_wf m /\ ctx_wf c /\ contains m 7 = false /\ quotients_ok c m /\
  exists c' w, evaluate_adjoint (Cached m 7) 7 c = Some (c', Ok w).
Proof.
  intros inf sp S m c. split; [simpl; auto|].
  split; [intros i v E; do 8 (destruct i; [inversion E; subst; exact I|]); discriminate|].
  split; [reflexivity|]. split; [exact (conj I I)|].
  unfold evaluate_adjoint; cbn. unfold eval_by_spec, both, varadj_spec, ok_or_undef; cbn.
  destruct (R_eqb 0 0); cbn; unfold add_match; cbn; do 2 eexists; reflexivity.
Qed.

(** C69 Which gradients compile. *)
Theorem C69_when : forall F G (n n' : node F) t k T,
  array_types G n -> scalar_sums G n -> typeof G n = Some k -> G t = Some (array_type T) ->
  adjoint n t = Some n' ->
  (typeof G n' <> None <-> forall m, part m n -> gradient_types G T m).
Proof. exact @gradient_iff. Qed.
Print Assumptions C69_when.

(** By a scalar, only the number of dimensions of the leaves matters. *)
Theorem C69_scalar : forall F G (n n' : node F) t k,
  array_types G n -> scalar_sums G n -> typeof G n = Some k -> G t = Some KS ->
  adjoint n t = Some n' ->
  (typeof G n' <> None <->
   (forall i s, part (Var i) n -> G i = Some (KA s) -> length s <= 3) /\
   forall m s, part m n -> (exists v, m = Const v) \/ (exists i u, m = VarAdj i u) ->
     typeof G m = Some (KA s) -> length s <= 5).
Proof. exact @gradient_scalar. Qed.
Print Assumptions C69_scalar.

(** The loss of the linear example by its weights, and products and matrices that fail. *)
Example C69_example :
  let G : tenv := fun i => match i with 0 => Some (KA [3]) | 1 => Some (KA [3]) | 2 => Some KS | 3 => Some (KA [3; 3])
    | 4 => Some (KA [2; 2; 2; 2]) | _ => None end in
  let loss : node Z := Un Square (Sub (Contract 1 (Var 0) (Var 1)) (Var 2)) in
  let scaled : node Z := Mul (Var 2) (Var 1) in
  let image : node Z := Contract 1 (Var 3) (Var 1) in
  array_types G loss /\ scalar_sums G loss /\ typeof G loss = Some KS /\
  (exists n', adjoint loss 1 = Some n' /\ typeof G n' = Some (KA [3])) /\
  (exists n', adjoint scaled 1 = Some n' /\ typeof G scaled = Some (KA [3]) /\ typeof G n' = None) /\
  (exists n', adjoint image 1 = Some n' /\ typeof G image = Some (KA [3]) /\ typeof G n' = None) /\
  (exists n', adjoint image 2 = Some n' /\ typeof G n' = Some (KA [3])) /\
  exists n', adjoint (Var 4 : node Z) 2 = Some n' /\ typeof G n' = None.
Proof.
  intros G loss scaled image.
  assert (A : array_types G loss).
  { split.
    - intros i k E; do 5 (destruct i; [injection E as <-; solve [exists []; reflexivity|eexists (_ :: _); reflexivity]|]).
      discriminate.
    - intros v P; exfalso; repeat match goal with P : part _ _ |- _ => inversion P; clear P; subst end. }
  split; [exact A|]. split; [exact (conj (conj Logic.I Logic.I) Logic.I)|]. split; [reflexivity|].
  repeat split; eexists; repeat split; reflexivity.
Qed.

(** By arrays twice: hardly any second gradient compiles, and those that do are zero. *)
Theorem C69_twice : forall F G (n n' n'' : node F) t u k T U,
  array_types G n -> scalar_sums G n -> typeof G n = Some k ->
  G t = Some (array_type T) -> G u = Some (array_type U) -> T <> [] -> U <> [] ->
  adjoint n t = Some n' -> adjoint n' u = Some n'' ->
  (typeof G n' <> None /\ typeof G n'' <> None <-> forall m, part m n -> gradient_twice G T U m).
Proof. exact @gradient_twice_iff. Qed.
Print Assumptions C69_twice.

Theorem C69_twice_zero : forall F (S : Scalar F) G (n n' n'' : node F) t u k T U (c c' : ctx F) w,
  exact F -> (forall y : F, y <> fzero -> fdiv fzero y = fzero) ->
  (forall y : F, y <> fzero -> fpow y ftwo <> fzero) ->
  array_types G n -> scalar_sums G n -> typeof G n = Some k ->
  G t = Some (array_type T) -> G u = Some (array_type U) -> T <> [] -> U <> [] ->
  adjoint n t = Some n' -> adjoint n' u = Some n'' -> typeof G n' <> None -> typeof G n'' <> None ->
  node_wf n -> ctx_wf c -> evaluate n'' c = (c', Ok w) ->
  forall ix, in_box (dims (vshape w)) ix -> vat fzero w ix = fzero.
Proof. exact @gradient_twice_zero. Qed.
Print Assumptions C69_twice_zero.

(** The loss of the linear example has a gradient by its weights but no Hessian. *)
Example C69_twice_example :
  let G : tenv := fun i => match i with 0 => Some (KA [3]) | 1 => Some (KA [3]) | 2 => Some KS | _ => None end in
  let loss : node Z := Un Square (Sub (Contract 1 (Var 0) (Var 1)) (Var 2)) in
  let affine : node Z := Sub (Var 0) (Un Double (Var 1)) in
  let outer : node Z := Contract 0 (Var 2) (Un AddOne (Var 2)) in
  array_types G affine /\ scalar_sums G affine /\ typeof G affine = Some (KA [3]) /\
  (exists n' n'', adjoint loss 1 = Some n' /\ adjoint n' 1 = Some n'' /\
     typeof G n' = Some (KA [3]) /\ typeof G n'' = None) /\
  (exists n' n'', adjoint affine 0 = Some n' /\ adjoint n' 1 = Some n'' /\ typeof G n'' = Some (KA [3; 3; 3])) /\
  exists n' n'', adjoint outer 0 = Some n' /\ adjoint n' 1 = Some n'' /\ typeof G n'' = Some (KA [3; 3]).
Proof.
  intros G loss affine outer.
  assert (A : array_types G affine).
  { split.
    - intros i k E; do 3 (destruct i; [injection E as <-; solve [exists []; reflexivity|eexists (_ :: _); reflexivity]|]).
      discriminate.
    - intros v P; exfalso; repeat match goal with P : part _ _ |- _ => inversion P; clear P; subst end. }
  split; [exact A|]. split; [exact (conj Logic.I Logic.I)|]. split; [reflexivity|].
  repeat split; do 2 eexists; repeat split; reflexivity.
Qed.

Example C69_twice_zero_example :
  let S := Z_scalar in
  let n : node Z := Sub (Var 0) (Un Double (Var 1)) in
  let c : ctx Z := fun i => match i with 0 => Some (vec2 3 4) | 1 => Some (vec2 5 6) | _ => None end in
  node_wf n /\ ctx_wf c /\ exists n' n'' c' w, adjoint n 0 = Some n' /\ adjoint n' 1 = Some n'' /\
    evaluate n'' c = (c', Ok w) /\ vshape w = St [2; 2; 2].
Proof.
  intros S n c. split; [exact (conj Logic.I Logic.I)|].
  split; [intros [|[|i]] v E; inversion E; subst; simpl; repeat constructor|].
  do 4 eexists; repeat split; vm_compute; reflexivity.
Qed.

(** C73.  The tree of a derivative has at most four times as many nodes as the product of the
    number of nodes and the height of the expression. *)
Theorem C73_nodes : forall F t (n n' : node F), adjoint n t = Some n' ->
  nodes n' <= 4 * (nodes n * height n).
Proof. exact adjoint_nodes. Qed.
Print Assumptions C73_nodes.

(** So it is at most quadratic; ... *)
Theorem C73_quadratic : forall F t (n n' : node F), adjoint n t = Some n' ->
  nodes n' <= 4 * (nodes n * nodes n).
Proof. exact adjoint_square. Qed.
Print Assumptions C73_quadratic.

(** ... its height is at most three times the height of the expression, ... *)
Theorem C73_height : forall F t (n n' : node F), adjoint n t = Some n' ->
  height n' + 1 <= 3 * height n.
Proof. exact adjoint_height. Qed.
Print Assumptions C73_height.

(** ... and a second derivative gains one more factor of the height. *)
Theorem C73_twice : forall F t u (n n' n'' : node F),
  adjoint n t = Some n' -> adjoint n' u = Some n'' ->
  nodes n'' <= 48 * (nodes n * height n * height n).
Proof. exact twice_nodes. Qed.
Print Assumptions C73_twice.

(** These orders of growth are reached: [x * x * ... * x] with [2 k + 1] nodes has a derivative of
    [k^2 + 5 k + 1] nodes, and a second derivative of at least [2/3 k^3] nodes. *)
Theorem C73_chain : forall F x t k, @nodes F (product_chain x k) = 2 * k + 1 /\
  exists n', @adjoint F (product_chain x k) t = Some n' /\ nodes n' = k * k + 5 * k + 1.
Proof. exact (fun F x t k => conj (chain_nodes F x k) (chain_adjoint F x t k)). Qed.
Print Assumptions C73_chain.

Theorem C73_chain_twice : forall F x t u k, exists n' n'',
  @adjoint F (product_chain x k) t = Some n' /\ adjoint n' u = Some n'' /\
  2 * (k * k * k) <= 3 * nodes n''.
Proof. exact chain_twice. Qed.
Print Assumptions C73_chain_twice.

(** [x^y * sigmoid(x)] and its derivatives. *)
Example C73_example :
  let n : node Z := Mul (Power (Var 0) (Var 1)) (Un Sigmoid (Var 0)) in
  exists n' n'', adjoint n 0 = Some n' /\ adjoint n' 1 = Some n'' /\
    (nodes n, height n, nodes n', height n', nodes n'') = (6, 3, 26, 7, 119).
Proof. do 2 eexists; split; [reflexivity|]; split; reflexivity. Qed.
