(** Which gradients of expressions that evaluate also evaluate: C93. *)
From Coq Require Import List Arith ZArith Reals Bool Lia Lra.
Import ListNotations.
From Verif Require Import Base Shapes Scalar Buffers Spec Contraction Node Eval Types Instances
  Vocab Math Real_math Calculus Diff_math Fit_math Instance_facts Fit_claims.

(** * C93 When the gradient of an expression is as good as the expression *)

(** A gradient that compiles multiplies vectors with square matrices only if and only if, should the
    target be a vector, every dot product in the expression is of vectors of the length of the target. *)
Theorem C93_square : forall F (G : tenv) t kt T, G t = Some kt -> sty_dims kt = Some T ->
  forall (n n' : node F) k k',
  scalar_sums G n -> adjoint n t = Some n' -> typeof G n = Some k -> typeof G n' = Some k' -> square G n ->
  (square G n' <-> fits G T n).
Proof. exact @fits_iff. Qed.
Print Assumptions C93_square.

(** Then the gradient evaluates, to a buffer of its type. *)
Theorem C93_evaluates : forall F (S : Scalar F) (G : tenv) (c : ctx F) (n n' : node F) t k' kt T,
  fof_total -> ctx_ok G c -> node_wf n -> scalar_sums G n -> square G n -> typeof G n <> None ->
  G t = Some kt -> sty_dims kt = Some T -> fits G T n ->
  adjoint n t = Some n' -> typeof G n' = Some k' -> (forall i, uses n i \/ i = t -> c i <> None) ->
  exists c' w, evaluate_adjoint n t c = Some (c', Ok w) /\ vwf w /\ sty_of (bty_of w) = k'.
Proof. exact @fit_evaluates. Qed.
Print Assumptions C93_evaluates.

(** Over the reals it is the Jacobian (C04), with conditions on the expression only. *)
Theorem C93_jacobian : forall inf sp G (c : ctx R) t (n n' : node R) kt T,
  let S := R_scalar inf sp in
  ctx_ok G c -> (forall i, uses n i \/ i = t -> c i <> None) -> node_wf n -> cache_free n = true -> scalar_sums G n ->
  square G n -> typeof G n <> None -> G t = Some kt -> sty_dims kt = Some T -> fits G T n ->
  adjoint n t = Some n' -> typeof G n' <> None ->
  regular (real_un inf sp) c n -> smooth inf sp c t n ->
  exists v w x,
    evaluate n c = (c, Ok v) /\ evaluate_adjoint n t c = Some (c, Ok w) /\ c t = Some x /\
    dims (vshape w) = dims (vshape v) ++ dims (vshape x) /\
    forall i j, in_box (dims (vshape v)) i -> in_box (dims (vshape x)) j ->
      derivable_pt_lim (fun h => entry inf sp n (bump c t j h) i) 0%R (vat 0%R w (i ++ j)).
Proof. exact fit_jacobian. Qed.
Print Assumptions C93_jacobian.

(** Otherwise the gradient can panic although the expression evaluates ... *)
Theorem C93_panics : exists G (c : ctx Z) (n n' : node Z) t v,
  let S := Z_scalar in
  ctx_ok G c /\ node_wf n /\ cache_free n = true /\ scalar_sums G n /\ square G n /\ (forall i, uses n i \/ i = t -> c i <> None) /\
  typeof G n <> None /\ adjoint n t = Some n' /\ typeof G n' <> None /\
  evaluate n c = (c, Ok v) /\ evaluate_adjoint n t c = Some (c, Panic).
Proof. exact scaled_panics. Qed.
Print Assumptions C93_panics.

(** ... or silently come out wrong: here half the derivative. *)
Theorem C93_wrong : exists G (c : ctx R) (n n' : node R) t,
  ctx_ok G c /\ node_wf n /\ cache_free n = true /\ scalar_sums G n /\ square G n /\ (forall i, uses n i \/ i = t -> c i <> None) /\
  typeof G n <> None /\ adjoint n t = Some n' /\ typeof G n' <> None /\
  forall inf sp, let S := R_scalar inf sp in
  regular (real_un inf sp) c n /\ smooth inf sp c t n /\
  exists w, evaluate_adjoint n t c = Some (c, Ok w) /\ vshape w = St [1] /\
    derivable_pt_lim (fun h => entry inf sp n (bump c t [0] h) []) 0%R 10%R /\ vat 0%R w [0] = 5%R.
Proof. exact scaled_short. Qed.
Print Assumptions C93_wrong.

(** [v . (w (x . y))] fits when all four have the same length; by [x]. *)
Example C93_example :
  let S := Z_scalar in
  let n : node Z := scaled_dot in
  let c := (four [1; 2] [3; 4] [1; 2] [1; 1])%Z in
  let G := lengths 2 2 in
  fof_total /\ ctx_ok G c /\ node_wf n /\ scalar_sums G n /\ square G n /\ typeof G n = Some KS /\ fits G [2] n /\
  (forall i, uses n i \/ i = 2 -> c i <> None) /\
  (exists n', adjoint n 2 = Some n' /\ typeof G n' = Some (KA [2]) /\ square G n') /\
  evaluate_adjoint n 2 c = Some (c, Ok (VArr [2] (AN [AF 11%Z; AF 11%Z]))) /\
  ~ fits (lengths 3 2) [2] n.
Proof.
  intros S n c G.
  assert (Ft : fits G [2] n).
  { intros d l r E P; injection E as <-.
    repeat match goal with P : part _ _ |- _ => inversion P; clear P; subst end; split; reflexivity. }
  assert (Sq : square G n).
  { cbn; repeat split; intros kl kr E1 E2; injection E1 as <-; injection E2 as <-; auto. }
  split; [intros k E; discriminate|].
  split; [intros [|[|[|[|i]]]] v E; inversion E; subst; repeat constructor|].
  split; [cbn; auto|split; [cbn; auto|split; [exact Sq|split; [reflexivity|split; [exact Ft|split]]]]].
  - intros i; cbn [uses n scaled_dot]; intros [[->|[->|[->| ->]]] | ->]; discriminate.
  - split; [|split; [vm_compute; reflexivity|]].
    + eexists; split; [reflexivity|split; [reflexivity|]].
      eapply (C93_square Z G 2 (KA [2]) [2]); try reflexivity; try exact Ft; try exact Sq; cbn; auto.
    + intro H; specialize (H 2 _ _ eq_refl (part_self (Contract 1 _ _))); destruct H as [H _]; discriminate H.
Qed.
