(** Naming sub-expressions (property C83): an expression in which a sub-expression was given a name,
    against the expression with the sub-expression written out (Subst_math.v). *)
From Coq Require Import List Arith ZArith Reals Lia Lra.
Import ListNotations.
From Verif Require Import Base Shapes Scalar Buffers Spec Contraction Node Eval Types Instances
  Vocab Math Real_math Code_math Fmt_math Subst_math Subst_claims Chain_claims.

(** C83: if [m] evaluates to the value [v] in [c], and to a plain buffer under [evaluate_spec], then
    [n] with [m] written out for [i] behaves in [c] as [n] does in [c] with [v] stored under [i]: the same
    values, panics and errors from all three methods, and the same caches filled.  [m] has no caches. *)
Theorem C83_named : forall {F} {S : Scalar F} (i : ident) (m n : node F) (c c1 : ctx F) v,
  ctx_wf c -> node_wf m -> cache_free m = true ->
  evaluate m c = (c1, Ok v) -> evaluate_spec m c = (c1, Ok (Raw v)) ->
  only_variable i n ->
  let c' := write c i v in
  (snd (evaluate (replaced i m n) c) = snd (evaluate n c') /\
   snd (evaluate_spec (replaced i m n) c) = snd (evaluate_spec n c') /\
   snd (evaluate_shape (replaced i m n) c) = snd (evaluate_shape n c')) /\
  forall j, j <> i ->
    fst (evaluate (replaced i m n) c) j = fst (evaluate n c') j /\
    fst (evaluate_spec (replaced i m n) c) j = fst (evaluate_spec n c') j /\
    fst (evaluate_shape (replaced i m n) c) j = fst (evaluate_shape n c') j.
Proof. exact @named. Qed.
Print Assumptions C83_named.

(** For a program on plain buffers it is enough that [evaluate] succeeds. *)
Theorem C83_written : forall {F} {S : Scalar F} (i : ident) (m n : node F) (c c1 : ctx F) v,
  ctx_wf c -> node_wf m -> written c m -> evaluate m c = (c1, Ok v) ->
  only_variable i n ->
  let c' := write c i v in
  (snd (evaluate (replaced i m n) c) = snd (evaluate n c') /\
   snd (evaluate_spec (replaced i m n) c) = snd (evaluate_spec n c') /\
   snd (evaluate_shape (replaced i m n) c) = snd (evaluate_shape n c')) /\
  forall j, j <> i ->
    fst (evaluate (replaced i m n) c) j = fst (evaluate n c') j /\
    fst (evaluate_spec (replaced i m n) c) j = fst (evaluate_spec n c') j /\
    fst (evaluate_shape (replaced i m n) c) j = fst (evaluate_shape n c') j.
Proof. exact @named_written. Qed.
Print Assumptions C83_written.

(** The type checker sees no difference either. *)
Theorem C83_types : forall {F} (i : ident) (m n : node F) (G G' : tenv),
  only_variable i n -> G' i = typeof G m -> (forall j, j <> i -> G' j = G j) ->
  typeof G (replaced i m n) = typeof G' n.
Proof. exact @replaced_type. Qed.
Print Assumptions C83_types.

(** The chain rule: for expressions of scalars, over the reals, the derivative of [n] with [m] written
    out for [i] exists whenever the others do, and evaluates to the derivative of [n] in [t] (none, if [t]
    is [i] itself) plus that in [i] times that of [m], with the value of [m] for [i]. *)
Theorem C83_chain : forall (inf : R) (sp : libfn -> R -> R) (i t : ident) (m n a b d : node R) (c c1 : ctx R) y,
  let S := R_scalar inf sp in
  let regular := regular (real_un inf sp) in
  ctx_wf c -> scalar_ctx c -> node_wf m -> node_wf n -> scalar_tree m -> scalar_tree n ->
  cache_free m = true -> cache_free n = true -> only_variable i n ->
  adjoint n t = Some a -> adjoint n i = Some b -> adjoint m t = Some d ->
  regular c m -> evaluate m c = (c1, Ok (VScal y)) ->
  exists e, adjoint (replaced i m n) t = Some e /\
  forall x p q r, let c' := write c i (VScal y) in
    regular c e -> regular c' a -> regular c' b -> regular c d ->
    snd (evaluate e c) = Ok (VScal x) ->
    snd (evaluate a c') = Ok (VScal p) -> snd (evaluate b c') = Ok (VScal q) -> snd (evaluate d c) = Ok (VScal r) ->
    x = ((if Nat.eqb t i then 0 else p) + q * r)%R.
Proof. exact @chain. Qed.
Print Assumptions C83_chain.

(** Witnesses. *)
(** [x0 · cached(x0) + x1], with [x1 + x2] for [x0]. *)
Definition cached_square : node Z := Add (Mul (Var 0) (Cached (Var 0) 5)) (Var 1).
Definition three_four : ctx Z := fun j => match j with 1 => Some (VScal 3%Z) | 2 => Some (VScal 4%Z) | _ => None end.
Definition one_two : node Z := Add (Var 1) (Var 2).

Example C83_example :
  let S := Z_scalar in
  ctx_wf three_four /\ node_wf one_two /\ written three_four one_two /\
  evaluate one_two three_four = (three_four, Ok (VScal 7%Z)) /\
  only_variable 0 cached_square /\
  snd (evaluate (replaced 0 one_two cached_square) three_four) = Ok (VScal 52%Z) /\
  snd (evaluate cached_square (write three_four 0 (VScal 7%Z))) = Ok (VScal 52%Z) /\
  fst (evaluate (replaced 0 one_two cached_square) three_four) 5 = Some (VScal 7%Z) /\
  typeof (fun j => match j with 1 | 2 | 5 => Some KS | _ => None end) (replaced 0 one_two cached_square) = Some KS.
Proof.
  intro S.
  split; [intros [|[|[|j]]] v; cbn; intros [= <-]; exact Logic.I|].
  split; [cbn; tauto|]. split; [cbn; tauto|]. split; [reflexivity|]. split; [cbn; intuition congruence|].
  repeat split.
Qed.

(** The hypothesis on [evaluate_spec] is needed: a constant kept as a [Full] specification takes a
    different route through [Power] than the same number in a buffer. *)
Example C83_spec_refuted : exists (m n : node Z) (c : ctx Z) v,
  let S := Z_scalar in
  cache_free m = true /\ evaluate m c = (c, Ok v) /\ only_variable 0 n /\
  snd (evaluate (replaced 0 m n) c) <> snd (evaluate n (write c 0 v)).
Proof.
  exists (ConstSpec (Full TS 0%Z)), (Power (Var 0) (Const (VScal 0%Z))), (fun _ => None), (VScal 0%Z).
  cbn; intuition; try discriminate.
Qed.

Local Open Scope R_scope.
(** [x0 · x1], with [2 x1] for [x0]: the derivative is 4 x1 = 8 at x1 = 2. *)
Example C83_chain_example : forall inf sp,
  let S := R_scalar inf sp in
  let regular := regular (real_un inf sp) in
  let c : ctx R := fun j => match j with 1%nat => Some (VScal 2) | _ => None end in
  let m : node R := Un Double (Var 1%nat) in
  let n : node R := Mul (Var 0%nat) (Var 1%nat) in
  exists a b d e y x p q r,
  ctx_wf c /\ scalar_ctx c /\ only_variable 0%nat n /\
  adjoint n 1%nat = Some a /\ adjoint n 0%nat = Some b /\ adjoint m 1%nat = Some d /\ adjoint (replaced 0%nat m n) 1%nat = Some e /\
  regular c m /\ snd (evaluate m c) = Ok (VScal y) /\
  regular c e /\ regular (write c 0%nat (VScal y)) a /\ regular (write c 0%nat (VScal y)) b /\ regular c d /\
  snd (evaluate e c) = Ok (VScal x) /\ snd (evaluate a (write c 0%nat (VScal y))) = Ok (VScal p) /\
  snd (evaluate b (write c 0%nat (VScal y))) = Ok (VScal q) /\ snd (evaluate d c) = Ok (VScal r) /\
  y = 4 /\ x = 8 /\ p = 4 /\ q = 2 /\ r = 2.
Proof.
  intros inf sp S rg c m n.
  do 4 eexists; exists 4, 8, 4, 2, 2.
  assert (Ev : forall (k : node R) (g : ctx R) x y, snd (evaluate k g) = Ok (VScal x) -> x = y -> snd (evaluate k g) = Ok (VScal y))
    by (intros; subst; assumption).
  assert (Z : R_eqb 0 0 = true) by (unfold R_eqb; destruct (Req_EM_T 0 0); [reflexivity|lra]).
  assert (O : R_eqb 1 0 = false) by (unfold R_eqb; destruct (Req_EM_T 1 0); [lra|reflexivity]).
  assert (O1 : R_eqb 1 1 = true) by (unfold R_eqb; destruct (Req_EM_T 1 1); [reflexivity|lra]).
  assert (Z1 : R_eqb 0 1 = false) by (unfold R_eqb; destruct (Req_EM_T 0 1); [lra|reflexivity]).
  split; [intros [|[|j]] v; cbn; intros [= <-]; exact Logic.I|].
  split; [intros [|[|j]] v; cbn; intros [= <-]; reflexivity|].
  split; [cbn; tauto|].
  split; [reflexivity|]. split; [reflexivity|]. split; [reflexivity|]. split; [reflexivity|].
  split; [cbn; tauto|]. split; [eapply Ev; [reflexivity|cbn; ring]|].
  split; [cbn; tauto|]. split; [cbn; tauto|]. split; [cbn; tauto|]. split; [cbn; tauto|].
  split; [cbn; unfold eval_by_spec, both, varadj_spec, read_spec, read_bty, read, write; cbn; repeat (progress (rewrite ?Z, ?O, ?Z1, ?O1; cbn)); apply (f_equal (fun z => Ok (VScal z))); ring|].
  split; [cbn; unfold eval_by_spec, both, varadj_spec, read_spec, read_bty, read, write; cbn; repeat (progress (rewrite ?Z, ?O, ?Z1, ?O1; cbn)); apply (f_equal (fun z => Ok (VScal z))); ring|].
  split; [cbn; unfold eval_by_spec, both, varadj_spec, read_spec, read_bty, read, write; cbn; repeat (progress (rewrite ?Z, ?O, ?Z1, ?O1; cbn)); apply (f_equal (fun z => Ok (VScal z))); ring|].
  split; [cbn; unfold eval_by_spec, both, varadj_spec, read_spec, read_bty, read, write; cbn; repeat (progress (rewrite ?Z, ?O, ?Z1, ?O1; cbn)); apply (f_equal (fun z => Ok (VScal z))); ring|].
  repeat split.
Qed.
