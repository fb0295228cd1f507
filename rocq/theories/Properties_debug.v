(** What [Debug] output says of expressions, buffers and errors: C89, C90. *)
From Coq Require Import List Arith Bool String Ascii.
Import ListNotations.
From Verif Require Import Base Shapes Scalar Buffers Spec Contraction Node Eval Dual Fmt Fmt_math Fmt_claims Debug
  Debug_math Debug_claims.
Local Open Scope string_scope.

(** C89 Two expressions have the same [Debug] text exactly when they are the same tree over the same
    identifiers, with constants that read the same. *)
Theorem C89_text : forall F (name : ident -> string) (show : F -> string),
  (forall i, word (name i)) -> (forall i j, name i = name j -> i = j) -> (forall x, word (show x)) ->
  forall n m s t, node_debug name show n = Some s -> node_debug name show m = Some t ->
  (s = t <-> reads_as show n m).
Proof. exact @debug_reads. Qed.
Print Assumptions C89_text.

(** An expression without constants is determined by its [Debug] text among all expressions. *)
Theorem C89_plain : forall F (name : ident -> string) (show : F -> string),
  (forall i, word (name i)) -> (forall i j, name i = name j -> i = j) -> (forall x, word (show x)) ->
  forall n m, has_constants n = false -> (node_debug name show n = node_debug name show m <-> n = m).
Proof. exact @debug_plain. Qed.
Print Assumptions C89_plain.

(** An expression with constants is determined among those of its Rust type, if scalars are determined
    by their texts. *)
Theorem C89_typed : forall F (name : ident -> string) (show : F -> string),
  (forall i, word (name i)) -> (forall i j, name i = name j -> i = j) -> (forall x, word (show x)) ->
  forall n m, (forall x y, show x = show y -> x = y) -> same_type n m -> has_specs n = false ->
  (node_debug name show n = node_debug name show m <-> n = m).
Proof. exact @debug_typed. Qed.
Print Assumptions C89_typed.

(** Only expressions with constants of specs have no [Debug] text. *)
Theorem C89_some : forall F (name : ident -> string) (show : F -> string) (n : node F),
  node_debug name show n = None <-> has_specs n = true.
Proof. exact @debug_some. Qed.
Print Assumptions C89_some.

(** Buffers, specs and dual numbers are determined by their texts among those of their type. *)
Theorem C89_buffers : forall F (show : F -> string),
  (forall x, word (show x)) -> (forall x y, show x = show y -> x = y) ->
  (forall v w, same_buffer (bty_of v) (bty_of w) -> (value_debug show v = value_debug show w <-> v = w)) /\
  (forall s t, same_buffer (spec_bty s) (spec_bty t) -> (spec_debug show s = spec_debug show t <-> s = t)) /\
  (forall d e, same_buffer (bty_of (d_value d)) (bty_of (d_value e)) ->
     same_buffer (bty_of (d_adjoint d)) (bty_of (d_adjoint e)) ->
     (dual_debug show d = dual_debug show e <-> d = e)).
Proof.
  exact (fun F show Sw Si => conj (value_typed show Sw Si) (conj (spec_typed show Sw Si) (dual_typed show Sw Si))).
Qed.
Print Assumptions C89_buffers.

(** C90 Two evaluation errors have the same [Debug] text exactly when they took the same sides to
    causes that read the same. *)
Theorem C90_text : forall name : ident -> string,
  (forall i, word (name i)) -> (forall i j, name i = name j -> i = j) ->
  forall e e', err_debug name e = err_debug name e' <->
    err_path e = err_path e' /\ cause_reads (root_cause e) (root_cause e').
Proof. exact error_debug. Qed.
Print Assumptions C90_text.

(** The [Debug] and the [Display] text of an error together determine it. *)
Theorem C90_both : forall name : ident -> string,
  (forall i, word (name i)) -> (forall i j, name i = name j -> i = j) ->
  forall e e', err_debug name e = err_debug name e' /\ err_display name e = err_display name e' <-> e = e'.
Proof. exact error_both. Qed.
Print Assumptions C90_both.

(** Identifiers and scalars with such texts; and expressions that [Display] does not tell apart. *)
Definition name_of (i : ident) : string := "X" ++ show_nat i.
Example C89_example :
  ((forall i, word (name_of i)) /\ (forall i j, name_of i = name_of j -> i = j) /\
   (forall x, word (show_nat x)) /\ (forall x y, show_nat x = show_nat y -> x = y)) /\
  node_debug name_of show_nat (Add (Un Sin (Var 0)) (Cached (Mul (VarAdj 1 0) (Const (VArr [2] (AN [AF 3; AF 4])))) 2)) =
    Some "Add(Sin(Variable(X0)), Cached { node: Mul(VariableAdjoint { value: X1, target: X0 }, [3, 4]), ident: X2 })" /\
  node_debug name_of show_nat (Contract 2 (Var 0) (ConstAdj (Const (VTup 5 6)) 0)) =
    Some "Contract<2>(Variable(X0), ConstantAdjoint { node: (5, 6), target: X0 })" /\
  display name_of show_nat (Un AddOne (Var 0)) = display name_of show_nat (Un OneSub (Var 0)) /\
  node_debug name_of show_nat (Un AddOne (Var 0)) <> node_debug name_of show_nat (Un OneSub (Var 0)).
Proof.
  assert (W : forall i, word (name_of i)).
  { intro i; split; [discriminate|]; exact (proj2 (show_nat_word i)). }
  split; [|repeat split; discriminate].
  split; [exact W|split; [|split; [exact show_nat_word|exact show_nat_inj]]].
  intros i j H; injection H as H; exact (show_nat_inj _ _ H).
Qed.

(** Across Rust types the text does not determine the constants: a [Vec] reads as an array. *)
Example C89_types_refuted :
  let n := Const (VVec [1; 2]) in let m := Const (VArr [2] (AN [AF 1; AF 2])) in
  n <> m /\ ~ same_type n m /\ node_debug name_of show_nat n = node_debug name_of show_nat m.
Proof. repeat split; try discriminate; intro H; inversion H; subst; auto. Qed.

Example C89_buffers_example :
  spec_debug show_nat (Full (TA [2; 3]) 7) = "Full(S2, 7)" /\
  spec_debug show_nat (Diagonal (TV 4) 7) = "Diagonal(SDynamic([4]), 7)" /\
  spec_debug show_nat (Raw (VTup 1 2)) = "Raw((1, 2))" /\
  dual_debug show_nat (Dual (VScal 1) (VVec [2; 3])) = "Dual { value: 1, adjoint: [2, 3] }" /\
  same_buffer (spec_bty (Full (TA [2; 3]) 7)) (spec_bty (Diagonal (TA [2; 3]) 8)).
Proof. repeat split. Qed.

Example C90_example :
  let e := ELeft (ERight (EOutput (Incompat (St [2]) (Dy [3])))) in
  let d := ERight (EOutput (Incompat (St [2]) (Dy [3]))) in
  err_debug name_of e =
    "Left(Right(Output(IncompatibleShapes { left: S1, right: SDynamic([3]) })))" /\
  err_debug name_of e <> err_debug name_of d /\ err_display name_of e = err_display name_of d /\
  err_debug name_of (ELeft (Undefined 4)) = "Left(Undefined(X4))".
Proof. repeat split; discriminate. Qed.

(** Neither text alone determines the error: dimensions of fixed shapes are not in the [Debug] text. *)
Example C90_shapes_refuted :
  let e := EOutput (Incompat (St [2]) (St [3])) in let d := EOutput (Incompat (St [4]) (St [5])) in
  e <> d /\ err_debug name_of e = err_debug name_of d.
Proof. split; [discriminate|reflexivity]. Qed.
