(** [derive(Contains)] and [ctx!]: C50, C51. *)
From Coq Require Import List Arith ZArith Bool String.
Import ListNotations.
From Verif Require Import Base Shapes Scalar Buffers Spec Node Eval Instances Ids Derive Compile Ops_derive
  Vocab Math Macro_math Ops_claims.
Local Open Scope string_scope.

(** * C50 What derive(Contains) accepts and what it generates *)

(** Accepted are the structs with named or unnamed fields, each marked [#[op]] exactly once;
    everything else panics. *)
Theorem C50_accepts : forall ps d,
  (exists i, expand_contains ps d = Ok i) <->
  exists l, (d = ONamed l \/ d = OUnnamed l) /\ Forall one_op l.
Proof. exact contains_accepted. Qed.
Print Assumptions C50_accepts.

Theorem C50_rejects : forall ps d,
  (forall i, expand_contains ps d <> Ok i) -> expand_contains ps d = Panic.
Proof. exact contains_rejected. Qed.
Print Assumptions C50_rejects.

(** One call and one bound per field, in order; one generic parameter [I] more. *)
Theorem C50_named : forall ps l i, expand_contains ps (ONamed l) = Ok i ->
  (forall f, In f l -> fd_name f <> None) ->
  ci_params i = (ps ++ ["I"])%list /\ ci_bounds i = map fd_ty l /\
  map Some (ci_calls i) = map (fun f => option_map AccName (fd_name f)) l.
Proof. exact contains_named. Qed.
Print Assumptions C50_named.

Theorem C50_unnamed : forall ps l i, expand_contains ps (OUnnamed l) = Ok i ->
  ci_params i = (ps ++ ["I"])%list /\ ci_bounds i = map fd_ty l /\
  ci_calls i = map AccIndex (seq 0 (List.length l)).
Proof. exact contains_unnamed. Qed.
Print Assumptions C50_unnamed.

(** The generated method has a body exactly when there is a field, and returns true exactly when
    the method of some field does. *)
Theorem C50_runs : forall i field,
  (ci_calls i <> [] <-> exists b, run_contains i field = Some b) /\
  (forall b, run_contains i field = Some b -> (b = true <-> exists a, In a (ci_calls i) /\ field a = true)).
Proof. exact contains_runs. Qed.
Print Assumptions C50_runs.

(** For every operator of the crate the generated method is the [contains] of the model; the impl has a
    parameter for each operand, one for the identifier and, for contractions, one for the axes. *)
Theorem C50_operators : forall F (n : node F) ps d t, declaration n = Some (ps, d) ->
  exists i, expand_contains ps d = Ok i /\ NoDup (ci_params i) /\
    List.length (ci_params i) = List.length (ci_calls i) + match n with Contract _ _ _ => 2 | _ => 1 end /\
    (forall a, In a (ci_calls i) -> operand_at n a <> None) /\
    run_contains i (fun a => match operand_at n a with Some m => contains m t | None => false end) =
    Some (contains n t).
Proof. exact @contains_operators. Qed.
Print Assumptions C50_operators.

(** Where rustc rejects the output although the derive succeeds: no fields, or a parameter [I]. *)
Example C50_example :
  let op := op_of "N" in
  expand_contains ["N"] (OUnnamed [op; op]) =
    Ok (ContainsImpl ["N"; "I"] [fd_ty op; fd_ty op] [AccIndex 0; AccIndex 1]) /\
  expand_contains ["N"] (OUnnamed [op; Field None [] TyOther]) = Panic /\
  expand_contains ["N"] (OUnnamed [Field None [op_attr; op_attr] TyOther]) = Panic /\
  expand_contains [] OEnum = Panic /\
  (exists i, expand_contains [] (ONamed []) = Ok i /\ forall f, run_contains i f = None) /\
  (exists i, expand_contains ["I"] (OUnnamed [op_of "I"]) = Ok i /\ ~ NoDup (ci_params i)) /\
  declaration (Add (Var 0) (Const (VScal 1%Z))) = Some (["L"; "R"], OUnnamed [op_of "L"; op_of "R"]).
Proof.
  repeat (split; [reflexivity|]).
  split; [eexists; split; reflexivity|split; [|reflexivity]].
  eexists; split; [reflexivity|]; cbn; intro N; inversion N as [|x l H]; apply H; simpl; auto.
Qed.

(** * C51 What ctx! builds *)

(** Every non-empty list of keys is accepted by [ctx_type!] and the derive. *)
Theorem C51_accepts : forall keys, keys <> [] ->
  exists d fs, ctx_macro keys = Some d /\ derive_context d = Ok fs /\
    Forall2 (fun k f => cf_name f = "_" ++ lower k /\ cf_ident f = Some k /\ cf_cache f = false) keys fs.
Proof. exact ctx_macro_accepted. Qed.
Print Assumptions C51_accepts.

(** The result compiles exactly when the keys differ even in lower case. *)
Theorem C51_compiles : forall F (kvs : list (string * value F)) fs d,
  ctx_macro (map fst kvs) = Some d -> derive_context d = Ok fs ->
  (compiled fs (ctx_literal kvs) <-> NoDup (map lower (map fst kvs))).
Proof. exact @ctx_compiled. Qed.
Print Assumptions C51_compiles.

(** Then every key reads its value, and no other identifier can be read. *)
Theorem C51_reads : forall F (S : Scalar F) (kvs : list (string * value F)) fs d,
  ctx_macro (map fst kvs) = Some d -> derive_context d = Ok fs ->
  NoDup (map lower (map fst kvs)) ->
  (forall k v, In (k, v) kvs -> gen_read fs (ctx_literal kvs) k = Some v) /\
  (forall k, ~ In k (map fst kvs) -> impl_for fs k = None).
Proof. exact @ctx_reads. Qed.
Print Assumptions C51_reads.

(** Lower case is taken letter by letter. *)
Theorem C51_lower : forall s i, String.get i (lower s) = option_map (beside capitals smalls) (String.get i s).
Proof. exact lower_letters. Qed.
Print Assumptions C51_lower.

(** [ctx!{X = 1, Alpha = 2}] works, [ctx!{X = 1, x = 2}] does not compile. *)
Example C51_example :
  let kvs := [("X", VScal 1%Z); ("Alpha", VScal 2%Z)] in
  NoDup (map lower (map fst kvs)) /\
  map cf_name (match ctx_macro (map fst kvs) with
               | Some d => match derive_context d with Ok fs => fs | _ => [] end | None => [] end) = ["_x"; "_alpha"] /\
  NoDup ["X"; "x"] /\ ~ NoDup (map lower ["X"; "x"]) /\ ctx_macro [] = None.
Proof.
  split; [repeat constructor; simpl; intuition discriminate|split; [reflexivity|]].
  split; [repeat constructor; simpl; intuition discriminate|split; [|reflexivity]].
  cbn; intro N; inversion N as [|x l H]; apply H; simpl; auto.
Qed.
