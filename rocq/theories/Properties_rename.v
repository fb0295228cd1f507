(** Nothing depends on what identifiers are called (property C87). *)
From Coq Require Import List Arith Bool String ZArith.
Import ListNotations.
From Verif Require Import Base Shapes Scalar Buffers Spec Contraction Node Eval Types Instances Vocab Fmt
  Rename_math Rename_claims.

(** C87: give the identifiers of an expression and of its context new names, different ones for
    different identifiers.  Each of the three evaluations gives the same result under the new names and
    leaves the same context, where what belongs to other identifiers is as before. *)
Theorem C87_evaluate : forall F (S : Scalar F) (f : ident -> ident) (n : node F) (c c' : ctx F),
  injective f -> same_under f c c' ->
  same_outcome f c' (evaluate n c) (evaluate (renamed f n) c') /\
  same_outcome f c' (evaluate_spec n c) (evaluate_spec (renamed f n) c') /\
  same_outcome f c' (evaluate_shape n c) (evaluate_shape (renamed f n) c').
Proof. intros F S f n c c' I E; exact (evaluate_renamed f I n c c' E). Qed.
Print Assumptions C87_evaluate.

(** Differentiating and renaming can be exchanged, and so the same holds for derivatives. *)
Theorem C87_adjoint : forall F (S : Scalar F) (f : ident -> ident) (n : node F) t, injective f ->
  contains (renamed f n) (f t) = contains n t /\
  adjoint (renamed f n) (f t) = option_map (renamed f) (adjoint n t) /\
  forall c c' : ctx F, same_under f c c' ->
    match evaluate_adjoint n t c, evaluate_adjoint (renamed f n) (f t) c' with
    | Some p, Some p' => same_outcome f c' p p'
    | None, None => True
    | _, _ => False
    end.
Proof.
  intros F S f n t I; split; [exact (contains_renamed f I n t)|split; [exact (adjoint_renamed f I n t)|]].
  exact (gradient_renamed f I n t).
Qed.
Print Assumptions C87_adjoint.

(** Types, texts of expressions and messages of errors change with the names only. *)
Theorem C87_types : forall F (f : ident -> ident) (G G' : tenv) (n : node F), same_under f G G' ->
  typeof G' (renamed f n) = typeof G n.
Proof. intros F f; exact (@typeof_renamed f F). Qed.
Print Assumptions C87_types.

Theorem C87_text : forall F (f : ident -> ident) (sym sym' : ident -> string) (show : F -> string) (n : node F),
  injective f -> same_under f sym sym' ->
  to_expr sym' show (renamed f n) = to_expr sym show n /\ display sym' show (renamed f n) = display sym show n /\
  forall e, err_display sym' (renamed_err f e) = err_display sym e.
Proof.
  intros F f sym sym' show n I E; destruct (text_renamed f I sym sym' show n E); split; [|split]; auto.
  intro e; exact (message_renamed f sym sym' e E).
Qed.
Print Assumptions C87_text.

(** [x y] with a cache, and a variable that is not defined. *)
Example C87_example :
  let f := fun i => i + 10 in
  let n : node Z := Mul (Cached (Mul (Var 0) (Var 1)) 2) (Var 3) in
  let c : ctx Z := fun i => match i with 0 => Some (VScal 4%Z) | 1 => Some (VScal 5%Z) | _ => None end in
  let c' : ctx Z := fun i => match i with 7 => Some (VScal 1%Z) | 10 => Some (VScal 4%Z) | 11 => Some (VScal 5%Z) | _ => None end in
  injective f /\ same_under f c c' /\
  snd (@evaluate _ Z_scalar n c) = Err (ERight (Undefined 3)) /\
  snd (@evaluate _ Z_scalar (renamed f n) c') = Err (ERight (Undefined 13)) /\
  fst (@evaluate _ Z_scalar (renamed f n) c') 12 = Some (VScal 20%Z) /\ fst (@evaluate _ Z_scalar (renamed f n) c') 7 = Some (VScal 1%Z).
Proof.
  cbv zeta; split; [intros i j E; apply Nat.add_cancel_r in E; auto|split; [|repeat split]].
  intros [|[|i]]; auto; unfold same_under; rewrite Nat.add_comm; reflexivity.
Qed.

(** Two variables must not become one: [x y] has derivative [y] by [x], but [x x] has [x + x]. *)
Example C87_injective_refuted :
  let f := fun _ : ident => 0 in
  let n : node Z := Mul (Var 0) (Var 1) in
  let c : ctx Z := fun _ => Some (VScal 5%Z) in
  same_under f c c /\
  option_map snd (@evaluate_adjoint _ Z_scalar n 0 c) = Some (Ok (VScal 5%Z)) /\
  option_map snd (@evaluate_adjoint _ Z_scalar (renamed f n) (f 0) c) = Some (Ok (VScal 10%Z)).
Proof. repeat split. Qed.
