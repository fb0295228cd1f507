(** Which expressions are printed alike (property C88). *)
From Coq Require Import List Arith Bool String Ascii ZArith.
Import ListNotations.
From Verif Require Import Base Shapes Scalar Buffers Spec Contraction Node Eval Fmt Fmt_math Alike_math Alike_claims.
Local Open Scope string_scope.

(** C88: two expressions over variables have the same text exactly when the eight rules of [printed_as]
    turn one into the other (C30 says that this happens; here is when). *)
Theorem C88_text : forall F sym (show : F -> string) (n m : node F),
  (forall i j, sym i = sym j -> i = j) -> (forall i, is_name (sym i) = true) ->
  over_variables n = true -> over_variables m = true ->
  (option_map expr_display (to_expr sym show n) = option_map expr_display (to_expr sym show m) <-> alike n m).
Proof. exact @same_text. Qed.
Print Assumptions C88_text.

(** The same for [Display], with sums and double contractions on the outside. *)
Theorem C88_display : forall F sym (show : F -> string) (n m : node F),
  (forall i j, sym i = sym j -> i = j) -> (forall i, is_name (sym i) = true) ->
  sums_over_variables n = true -> sums_over_variables m = true ->
  (exists s, display sym show n = Some s) /\ (display sym show n = display sym show m <-> alike n m).
Proof. exact @same_display. Qed.
Print Assumptions C88_display.

(** [((e^x)^y)^(z + 1)] and [e^(x^(y^(1 - z)))] are printed alike; [x - y] and [y - x] are not. *)
Example C88_example :
  let xs := fix xs (i : nat) : string := match i with 0 => "x" | S i => String "x"%char (xs i) end in
  let n : node Z := Sum (Power (Power (Un Exp (Var 0)) (Var 1)) (Un AddOne (Var 2))) in
  let m : node Z := Sum (Un Exp (Power (Var 0) (Power (Var 1) (Un OneSub (Var 2))))) in
  (forall i j, xs i = xs j -> i = j) /\ (forall i, is_name (xs i) = true) /\
  sums_over_variables n = true /\ sums_over_variables m = true /\ alike n m /\
  display xs (fun _ => "") n = Some "Σ_i (𝑒^x^xx^(1 - xxx))_i" /\
  ~ alike (Sub (Var 0) (Var 1) : node Z) (Sub (Var 1) (Var 0)).
Proof.
  intros xs n m.
  assert (I : forall i j, xs i = xs j -> i = j).
  { induction i as [|i IH]; intros [|j] E; auto.
    - destruct j; discriminate.
    - destruct i; discriminate.
    - injection E as E; f_equal; auto. }
  assert (N : forall i, is_name (xs i) = true).
  { assert (A : forall i, all_name (xs i) = true) by (induction i; auto).
    intros [|i]; auto; apply A. }
  split; [exact I|split; [exact N|split; [reflexivity|split; [reflexivity|split; [|split; [reflexivity|]]]]]].
  - apply al_sum; eapply al_trans; [apply al_power; [apply al_as, as_exp|apply al_as, as_add_one]|].
    eapply al_trans; [apply al_as, as_exp|apply al_un, al_as, as_power].
  - intro A; apply (C88_text Z xs (fun _ => "") _ _ I N) in A; try reflexivity; discriminate A.
Qed.
