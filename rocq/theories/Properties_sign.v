(** Signs of floating-point results (property C102). *)
From Coq Require Import List Arith ZArith Bool Lia SpecFloat.
Import ListNotations.
From Verif Require Import Base Shapes Scalar Buffers Spec Contraction Node Eval Types Instances Vocab Math
  Code_math Float_math Sign_math Sign_claims Programs Train_claims.

(** Negating inputs negates the results of odd expressions and keeps those of even ones, whatever is
    rounded, overflows or underflows on the way: bit for bit, up to the sign of zeros. *)
Theorem C102_signs : forall (prec emax : Z) (pow : f64 -> f64 -> f64) (lib : libfn -> f64 -> f64),
  respects_signs prec emax pow lib ->
  let S := float_scalar prec emax pow lib in
  forall (w : ident -> bool) (c d c' d' : ctx f64) (n : node f64) (p : bool) (v u : value f64),
  ctx_wf c -> ctx_wf d -> node_wf n -> written c n -> written d n ->
  mirrored_inputs w c d -> parity w c n p ->
  evaluate n c = (c', Ok v) -> evaluate n d = (d', Ok u) ->
  dims (vshape v) = dims (vshape u) /\
  forall ix, in_box (dims (vshape v)) ix -> mirrored p (vat f64_zero v ix) (vat f64_zero u ix).
Proof. exact signs. Qed.
Print Assumptions C102_signs.

(** So does training: negating the true weights and the first weights of the linear example negates the
    learned weights, and negating any of the vectors drawn changes nothing. *)
Theorem C102_training : forall (prec emax : Z), (2 <= prec < emax)%Z ->
  forall (pow : f64 -> f64 -> f64) (lib : libfn -> f64 -> f64),
  let S := float_scalar prec emax pow lib in
  forall (rate : f64) (p : bool) (tw tw' ws ws' : list f64) (draws draws' : list (list f64)),
  Forall2 (mirrored p) tw tw' -> Forall2 (mirrored p) ws ws' ->
  Forall2 (fun xs xs' => exists q, Forall2 (mirrored q) xs xs') draws draws' ->
  Forall (fun xs => length xs = length ws /\ Forall (float_valid prec emax) xs) draws ->
  exists r r', linear_run linear_auto rate tw ws draws = Ok r /\
               linear_run linear_auto rate tw' ws' draws' = Ok r' /\ Forall2 (mirrored p) r r'.
Proof. exact @training_mirrored. Qed.
Print Assumptions C102_training.

(** * Cases *)

(** A library that respects signs: exact squares, rounded; crude odd and even functions. *)
Definition square (x _ : f64) : f64 := SFmul 53 1024 x x.
Definition crude (f : libfn) (x : f64) : f64 := if even_fn f then SFabs x else x.
#[local] Instance crude_scalar : Scalar f64 := f64_scalar square crude.

Example C102_library : respects_signs 53 1024 square crude.
Proof.
  split.
  - intros p x y H two; unfold square; rewrite <- (xorb_nilpotent p); apply mul_mirrored; exact H.
  - intros f p x y O H; unfold crude; destruct f; try discriminate; exact H.
  - intros f p x y O H; unfold crude; rewrite O; apply (abs_mirrored p); exact H.
Qed.

(** 0.1 and 0.2 as read by Rust. *)
Definition tenth : f64 := S754_finite false 7205759403792794 (-56).
Definition fifth : f64 := S754_finite false 7205759403792794 (-55).
Definition pair (x y : f64) : value f64 := VArr [2] (AN [AF x; AF y]).

(** The error of the linear example: weights 0, inputs 1, target 2.  Negating weights and target negates
    it, and leaves its square. *)
Definition residual : node f64 := Sub (Contract 1 (Var 0) (Var 1)) (Var 2).
Definition before : ctx f64 := fun i => match i with
  | 0 => Some (pair tenth fifth) | 1 => Some (pair fifth fifth) | 2 => Some (VScal tenth) | _ => None end.
Definition after : ctx f64 := fun i => match i with
  | 0 => Some (pair (SFopp tenth) (SFopp fifth)) | 1 => Some (pair fifth fifth) | 2 => Some (VScal (SFopp tenth)) | _ => None end.
Definition target_and_weights (i : ident) : bool := match i with 0 | 2 => true | _ => false end.

Lemma before_after : mirrored_inputs target_and_weights before after.
Proof.
  intros [|[|[|i]]]; cbn; auto; split; try reflexivity; intros ix B; inversion B; subst;
    repeat match goal with H : Forall2 _ _ _ |- _ => inversion H; subst; clear H end;
    try (destruct x as [|[|x]]; [left; reflexivity|left; reflexivity|lia]); left; reflexivity.
Qed.

Example C102_example :
  ctx_wf before /\ ctx_wf after /\ node_wf residual /\ written before residual /\ written after residual /\
  mirrored_inputs target_and_weights before after /\
  parity target_and_weights before residual true /\ parity target_and_weights before (Un Square residual) false /\
  exists e, evaluate residual before = (before, Ok (VScal e)) /\ evaluate residual after = (after, Ok (VScal (SFopp e))) /\
    ~ a_zero e.
Proof.
  assert (K : forall x y, vwf (pair x y)) by (intros; simpl; repeat constructor).
  split; [intros [|[|[|i]]] v E; inversion E; subst; solve [apply K|simpl; repeat constructor]|].
  split; [intros [|[|[|i]]] v E; inversion E; subst; solve [apply K|simpl; repeat constructor]|].
  split; [simpl; auto|]. split; [simpl; repeat split; left; discriminate|]. split; [simpl; repeat split; left; discriminate|].
  split; [exact before_after|].
  assert (P : parity target_and_weights before residual true).
  { split; [exists true, false; repeat split|reflexivity]. }
  split; [exact P|]. split; [split; [reflexivity|exists true; exact P]|].
  eexists; split; [vm_compute; reflexivity|split; [vm_compute; reflexivity|exact (fun H => H)]].
Qed.

(** Zeros are an exception: a difference that vanishes is +0, and so is the difference of the negated
    inputs. *)
Example C102_zero_refuted :
  let n : node f64 := Sub (Var 0) (Var 0) in
  let c x : ctx f64 := fun i => match i with 0 => Some (VScal x) | _ => None end in
  evaluate n (c tenth) = (c tenth, Ok (VScal f64_zero)) /\
  evaluate n (c (SFopp tenth)) = (c (SFopp tenth), Ok (VScal f64_zero)) /\ SFopp f64_zero <> f64_zero.
Proof. repeat split; try (vm_compute; reflexivity). discriminate. Qed.

(** So divisors must not be zero: one divided by it is infinity, and not minus infinity after. *)
Example C102_divisor_refuted :
  let n : node f64 := Div (Const (VScal tenth)) (Sub (Var 0) (Var 0)) in
  let c x : ctx f64 := fun i => match i with 0 => Some (VScal x) | _ => None end in
  evaluate n (c tenth) = (c tenth, Ok (VScal (S754_infinity false))) /\
  evaluate n (c (SFopp tenth)) = (c (SFopp tenth), Ok (VScal (S754_infinity false))) /\
  ~ mirrored true (S754_infinity false) (S754_infinity false).
Proof. repeat split; try (vm_compute; reflexivity). intros [H|[H _]]; [discriminate|exact H]. Qed.

(** Two draws, the second negated: true weights 0.1 and 0.2 and their negations, starting from zeros. *)
Example C102_example_training :
  let tw := [tenth; fifth] in let tw' := [SFopp tenth; SFopp fifth] in
  let ws := [f64_zero; f64_zero] in
  let draws := [[tenth; fifth]; [fifth; fifth]] in
  let draws' := [[tenth; fifth]; [SFopp fifth; SFopp fifth]] in
  Forall2 (mirrored true) tw tw' /\ Forall2 (mirrored true) ws ws /\
  Forall2 (fun xs xs' => exists q, Forall2 (mirrored q) xs xs') draws draws' /\
  Forall (fun xs => length xs = length ws /\ Forall (float_valid 53 1024) xs) draws /\
  exists x y, linear_run linear_auto tenth tw ws draws = Ok [x; y] /\
    linear_run linear_auto tenth tw' ws draws' = Ok [SFopp x; SFopp y] /\ ~ a_zero x /\ ~ a_zero y.
Proof.
  cbv zeta. split; [repeat constructor|]. split; [repeat (constructor; [right; split; exact I|]); constructor|].
  split; [repeat constructor; [exists false|exists true]; repeat constructor|].
  split; [repeat constructor|].
  do 2 eexists; split; [vm_compute; reflexivity|split; [vm_compute; reflexivity|split; exact (fun H => H)]].
Qed.
