(** The order of the entries of arrays (property C103). *)
From Coq Require Import List Arith ZArith Bool Lia Permutation Reals Lra SpecFloat.
Import ListNotations.
From Verif Require Import Base Shapes Scalar Buffers Spec Contraction Node Eval Types Instances Vocab Math Code_math
  Programs Order_math Order_claims Order_adjoint Order_runs Instance_facts.

(** Reordering the entries of the inputs along every axis of length [n] reorders the result along its
    axes of length [n], and changes nothing else, where sums do not depend on the order of their terms. *)
Theorem C103_exact : forall (F : Type) (S : Scalar F) (n : nat) (s : nat -> nat), permutes n s ->
  forall (c d c' d' : ctx F) (m : node F) (v u : value F), exact_sums ->
  ctx_wf c -> ctx_wf d -> node_wf m -> written c m -> written d m ->
  reordered_inputs n s c d -> unordered n s c m ->
  evaluate m c = (c', Ok v) -> evaluate m d = (d', Ok u) -> reordered n s v u.
Proof. exact (fun F S n s P c d c' d' m v u E => @reorders F S n s P c d c' d' m v u (or_introl E)). Qed.
Print Assumptions C103_exact.

(** In every arithmetic, floating point included, if nothing is summed. *)
Theorem C103_entrywise : forall (F : Type) (S : Scalar F) (n : nat) (s : nat -> nat), permutes n s ->
  forall (c d c' d' : ctx F) (m : node F) (v u : value F), no_sums m ->
  ctx_wf c -> ctx_wf d -> node_wf m -> written c m -> written d m ->
  reordered_inputs n s c d -> unordered n s c m ->
  evaluate m c = (c', Ok v) -> evaluate m d = (d', Ok u) -> reordered n s v u.
Proof. exact (fun F S n s P c d c' d' m v u E => @reorders F S n s P c d c' d' m v u (or_intror E)). Qed.
Print Assumptions C103_entrywise.

(** Gradients too, and evaluation of whatever is well typed: both runs succeed. *)
Theorem C103_typed : forall (F : Type) (S : Scalar F) (n : nat) (s : nat -> nat), permutes n s -> exact F ->
  forall (G : tenv) (c d : ctx F), ctx_ok G c -> ctx_ok G d -> reordered_inputs n s c d ->
  forall (m : node F) (k : sty),
  node_wf m -> novec G m -> square G m -> typeof G m = Some k -> cache_free m = true ->
  (forall i, uses m i -> c i <> None) -> regular un_fn c m -> steady n s m ->
  exists v u, evaluate m c = (c, Ok v) /\ evaluate m d = (d, Ok u) /\ reordered n s v u.
Proof. exact @typed_reorders. Qed.
Print Assumptions C103_typed.

Theorem C103_gradients : forall (F : Type) (S : Scalar F) (n : nat) (s : nat -> nat), permutes n s -> exact F ->
  forall (G : tenv) (c d : ctx F) (e m : node F) (t : ident) (k : sty),
  ctx_ok G c -> ctx_ok G d -> reordered_inputs n s c d -> adjoint e t = Some m ->
  node_wf m -> novec G m -> square G m -> typeof G m = Some k -> cache_free m = true ->
  (forall i, uses m i -> c i <> None) -> regular un_fn c m -> steady n s m ->
  exists v u, evaluate_adjoint e t c = Some (c, Ok v) /\ evaluate_adjoint e t d = Some (d, Ok u) /\ reordered n s v u.
Proof. exact gradient_reorders. Qed.
Print Assumptions C103_gradients.

(** The linear example learns the same weights in whatever order the features come. *)
Theorem C103_linear : forall (inf : R) (sp : libfn -> R -> R), let S := R_scalar inf sp in
  forall (rate : R) (p : list nat) (tw ws : list R) (draws : list (list R)),
  length tw = length ws -> Permutation p (seq 0 (length ws)) ->
  Forall (fun xs => length xs = length ws) draws ->
  exists r, linear_run linear_auto rate tw ws draws = Ok r /\
    linear_run linear_auto rate (picked 0%R p tw) (picked 0%R p ws) (map (picked 0%R p) draws) = Ok (picked 0%R p r).
Proof. exact linear_order. Qed.
Print Assumptions C103_linear.

(** So does the logistic example. *)
Theorem C103_logistic : forall (inf : R) (sp : libfn -> R -> R), let S := R_scalar inf sp in
  forall (rate : R) (p : list nat) (ws : list R) (draws : list (list R * bool)),
  Permutation p (seq 0 (length ws)) -> Forall (fun d => length (fst d) = length ws) draws ->
  exists r, logistic_run logistic_auto rate ws draws = Ok r /\
    logistic_run logistic_auto rate (picked 0%R p ws) (map (fun d => (picked 0%R p (fst d), snd d)) draws) =
    Ok (picked 0%R p r).
Proof. exact logistic_order. Qed.
Print Assumptions C103_logistic.

(** * Cases *)

(** Backwards. *)
Definition swap (i : nat) : nat := 1 - i.
Lemma swap_permutes : permutes 2 swap.
Proof. split; unfold swap; intros; lia. Qed.

Definition two {F} (x y : F) : value F := VArr [2] (AN [AF x; AF y]).
Definition matrix {F} (x y z t : F) : value F := VArr [2; 2] (AN [AN [AF x; AF y]; AN [AF z; AF t]]).
Definition stores {F} (a b : value F) : ctx F := fun i => match i with 0 => Some a | 1 => Some b | _ => None end.

Lemma two_reordered {F} {S : Scalar F} (x y : F) : reordered 2 swap (two x y) (two y x).
Proof.
  split; [reflexivity|]; intros ix B; inversion B as [|i ? ? ? H B']; subst; inversion B'; subst.
  destruct i as [|[|i]]; [reflexivity|reflexivity|cbn in H; lia].
Qed.
Lemma square_reordered {F} {S : Scalar F} (x y z t : F) : reordered 2 swap (matrix x y z t) (matrix t z y x).
Proof.
  split; [reflexivity|]; intros ix B; inversion B as [|i ? ? ? H B']; subst; inversion B' as [|j ? ? ? H' B2]; subst.
  inversion B2; subst.
  destruct i as [|[|i]], j as [|[|j]]; cbn in H, H'; try reflexivity; lia.
Qed.

Section Real.
Variables (inf : R) (sp : libfn -> R -> R).
#[local] Instance R_case : Scalar R := R_scalar inf sp.

(** A square matrix times a vector. *)
Example C103_example : forall x y z t a b : R,
  let c := stores (matrix x y z t) (two a b) in let d := stores (matrix t z y x) (two b a) in
  let m := Contract 1 (Var 0) (Var 1) in
  @exact_sums R _ /\ permutes 2 swap /\ ctx_wf c /\ ctx_wf d /\ node_wf m /\ written c m /\ written d m /\
  reordered_inputs 2 swap c d /\ unordered 2 swap c m /\
  exists v u, evaluate m c = (c, Ok v) /\ evaluate m d = (d, Ok u) /\
    v = two (0 + x * a + y * b)%R (0 + z * a + t * b)%R.
Proof.
  intros; split; [split; intros; cbn; ring|]. split; [exact swap_permutes|].
  split; [intros [|[|i]] w E; inversion E; subst; simpl; repeat constructor|].
  split; [intros [|[|i]] w E; inversion E; subst; simpl; repeat constructor|].
  split; [simpl; auto|]. split; [simpl; repeat split; left; discriminate|]. split; [simpl; repeat split; left; discriminate|].
  split; [intros [|[|i]]; cbn [c d stores]; auto using two_reordered, square_reordered|].
  split; [simpl; auto|]. do 2 eexists; split; [reflexivity|split; [reflexivity|reflexivity]].
Qed.

(** The gradient of the squared prediction by the weights. *)
Example C103_example_gradients : forall x y a b : R,
  let G : tenv := fun i => match i with 0 | 1 => Some (KA [2]) | _ => None end in
  let c := stores (two x y) (two a b) in let d := stores (two y x) (two b a) in
  let p := Contract 1 (Var 0) (Var 1) in
  exact R /\ ctx_ok G c /\ ctx_ok G d /\ reordered_inputs 2 swap c d /\
  exists m, adjoint (Mul p p) 1 = Some m /\ node_wf m /\ novec G m /\ square G m /\ typeof G m = Some (KA [2]) /\
    cache_free m = true /\ (forall i, uses m i -> c i <> None) /\ regular un_fn c m /\ steady 2 swap m.
Proof.
  intros; split; [apply R_exact|].
  split; [intros [|[|i]] w E; inversion E; subst; split; simpl; repeat constructor|].
  split; [intros [|[|i]] w E; inversion E; subst; split; simpl; repeat constructor|].
  split; [intros [|[|i]]; cbn [c d stores]; auto using two_reordered|].
  eexists; split; [reflexivity|].
  split; [simpl; auto 20|]. split; [simpl; repeat split; discriminate|].
  split; [simpl; repeat split; intros kl kr A B; try (injection A as <-); try (injection B as <-); simpl; auto|].
  split; [reflexivity|]. split; [reflexivity|].
  split; [intros i U; simpl in U; repeat (destruct U as [U|U]); try contradiction; subst; discriminate|].
  split; simpl; repeat split; auto.
Qed.

(** Matrices that are not square are an exception: of two rows only the first is read. *)
Example C103_rectangular_refuted :
  let tall (x y : R) : value R := VArr [2; 1] (AN [AN [AF x]; AN [AF y]]) in
  let c := stores (tall 1%R 0%R) (two 1%R 0%R) in let d := stores (tall 0%R 1%R) (two 0%R 1%R) in
  let m := Contract 1 (Var 0) (Var 1) in
  reordered_inputs 2 swap c d /\
  exists v u, evaluate m c = (c, Ok v) /\ evaluate m d = (d, Ok u) /\ ~ reordered 2 swap v u.
Proof.
  cbv zeta; split.
  - intros [|[|i]]; cbn [stores]; auto using two_reordered.
    split; [reflexivity|]; intros ix B; inversion B as [|i ? ? ? H B']; subst; inversion B' as [|j ? ? ? H' B2]; subst.
    inversion B2; subst; destruct i as [|[|i]], j as [|j]; cbn in H, H'; try reflexivity; lia.
  - do 2 eexists; split; [reflexivity|split; [reflexivity|]]; intros [_ E].
    specialize (E [0] ltac:(repeat constructor)); cbn in E; lra.
Qed.
End Real.

(** Three features, the last two exchanged. *)
Example C103_example_features :
  Permutation [0; 2; 1] (seq 0 3) /\ picked 0%R [0; 2; 1] [5; 6; 7]%R = [5; 7; 6]%R.
Proof. split; [repeat constructor|reflexivity]. Qed.

(** Entry by entry in floating point. *)
Section Float.
Variables (pow : f64 -> f64 -> f64) (lib : libfn -> f64 -> f64).
#[local] Instance F_case : Scalar f64 := f64_scalar pow lib.

Example C103_example_entrywise : forall x y a b : f64,
  let c := stores (two x y) (two a b) in let d := stores (two y x) (two b a) in
  let m := Contract 0 (Div (Var 0) (Var 1)) (Var 1) in
  no_sums m /\ written c m /\ written d m /\ reordered_inputs 2 swap c d /\ unordered 2 swap c m /\
  exists v u, evaluate m c = (c, Ok v) /\ evaluate m d = (d, Ok u) /\
    dims (vshape v) = [2; 2].
Proof.
  intros; split; [simpl; auto|]. split; [simpl; repeat split; left; discriminate|]. split; [simpl; repeat split; left; discriminate|].
  split; [intros [|[|i]]; cbn [c d stores]; auto using two_reordered|].
  split; [simpl; auto|]. do 2 eexists; split; [reflexivity|split; [reflexivity|reflexivity]].
Qed.

(** Sums of floats depend on the order. *)
Definition big : f64 := S754_finite false 4503599627370496 2.
Example C103_floats_refuted :
  let s (i : nat) := match i with 0 => 2 | 1 => 1 | _ => 0 end in
  let three (x y z : f64) : value f64 := VArr [3] (AN [AF x; AF y; AF z]) in
  let one := f64_of_Z 1 in
  let c := stores (three one big (SFopp big)) (VScal one) in let d := stores (three (SFopp big) big one) (VScal one) in
  permutes 3 s /\ reordered_inputs 3 s c d /\
  evaluate (Sum (Var 0)) c = (c, Ok (VScal f64_zero)) /\ evaluate (Sum (Var 0)) d = (d, Ok (VScal one)) /\
  ~ reordered 3 s (VScal f64_zero) (VScal one).
Proof.
  cbv zeta; split; [split; [intros [|[|[|i]]]; lia|intros [|[|[|i]]] [|[|[|j]]]; lia]|].
  split.
  - intros [|[|i]]; cbn [stores]; auto; (split; [reflexivity|]); intros ix B.
    + inversion B as [|i ? ? ? H B']; subst; inversion B'; subst.
      destruct i as [|[|[|i]]]; cbn in H; try reflexivity; lia.
    + inversion B; subst; reflexivity.
  - split; [reflexivity|split; [reflexivity|]]; intros [_ E]; specialize (E [] (Forall2_nil _)); discriminate E.
Qed.
End Float.
