(** Expressions over any scalar type. *)
From Coq Require Import List Arith Bool ZArith Reals SpecFloat Lia.
Import ListNotations.
From Verif Require Import Base Shapes Scalar Buffers Spec Node Eval Dual Instances Machine Float_math Float_facts
  Generic_math Generic_claims.

(** C81. *)
Theorem C81_generic {A B} {SA : Scalar A} {SB : Scalar B} (P : A -> B -> Prop) (n : node A) (m : node B) c d :
  all_respected P -> node_rel P any n m -> ctx_rel P c d ->
  run_rel P (value_rel P) (evaluate n c) (evaluate m d) /\
  run_rel P (spec_rel P) (evaluate_spec n c) (evaluate_spec m d) /\
  run_rel P eq (evaluate_shape n c) (evaluate_shape m d).
Proof. exact (generic P n m c d). Qed.
Print Assumptions C81_generic.

Theorem C81_derivatives {A B} {SA : Scalar A} {SB : Scalar B} (P : A -> B -> Prop) (n : node A) (m : node B) t c d :
  all_respected P -> node_rel P any n m -> ctx_rel P c d ->
  opt_rel (run_rel P (value_rel P)) (evaluate_adjoint n t c) (evaluate_adjoint m t d) /\
  opt_rel (run_rel P (pair_rel P)) (evaluate_dual n t c) (evaluate_dual m t d).
Proof. exact (derivatives P n m t c d). Qed.
Print Assumptions C81_derivatives.

Theorem C81_fragment {A B} {SA : Scalar A} {SB : Scalar B} (P : A -> B -> Prop) may (n : node A) (m : node B) c d :
  respected P may -> node_rel P may n m -> ctx_rel P c d ->
  run_rel P (value_rel P) (evaluate n c) (evaluate m d) /\
  run_rel P (spec_rel P) (evaluate_spec n c) (evaluate_spec m d) /\
  run_rel P eq (evaluate_shape n c) (evaluate_shape m d).
Proof. exact (fragment P may n m c d). Qed.
Print Assumptions C81_fragment.

Theorem C81_closed {A} {S : Scalar A} (Q : A -> Prop) (n : node A) c c' v :
  closed Q -> constants_in Q n -> context_in Q c ->
  evaluate n c = (c', Ok v) -> scalars_in Q v /\ context_in Q c'.
Proof. exact (closed_results Q n c c' v). Qed.
Print Assumptions C81_closed.

(** Numbers of a floating-point format stay in it. *)
Theorem C81_floats {prec emax : Z} {Fm : Format prec emax} pow lib (n : node f64) c c' v :
  (forall x y, float_valid prec emax x -> float_valid prec emax y -> float_valid prec emax (pow x y)) ->
  (forall f x, float_valid prec emax x -> float_valid prec emax (lib f x)) ->
  constants_in (float_valid prec emax) n -> context_in (float_valid prec emax) c ->
  @evaluate f64 (float_scalar prec emax pow lib) n c = (c', Ok v) ->
  scalars_in (float_valid prec emax) v /\ context_in (float_valid prec emax) c'.
Proof. intros Hp Hl; apply (@closed_results f64 (float_scalar prec emax pow lib)), (valid_closed pow lib Hp Hl). Qed.
Print Assumptions C81_floats.

(** Integer expressions mean the same over the integers as over the reals. *)
Theorem C81_integers inf sp (n : node Z) (m : node R) c d :
  node_rel (fun z r => r = IZR z) integral n m -> ctx_rel (fun z r => r = IZR z) c d ->
  run_rel (fun z r => r = IZR z) (value_rel (fun z r => r = IZR z))
    (@evaluate Z Z_scalar n c) (@evaluate R (R_scalar inf sp) m d).
Proof. intros H C; exact (proj1 (@fragment Z R Z_scalar (R_scalar inf sp) _ integral n m c d (integers_respected inf sp) H C)). Qed.
Print Assumptions C81_integers.

(** Witnesses. *)
(** A scalar type of a user: integers that count the operations performed on them.  Related to plain
    integers by dropping the count. *)
Definition counted : Scalar (Z * nat) := {|
  fzero := (0%Z, 0); fone := (1%Z, 0); finf := (0%Z, 0);
  fadd := fun x y => ((fst x + fst y)%Z, S (snd x + snd y)); fsub := fun x y => ((fst x - fst y)%Z, S (snd x + snd y));
  fmul := fun x y => ((fst x * fst y)%Z, S (snd x + snd y)); fdiv := fun x y => (Z.quot (fst x) (fst y), S (snd x + snd y));
  fpow := fun x y => (Z_pow (fst x) (fst y), S (snd x + snd y));
  fneg := fun x => ((- fst x)%Z, S (snd x)); fabs := fun x => (Z.abs (fst x), S (snd x)); fsignum := fun x => (Z.sgn (fst x), S (snd x));
  flib := fun _ x => x;
  feq := fun x y => (fst x =? fst y)%Z; fle := fun x y => (fst x <=? fst y)%Z;
  fof_usize := fun n => Some (Z.of_nat n, 0)
|}.
Definition value_of (x : Z * nat) (z : Z) : Prop := fst x = z.

Lemma counted_respected : @all_respected (Z * nat) Z counted Z_scalar value_of.
Proof. split; unfold value_of; simpl; intros; subst; auto. Qed.

(** x . x + k with a vector of two entries. *)
Definition dot_plus (k : Z) : node Z := Add (Contract 1 (Var 0) (Var 0)) (Const (VScal k)).
Definition xs (a b : Z) : ctx Z := fun i => match i with O => Some (VArr [2] (AN [AF a; AF b])) | _ => None end.

Example C81_integers_case : forall inf sp,
  node_rel (fun z r => r = IZR z) integral (dot_plus 5) (Add (Contract 1 (Var 0) (Var 0)) (Const (VScal 5%R))) /\
  ctx_rel (fun z r => r = IZR z) (xs 3 4) (fun i => match i with O => Some (VArr [2] (AN [AF 3%R; AF 4%R])) | _ => None end) /\
  snd (@evaluate Z Z_scalar (dot_plus 5) (xs 3 4)) = Ok (VScal 30%Z) /\
  snd (@evaluate R (R_scalar inf sp) (Add (Contract 1 (Var 0) (Var 0)) (Const (VScal 5%R)))
        (fun i => match i with O => Some (VArr [2] (AN [AF 3%R; AF 4%R])) | _ => None end)) = Ok (VScal 30%R).
Proof.
  intros inf sp.
  assert (N : node_rel (fun z r => r = IZR z) integral (dot_plus 5) (Add (Contract 1 (Var 0) (Var 0)) (Const (VScal 5%R))))
    by (repeat constructor).
  assert (C : ctx_rel (fun z r => r = IZR z) (xs 3 4)
    (fun i => match i with O => Some (VArr [2] (AN [AF 3%R; AF 4%R])) | _ => None end)).
  { intros [|i]; simpl; auto; repeat constructor. }
  split; [exact N|split; [exact C|split; [reflexivity|]]].
  destruct (C81_integers inf sp _ _ _ _ N C) as [_ H].
  change (snd (@evaluate Z Z_scalar (dot_plus 5) (xs 3 4))) with (@Ok err _ (VScal 30%Z)) in H.
  destruct (snd (@evaluate R _ _ _)); simpl in H; try contradiction; inversion H; subst; reflexivity.
Qed.

Definition counted_node : node (Z * nat) := Add (Contract 1 (Var 0) (Var 0)) (Const (VScal (5%Z, 0))).
Definition counted_xs : ctx (Z * nat) := fun i => match i with O => Some (VArr [2] (AN [AF (3%Z, 0); AF (4%Z, 0)])) | _ => None end.

Example C81_generic_case :
  @all_respected (Z * nat) Z counted Z_scalar value_of /\ node_rel value_of any counted_node (dot_plus 5) /\
  ctx_rel value_of counted_xs (xs 3 4) /\
  snd (@evaluate _ counted counted_node counted_xs) = Ok (VScal (30%Z, 5)) /\
  snd (@evaluate _ Z_scalar (dot_plus 5) (xs 3 4)) = Ok (VScal 30%Z).
Proof.
  split; [exact counted_respected|split; [repeat constructor|split; [|split; reflexivity]]].
  intros [|i]; simpl; auto; repeat constructor.
Qed.

(** The derivative, of x * x at 3. *)
Example C81_derivatives_case :
  @evaluate_adjoint _ counted (Mul (Var 0) (Var 0)) 0 (fun _ => Some (VScal (3%Z, 0))) =
    Some (fun _ => Some (VScal (3%Z, 0)), Ok (VScal (6%Z, 3))) /\
  @evaluate_adjoint _ Z_scalar (Mul (Var 0) (Var 0)) 0 (fun _ => Some (VScal 3%Z)) =
    Some (fun _ => Some (VScal 3%Z), Ok (VScal 6%Z)).
Proof. split; reflexivity. Qed.

(** The tests have to agree: congruence modulo nine is respected by sums and products, but not by the
    test for zero. *)
Example C81_equality_needed : ~ @respected Z Z Z_scalar Z_scalar (fun x y => (x mod 9 = y mod 9)%Z) integral.
Proof.
  intros [_ _ _ _ _ E _ _ _ _]; specialize (E 9 0 0 0 eq_refl eq_refl)%Z; discriminate E.
Qed.

(** f64: 1 + 2 with constants of the format. *)
Example C81_floats_case : forall pow lib,
  constants_in f64_valid (Add (Const (VScal (f64_of_Z 1))) (Var 0)) /\
  context_in f64_valid (fun _ => Some (VScal (f64_of_Z 2))) /\
  @evaluate f64 (f64_scalar pow lib) (Add (Const (VScal (f64_of_Z 1))) (Var 0)) (fun _ => Some (VScal (f64_of_Z 2))) =
    (fun _ => Some (VScal (f64_of_Z 2)), Ok (VScal (f64_of_Z 3))).
Proof.
  intros pow lib; split; [repeat constructor|split; [|reflexivity]].
  intros i v [= <-]; repeat constructor.
Qed.
