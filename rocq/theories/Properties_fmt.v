(** Rendering and error messages: C29, C30, C37, C67. *)
From Coq Require Import List Arith ZArith Reals Bool String Ascii SpecFloat Lra.
Import ListNotations.
From Verif Require Import Base Shapes Scalar Buffers Spec Contraction Node Eval Types Instances
  Vocab Math Real_math Calculus Math_claims Fmt Fmt_math Fmt_claims Fmt_arrays Fmt_inj
  Text_math Read_facts Read_claims.
Local Open Scope string_scope.

(** C29 Zero/One in rendering is sound, over the reals (where [x / 0] has some value).  Full
    statement: all scalar trees.  Missing: trees with [Erf] of an operand rendered as [Zero] or
    [One] or [DiGamma] of one rendered as [One], and trees with a zero base under a non-positive
    exponent; there the rendering is wrong (C29_refuted). *)
Theorem C29_sound_partial : forall inf sp sym show (c c' : ctx R) (n : node R) v,
  let S := R_scalar inf sp in
  sp Lgamma 1%R = 1%R -> sp Lloggamma 1%R = 0%R ->
  node_wf n -> ctx_wf c -> cache_free n = true -> scalar_ctx c -> scalar_tree n ->
  regular (real_un inf sp) c n -> no_wrong_constant sym show n ->
  evaluate n c = (c', Ok v) ->
  (to_expr sym show n = Some XZero -> v = VScal 0%R) /\
  (to_expr sym show n = Some XOne -> v = VScal 1%R).
Proof. exact zero_one_sound. Qed.
Print Assumptions C29_sound_partial.

(** The adjoint [d/dx (x - x0)] is rendered as [One]. *)
Example C29_example : forall inf sym show,
  let S := R_scalar inf sp0 in
  let n := Sub (VarAdj 0 0) (Mul (VarAdj 0 1) (Un Sin (Var 1))) in
  let c := ctx2 (VScal 5%R) (VScal 2%R) in
  sp0 Lgamma 1%R = 1%R /\ sp0 Lloggamma 1%R = 0%R /\ node_wf n /\ ctx_wf c /\ cache_free n = true /\
  scalar_ctx c /\ scalar_tree n /\ regular (real_un inf sp0) c n /\ no_wrong_constant sym show n /\
  (exists c' v, evaluate n c = (c', Ok v)) /\ to_expr sym show n = Some XOne.
Proof.
  intros inf sym show S n c.
  split; [reflexivity|]; split; [reflexivity|]; split; [cbn; tauto|].
  split; [apply ctx2_wf; exact I|]; split; [reflexivity|].
  split; [intros [|[|i]] v H; try discriminate H; injection H as <-; reflexivity|].
  split; [cbn; tauto|].
  assert (Rg : regular (real_un inf sp0) c n).
  { cbn [regular]; repeat split; try exact I; intros _; cbn; auto. }
  split; [exact Rg|]; split; [cbn; tauto|]; split; [|reflexivity].
  destruct (value_real_total inf sp0 (fun i => match i with 0 | 1 => Some KS | _ => None end) n KS c)
    as (v & E & _); try reflexivity; try exact Rg; try solve [cbn; tauto].
  - cbn; repeat split; discriminate.
  - intros [|[|i]] v H; try discriminate H; injection H as <-; split; reflexivity || exact I.
  - intros [|[|i]] U; try discriminate; cbn in U; intuition discriminate.
  - exists c, v; exact E.
Qed.

(** Where it is wrong: the error function at zero and digamma at one are shown as one, [0^0] is
    shown as zero but evaluates to one (here over the integers), and [0/0] is shown as zero but is
    NaN in f64. *)
Theorem C29_refuted : forall (inf : R) (sym : ident -> string),
  (exists c : ctx R, let S := R_scalar inf sp0 in
     to_expr sym (fun _ => "") (Un Erf (VarAdj 0 1) : node R) = Some XOne /\
     evaluate (Un Erf (VarAdj 0 1)) c = (c, Ok (VScal 0%R)) /\
     to_expr sym (fun _ => "") (Un DiGamma (VarAdj 0 0) : node R) = Some XOne /\
     evaluate (Un DiGamma (VarAdj 0 0)) c = (c, Ok (VScal (- (1 / 2))%R))) /\
  (exists c : ctx Z, let S := Z_scalar in let n := Power (VarAdj 0 1) (VarAdj 0 1) in
     to_expr sym (fun _ => "") n = Some XZero /\ evaluate n c = (c, Ok (VScal 1%Z))) /\
  (exists c : ctx f64, let S := f64_scalar (fun x _ => x) (fun _ x => x) in
     let n := Div (VarAdj 0 1) (VarAdj 0 1) in
     to_expr sym (fun _ => "") n = Some XZero /\ evaluate n c = (c, Ok (VScal S754_nan))).
Proof. exact wrong_constants. Qed.
Print Assumptions C29_refuted.

(** Expressions with array values: [Zero] stands for zeros only, and [One] with a scalar value for one.
    Missing, besides the above: operands rendered as [One] that are not scalars (such as the identity
    matrix) under operators that make a zero or a scalar one of them; there the rendering is wrong
    (C29_arrays_refuted). *)
Theorem C29_arrays_partial : forall inf sp sym show G (c : ctx R) (n : node R) k,
  let S := R_scalar inf sp in
  sp Lgamma 1%R = 1%R -> sp Lloggamma 1%R = 0%R ->
  node_wf n -> novec G n -> square G n -> typeof G n = Some k -> cache_free n = true ->
  ctx_ok G c -> (forall i, uses n i -> c i <> None) -> regular (real_un inf sp) c n ->
  no_wrong_constant sym show n -> ones_scalar sym show (dims_at inf sp c) n ->
  exists v, evaluate n c = (c, Ok v) /\
    (to_expr sym show n = Some XZero -> forall ix, in_box (dims (vshape v)) ix -> vat 0%R v ix = 0%R) /\
    (to_expr sym show n = Some XOne -> dims (vshape v) = [] -> vat 0%R v [] = 1%R).
Proof. intros; eapply arrays_sound; eauto. Qed.
Print Assumptions C29_arrays_partial.

(** Vectors [x0], [x1]: [(dx0/dx1) (dx1/dx1) - 3 dx0/dx1] is a matrix of zeros. *)
Example C29_arrays_example : forall inf sym show,
  let S := R_scalar inf sp0 in
  let n := Sub (Contract 1 (VarAdj 0 1) (VarAdj 1 1)) (Mul (Const (VScal 3%R)) (VarAdj 0 1)) in
  let c := ctx2 (VArr [2] (AN [AF 1%R; AF 2%R])) (VArr [2] (AN [AF 3%R; AF 4%R])) in
  let G := fun i => match i with 0 | 1 => Some (KA [2]) | _ => None end in
  node_wf n /\ novec G n /\ square G n /\ typeof G n = Some (KA [2; 2]) /\ cache_free n = true /\
  ctx_ok G c /\ (forall i, uses n i -> c i <> None) /\ regular (real_un inf sp0) c n /\
  no_wrong_constant sym show n /\ ones_scalar sym show (dims_at inf sp0 c) n /\
  to_expr sym show n = Some XZero.
Proof.
  intros inf sym show S n c G.
  split; [cbn; tauto|]; split; [cbn; repeat split; discriminate|].
  split; [cbn; split; [split; [exact I|split; [exact I|]]|tauto]; intros kl kr H1 H2; injection H1 as <-; injection H2 as <-; exact I|]; split; [reflexivity|]; split; [reflexivity|].
  split; [intros [|[|i]] v H; try discriminate H; injection H as <-; split; try reflexivity; cbn; repeat constructor|].
  split; [intros [|[|i]] U; try discriminate; cbn in U; intuition discriminate|].
  split; [cbn; repeat split; intro H; discriminate H|].
  split; [cbn; tauto|]; split; [cbn; intuition discriminate|reflexivity].
Qed.

(** With a vector [x0] and a scalar [x1]: [1 - dx0/dx0] and [dx0/dx0 - 1 ⊗ 1] are rendered as [Zero],
    and the sum of two ones as [One]. *)
Theorem C29_arrays_refuted : forall sym : ident -> string,
  let S := Z_scalar in let te := to_expr sym (fun _ : Z => "") in
  let c := ctx2 (vec2 3 4) (VScal 5%Z) in
  let ones := Un OneSub (VarAdj 1 0) : node Z in
  (te (Un OneSub (VarAdj 0 0)) = Some XZero /\
   evaluate (Un OneSub (VarAdj 0 0)) c = (c, Ok (mat22 0 1 1 0))) /\
  (te (Sub (VarAdj 0 0) (Contract 0 ones ones)) = Some XZero /\
   evaluate (Sub (VarAdj 0 0) (Contract 0 ones ones)) c = (c, Ok (mat22 0 (-1) (-1) 0))) /\
  (te (Contract 1 ones ones) = Some XOne /\ evaluate (Contract 1 ones ones) c = (c, Ok (VScal 2%Z))).
Proof. exact wrong_arrays. Qed.
Print Assumptions C29_arrays_refuted.

(** C30 Rendering is unambiguous, for both [to_expr] and [Display].  Full statement: all trees over
    variables.  Missing: trees with operators whose text is that of another operator, and powers
    with a power, negation, doubling or exponential as base (see [clear]); there it is false
    (C30_refuted). *)
Theorem C30_injective_partial : forall F sym (show : F -> string) (n m : node F),
  (forall i j, sym i = sym j -> i = j) -> (forall i, is_name (sym i) = true) ->
  clear n = true -> clear m = true ->
  (exists s, display sym show n = Some s) /\
  (option_map expr_display (to_expr sym show n) = option_map expr_display (to_expr sym show m) -> n = m) /\
  (display sym show n = display sym show m -> n = m).
Proof. exact @text_injective. Qed.
Print Assumptions C30_injective_partial.

(** Names [x], [xx], ...; a tree with every kind of bracket. *)
Fixpoint xs (i : nat) : string := match i with 0 => "x" | S i => String "x"%char (xs i) end.
Example C30_example :
  let n := Contract 2 (Un Square (Sub (Contract 1 (Var 0) (Var 1)) (Un Negate (Var 2))))
                      (Power (Un Sin (Var 0)) (Power (Un Abs (Var 1)) (Un Double (Var 2)))) : node Z in
  (forall i j, xs i = xs j -> i = j) /\ (forall i, is_name (xs i) = true) /\ clear n = true /\
  display xs (fun _ => "") n = Some "(((⟨x, xx⟩ - -xxx))^2) : (sin(x)^|xx|^2 ∘ xxx)".
Proof.
  intro n; split; [|split; [|split; reflexivity]].
  - induction i as [|i IH]; intros [|j] E; auto.
    + destruct j; discriminate.
    + destruct i; discriminate.
    + injection E as E; f_equal; auto.
  - assert (A : forall i, all_name (xs i) = true) by (induction i; auto).
    intros [|i]; auto; apply A.
Qed.

(** With sums and double contractions on the outside, where [Display] has a text and [to_expr] has
    not. *)
Theorem C30_sums_partial : forall F sym (show : F -> string) (n m : node F),
  (forall i j, sym i = sym j -> i = j) -> (forall i, is_name (sym i) = true) ->
  shown n = true -> shown m = true ->
  (exists s, display sym show n = Some s) /\ (display sym show n = display sym show m -> n = m).
Proof. exact @sums_injective. Qed.
Print Assumptions C30_sums_partial.

(** A double contraction of sums. *)
Example C30_sums_example :
  let n := Contract 2 (Sum (Sum (Mul (Var 0) (Un Sin (Var 1))))) (Sum (Var 1)) : node Z in
  (forall i j, xs i = xs j -> i = j) /\ (forall i, is_name (xs i) = true) /\ shown n = true /\
  clear n = false /\ to_expr xs (fun _ => "") n = None /\
  display xs (fun _ => "") n = Some "(Σ_i (Σ_i (x ∘ sin(xx))_i)_i) : (Σ_i (xx)_i)".
Proof.
  intro n; destruct C30_example as (A & B & _).
  split; [exact A|split; [exact B|repeat split; reflexivity]].
Qed.

(** Same text, different values: [x + 1] and [1 - x]; [(x^y)^z] and [x^(y^z)]; [(-x)^y] and
    [-(x^y)]; [(2x)^y] and [2(x^y)]. *)
Theorem C30_refuted : forall (sym : ident -> string) (show : Z -> string),
  let S := Z_scalar in
  let same (n m : node Z) :=
    display sym show n <> None /\ display sym show n = display sym show m /\
    exists c v w, snd (evaluate n c) = Ok v /\ snd (evaluate m c) = Ok w /\ v <> w in
  same (Un AddOne (Var 0)) (Un OneSub (Var 0)) /\
  same (Power (Power (Var 0) (Var 1)) (Var 2)) (Power (Var 0) (Power (Var 1) (Var 2))) /\
  same (Power (Un Negate (Var 0)) (Var 1)) (Un Negate (Power (Var 0) (Var 1))) /\
  same (Power (Un Double (Var 0)) (Var 1)) (Un Double (Power (Var 0) (Var 1))).
Proof. exact text_ambiguous. Qed.
Print Assumptions C30_refuted.

(** C37 An error nested under any [Left]/[Right] wrappers shows the message of the innermost one. *)
Theorem C37_nested : forall dbg path e, err_display dbg (nested path e) = err_display dbg e.
Proof. exact message_nested. Qed.
Print Assumptions C37_nested.

(** Each layer of an evaluation error is displayed by the impl of [BinaryError]; and the impls of
    [UnaryError] and [BinaryError], at any types, show what is inside. *)
Theorem C37_layers : forall dbg e,
  err_display dbg e =
  match err_layer e with
  | inl i => source_display dbg i
  | inr b => binary_display (err_display dbg) (err_display dbg) incompat_display b
  end.
Proof. exact err_display_layer. Qed.
Print Assumptions C37_layers.

Theorem C37_types : forall L R O (dl : L -> string) (dr : R -> string) (d_o : O -> string) l r o,
  binary_display dl dr d_o (BLeft l) = dl l /\ binary_display dl dr d_o (BRight r) = dr r /\
  binary_display dl dr d_o (BOutput o) = d_o o /\
  unary_display dl d_o (UInner l) = dl l /\ unary_display dl d_o (UOutput o) = d_o o.
Proof. intros; repeat split. Qed.
Print Assumptions C37_types.

(** The message is that of the root cause. *)
Theorem C37_root : forall dbg e,
  err_display dbg e = match root_cause e with
                      | inl i => "No variable found with identifier " ++ dbg i ++ "."
                      | inr x => "Buffer shapes are incompatible: " ++ shape_display (inc_left x) ++
                                 " vs " ++ shape_display (inc_right x) ++ "."
                      end.
Proof. exact message_root. Qed.
Print Assumptions C37_root.

(** How shapes are written. *)
Theorem C37_shapes : forall ds,
  shape_display (St ds) = (match ds with [] => "S0" | _ => String.concat " × " (map show_nat ds) end) /\
  shape_display (Dy ds) = "SDynamic([" ++ String.concat ", " (map show_nat ds) ++ "])".
Proof. exact shape_texts. Qed.
Print Assumptions C37_shapes.

(** The message determines the root cause. *)
Theorem C37_cause : forall dbg e e', (forall i j, dbg i = dbg j -> i = j) ->
  err_display dbg e = err_display dbg e' -> root_cause e = root_cause e'.
Proof. exact message_cause. Qed.
Print Assumptions C37_cause.

(** An evaluation error about an identifier names an identifier that is not in the context. *)
Theorem C37_undefined : forall dbg F (S : Scalar F) (n : node F) (c : ctx F) e i,
  cache_free n = true -> snd (evaluate n c) = Err e -> err_ident e = Some i ->
  c i = None /\ err_display dbg e = "No variable found with identifier " ++ dbg i ++ ".".
Proof. exact @message_undefined. Qed.
Print Assumptions C37_undefined.

Example C37_example :
  let S := Z_scalar in
  let c : ctx Z := fun i => match i with 0 => Some (VScal 3%Z) | _ => None end in
  let n := Add (Var 0) (Mul (Un Sin (Var 7)) (Var 0)) in
  cache_free n = true /\ (forall i j, xs i = xs j -> i = j) /\
  snd (evaluate n c) = Err (nested [false; true] (Undefined 7)) /\
  err_ident (nested [false; true] (Undefined 7)) = Some 7 /\
  err_display xs (nested [false; true] (Undefined 7)) = "No variable found with identifier xxxxxxxx." /\
  err_display xs (nested [true; false; false] (EOutput (Incompat (St [2; 13]) (Dy [4])))) =
    "Buffer shapes are incompatible: 2 × 13 vs SDynamic([4])." /\
  root_cause (nested [true] (Undefined 1)) = inl 1.
Proof. split; [reflexivity|split; [apply C30_example|repeat split; reflexivity]]. Qed.

(** * C67 Rendered text means what the expression means *)
(** A text has at most one reading. *)
Theorem C67_one_reading : forall inf sp rho x y s,
  sum_reads inf sp rho x s -> sum_reads inf sp rho y s -> x = y.
Proof. exact one_reading. Qed.
Print Assumptions C67_one_reading.

(** The only reading of the text, and of what [Display] writes, is the value.  Full statement: all
    scalar trees with a text.  Missing: the trees excluded by [no_wrong_constant], [readable] and
    [no_blank]; there the text is that of another expression (C67_refuted, C29_refuted), mentions
    infinity, or leaves out an operand. *)
Theorem C67_value_partial : forall inf sp rho sym show (c c' : ctx R) (n : node R) v,
  let S := R_scalar inf sp in
  sp Lgamma 1%R = 1%R -> sp Lloggamma 1%R = 0%R -> rho "½" = (1 / 2)%R -> rho "π" = PI ->
  (forall i, is_name (sym i) = true) -> (forall i x, c i = Some (VScal x) -> rho (sym i) = x) ->
  node_wf n -> ctx_wf c -> cache_free n = true -> scalar_ctx c -> scalar_tree n ->
  regular (real_un inf sp) c n -> no_wrong_constant sym show n -> readable inf sp rho sym show n ->
  evaluate n c = (c', Ok v) ->
  exists x, v = VScal x /\
    (forall p, to_expr sym show n = Some (XText p) -> forall y, sum_reads inf sp rho y (pw_text p) <-> y = x) /\
    (forall s, to_expr sym show n <> None -> no_blank sym show n -> display sym show n = Some s ->
       forall y, sum_reads inf sp rho y s <-> y = x).
Proof. exact text_reads. Qed.
Print Assumptions C67_value_partial.

(** An adjoint with simplified parts: [(1 - x^2) / (1 + dx/dx)]. *)
Example C67_example : forall inf,
  let S := R_scalar inf sp0 in
  let rho := xy_values 3 5 in let show := fun _ : R => "7" in
  let n := Div (Sub (VarAdj 0 0) (Un Square (Var 0))) (Un AddOne (VarAdj 0 0)) in
  let c := ctx2 (VScal 3%R) (VScal 5%R) in
  rho "½" = (1 / 2)%R /\ rho "π" = PI /\
  (forall i, is_name (xy i) = true) /\ (forall i x, c i = Some (VScal x) -> rho (xy i) = x) /\
  node_wf n /\ ctx_wf c /\ cache_free n = true /\ scalar_ctx c /\ scalar_tree n /\
  regular (real_un inf sp0) c n /\ no_wrong_constant xy show n /\ readable inf sp0 rho xy show n /\
  (exists c' v, evaluate n c = (c', Ok v)) /\ no_blank xy show n /\
  to_expr xy show n = Some (XText (PW "(1 - (x)^2) / (2)" true)) /\
  display xy show n = Some "(1 - (x)^2) / (2)".
Proof.
  intros inf S rho show n c.
  split; [reflexivity|]; split; [reflexivity|].
  split; [intros [|i]; reflexivity|].
  split; [intros [|[|i]] x H; try discriminate H; injection H as <-; reflexivity|].
  split; [cbn; tauto|]; split; [apply ctx2_wf; exact I|]; split; [reflexivity|].
  split; [intros [|[|i]] v H; try discriminate H; injection H as <-; reflexivity|].
  split; [cbn; tauto|].
  split; [cbn [regular n]; repeat split; try exact I; intros _; cbn; auto|].
  split; [cbn; tauto|].
  split.
  { cbn [readable n]; repeat split; try exact I.
    exists 2%R. apply atom_signed. apply (atom_group inf sp0 rho 2%R "2"), signed_sum, atom_signed, atom_2. }
  split; [eexists _, _; reflexivity|]; split; [cbn; discriminate|split; reflexivity].
Qed.

(** Formulas with another value than the tree, at [x = a] and [y = b]. *)
Theorem C67_refuted : forall inf sp,
  let misread a b (n : node R) s :=
    exists c x y, c = ctx2 (VScal a) (VScal b) /\
      (exists w, to_expr xy (fun _ => "") n = Some (XText (PW s w))) /\
      @evaluate R (R_scalar inf sp) n c = (c, Ok (VScal x)) /\
      sum_reads inf sp (xy_values a b) y s /\ x <> y in
  misread 1%R 0%R (Un AddOne (Var 0)) "1 - x" /\
  misread 1%R 0%R (Un ArcSin (Var 0)) "acos(x)" /\
  misread 0%R 0%R (Un Exp (Un Double (Var 0))) "𝑒^2 ∘ x" /\
  misread 1%R 2%R (Div (Var 0) (Un Double (Var 1))) "x / 2 ∘ y" /\
  misread 2%R 0%R (Power (Var 0) (Un Double (Var 1))) "x^2 ∘ y" /\
  misread 2%R 0%R (Power (Un Square (Var 0)) (Var 1)) "(x)^2^y" /\
  misread 1%R 0%R (Power (Un Negate (Var 0)) (Var 1)) "-x^y" /\
  misread 1%R 0%R (Un Sinh (VarAdj 0 0)) "sin(1)".
Proof. exact misreadings. Qed.
Print Assumptions C67_refuted.
