(** The macros: C15, C16, C27, C28, C44, C45, C62, C66. *)
From Coq Require Import List Arith ZArith Bool String Ascii Lia.
Import ListNotations.
From Verif Require Import Base Shapes Scalar Buffers Spec Contraction Node Eval Types Instances
  Ids Derive Compile Syntax Vocab Math Macro_math Instance_facts Math_claims Ids_claims Derive_claims Compile_claims
  Syntax_claims Print_claims.
Local Open Scope string_scope.

(** * C15 Context read/write laws *)

(** Any history of writes: a read gives the last value written, else the initial one. *)
Theorem C15_history : forall F (S : Scalar F) fs (st : struct_val F) ws i,
  compiled fs st -> (exists f, In f fs /\ cf_ident f = Some i) ->
  gen_read fs (run_writes fs st ws) i =
  match last_write ws i with Some v => Some v | None => gen_read fs st i end.
Proof. exact @read_history. Qed.
Print Assumptions C15_history.

Theorem C15_read_write : forall F (S : Scalar F) fs (st : struct_val F) i v,
  compiled fs st -> (exists f, In f fs /\ cf_ident f = Some i) ->
  gen_read fs (gen_write fs st i v) i = Some v.
Proof. exact @read_write. Qed.
Print Assumptions C15_read_write.

Theorem C15_other : forall F (S : Scalar F) fs (st : struct_val F) i j v,
  compiled fs st -> i <> j ->
  gen_read_spec fs (gen_write fs st i v) j = gen_read_spec fs st j /\
  gen_read fs (gen_write fs st i v) j = gen_read fs st j /\
  gen_read_shape fs (gen_write fs st i v) j = gen_read_shape fs st j.
Proof. exact @read_other. Qed.
Print Assumptions C15_other.

Theorem C15_views : forall F (S : Scalar F) fs (st : struct_val F) i,
  gen_read fs st i = option_map unwrap (gen_read_spec fs st i) /\
  gen_read_shape fs st i = option_map (@vshape F) (gen_read fs st i).
Proof. exact @read_views. Qed.
Print Assumptions C15_views.

Theorem C15_plain : forall F (S : Scalar F) fs (st : struct_val F) ws f i,
  compiled fs st -> In f fs -> cf_ident f = Some i -> cf_cache f = false ->
  exists v, gen_read fs (run_writes fs st ws) i = Some v.
Proof. exact @plain_defined. Qed.
Print Assumptions C15_plain.

Theorem C15_cache : forall F (S : Scalar F) fs (st : struct_val F) ws f i,
  compiled fs st -> In f fs -> cf_ident f = Some i -> cf_cache f = true -> st (cf_name f) = Cell None ->
  ((exists v, gen_read fs (run_writes fs st ws) i = Some v) <-> In i (map fst ws)).
Proof. exact @cache_defined. Qed.
Print Assumptions C15_cache.

(** Writes keep the struct well formed, so the laws apply again after them. *)
Theorem C15_kept : forall F (S : Scalar F) fs (st : struct_val F) ws,
  compiled fs st -> compiled fs (run_writes fs st ws).
Proof. exact @run_compiled. Qed.
Print Assumptions C15_kept.

(** Refinement: the generated write is the write of the abstract contexts used for evaluation. *)
Theorem C15_refines : forall F (S : Scalar F) name fs (st : struct_val F) (i : ident) v,
  compiled fs st -> (forall a b, name a = name b -> a = b) ->
  (exists f, In f fs /\ cf_ident f = Some (name i)) ->
  forall j, ctx_of name fs (gen_write fs st (name i) v) j = write (ctx_of name fs st) i v j.
Proof. exact @ctx_of_write. Qed.
Print Assumptions C15_refines.

(** [write_spec] stores the buffer the specification stands for, and is the [write_spec] of the
    abstract contexts. *)
Theorem C15_write_spec : forall F (S : Scalar F) fs (st : struct_val F) i s,
  compiled fs st -> spec_wf s -> (exists f, In f fs /\ cf_ident f = Some i) ->
  exists v, gen_read fs (gen_write_spec fs st i s) i = Some v /\ vwf v /\ bty_of v = spec_bty s /\
            holds v (tensor_of_spec s).
Proof. exact @read_write_spec. Qed.
Print Assumptions C15_write_spec.

Theorem C15_refines_spec : forall F (S : Scalar F) name fs (st : struct_val F) (i : ident) s,
  compiled fs st -> (forall a b, name a = name b -> a = b) ->
  (exists f, In f fs /\ cf_ident f = Some (name i)) ->
  forall j, ctx_of name fs (gen_write_spec fs st (name i) s) j = write_spec (ctx_of name fs st) i s j.
Proof. exact @ctx_of_write_spec. Qed.
Print Assumptions C15_refines_spec.

(** [struct Ctx { #[id(X)] x: f64, #[cache] #[id(Y)] y: Option<f64>, n: usize }] *)
Definition f64_ty : ty := TyPath false false [Seg "f64" ANone].
Definition opt_ty (t : ty) : ty := TyPath false false [Seg "Option" (AAngle [GType t] false)].
Definition ctx_fields : list ctx_field :=
  [CtxField "x" f64_ty f64_ty (Some "X") false; CtxField "y" (opt_ty f64_ty) f64_ty (Some "Y") true].
Definition ctx_value : struct_val Z :=
  fun n => if String.eqb n "y" then Cell None else Plain (VScal 3%Z).

Example C15_example :
  let S := Z_scalar in
  compiled ctx_fields ctx_value /\
  gen_read ctx_fields ctx_value "X" = Some (VScal 3%Z) /\ gen_read ctx_fields ctx_value "Y" = None /\
  (let st := run_writes ctx_fields ctx_value [("Y", VScal 5%Z); ("X", VScal 7%Z); ("Y", VScal 6%Z)] in
   gen_read ctx_fields st "X" = Some (VScal 7%Z) /\ gen_read ctx_fields st "Y" = Some (VScal 6%Z)) /\
  gen_read ctx_fields (gen_write_spec ctx_fields ctx_value "Y" (Full TS 4%Z)) "Y" = Some (VScal 4%Z).
Proof.
  split; [constructor|split; [reflexivity|split; [reflexivity|split; [split; reflexivity|reflexivity]]]].
  - repeat constructor; simpl; intuition discriminate.
  - intros f g i [<-|[<-|[]]] [<-|[<-|[]]]; simpl; congruence.
  - intros f [<-|[<-|[]]]; simpl; eexists; reflexivity.
Qed.

(** The names of the identifiers of Eval.v for [C15_refines]. *)
Example C15_refines_example :
  let S := Z_scalar in
  let name := fun i : ident => String.string_of_list_ascii (repeat "a"%char i) in
  let fs := [CtxField "x" f64_ty f64_ty (Some "a") false] in
  let st : struct_val Z := fun _ => Plain (VScal 3%Z) in
  compiled fs st /\ (forall a b, name a = name b -> a = b) /\
  (exists f, In f fs /\ cf_ident f = Some (name 1)) /\
  ctx_of name fs (gen_write fs st (name 1) (VScal 9%Z)) 1 = Some (VScal 9%Z).
Proof.
  split; [|split; [|split; [|reflexivity]]].
  - constructor; [repeat constructor; simpl; tauto| |].
    + intros f g i [<-|[]] [<-|[]]; auto.
    + intros f [<-|[]]; simpl; eauto.
  - intros a b E; apply (f_equal list_ascii_of_string) in E.
    rewrite !list_ascii_of_string_of_list_ascii in E; apply (f_equal (@List.length _)) in E.
    rewrite !repeat_length in E; auto.
  - eexists; split; [left; reflexivity|reflexivity].
Qed.

(** * C16 Which struct declarations derive accepts *)

(** False as stated: an attribute with a path of two segments, and cache types such as
    [Option<[f64; 2]>], are rejected. *)
Theorem C16_refuted :
  (exists f, described f /\ cache_type_ok f /\ parse_field f = Err InvalidAttr) /\
  (exists f, described f /\ single_paths f /\ parse_field f = Panic).
Proof.
  split.
  - exists (Field (Some "x") [Attr (Path false ["rustfmt"; "skip"]) MetaOther] f64_ty).
    split; [|split; [intros [H|[]]; discriminate|reflexivity]].
    constructor; simpl; try discriminate; auto; [intros a [<-|[]]; discriminate|].
    intros [H|[]]; discriminate.
  - exists (Field (Some "x") [cache_attr; id_attr "X"] (opt_ty TyOther)).
    split; [|split; [|reflexivity]].
    + constructor; simpl; try discriminate; auto.
      * intros a [<-|[<-|[]]]; [discriminate|intros _; eexists; reflexivity].
      * intros _; split; [right; left; reflexivity|].
        unfold option_type, opt_ty; eexists; eexists; eexists; eexists; eexists; reflexivity.
    + intros a [<-|[<-|[]]]; eexists; reflexivity.
Qed.
Print Assumptions C16_refuted.

(** The condition of C16 is necessary, and sufficient when all attribute paths are identifiers and
    a cache type has nothing or a path between its brackets.  Missing: sufficiency without these
    two conditions, which is refuted above. *)
Theorem C16_field_partial : forall f,
  ((exists cf, parse_field f = Ok cf) -> described f) /\
  (single_paths f -> cache_type_ok f -> described f -> exists cf, parse_field f = Ok cf).
Proof.
  intro f; split; [intro H; apply field_accepted in H; tauto|intros; apply field_accepted; auto].
Qed.
Print Assumptions C16_field_partial.

Theorem C16_ctx_type : forall ts,
  (exists d, ctx_type ts = Some d) <-> exists rs, field_list rs ts /\ forall r, In r rs -> known_modifier r.
Proof. exact ctx_type_accepted. Qed.
Print Assumptions C16_ctx_type.

Example C16_example :
  (* { cache y: Y, x: X, } *)
  ctx_type [KIdent "cache"; KIdent "y"; KColon; KIdent "Y"; KComma; KIdent "x"; KColon; KIdent "X"; KComma] <> None /\
  ctx_type [KIdent "mut"; KIdent "y"; KColon; KIdent "Y"] = None /\
  field_list [RawField (Some "mut") "y" "Y"] [KIdent "mut"; KIdent "y"; KColon; KIdent "Y"].
Proof. split; [discriminate|split; [reflexivity|]]; repeat constructor. Qed.

(** * C44 Exactly which fields derive accepts, and what they become *)
Theorem C44_accepts : forall f,
  (exists cf, parse_field f = Ok cf) <-> described f /\ single_paths f /\ cache_type_ok f.
Proof. exact field_accepted. Qed.
Print Assumptions C44_accepts.

Theorem C44_struct : forall d,
  (exists fs, derive_context d = Ok fs) <->
  exists l, d = DStruct l /\ forall f, In f l -> described f /\ single_paths f /\ cache_type_ok f.
Proof. exact struct_accepted. Qed.
Print Assumptions C44_struct.

(** Read and write impls are generated for the fields with an [id] attribute and no others, in the
    order of the struct. *)
Theorem C44_impls : forall l fs, derive_context (DStruct l) = Ok fs ->
  Forall2 (fun f cf => parse_field f = Ok cf) (filter identified l) fs.
Proof. exact struct_impls. Qed.
Print Assumptions C44_impls.

Theorem C44_result : forall f cf, parse_field f = Ok cf ->
  fd_name f = Some (cf_name cf) /\ cf_ty cf = fd_ty f /\
  (cf_cache cf = true <-> In cache_path (map at_path (fd_attrs f))) /\
  (forall i, cf_ident cf = Some i <-> In (Attr id_path (MList [NPath (Path false [i])])) (fd_attrs f)) /\
  (cf_cache cf = false -> cf_bty cf = fd_ty f) /\
  (cf_cache cf = true -> exists q l args rest segs,
     fd_ty f = TyPath q l (Seg "Option" (AAngle args false) :: rest) /\ cf_bty cf = TyPath q l segs /\
     (args = [] /\ segs = [] \/ args = [GType (TyPath false false segs)])).
Proof. exact field_result. Qed.
Print Assumptions C44_result.

(** The struct emitted by [ctx_type!] is accepted, with the names, identifiers and cache marks that
    were written. *)
Theorem C44_ctx_type : forall ts d, ctx_type ts = Some d ->
  exists rs fs, field_list rs ts /\ derive_context d = Ok fs /\ Forall2 describes rs fs.
Proof. exact ctx_type_derive. Qed.
Print Assumptions C44_ctx_type.

(** [#[doc] #[cache] #[id(X)] x: Option<Vec<f64>>] *)
Example C44_example :
  let doc := Attr (Path false ["doc"]) MetaOther in
  let vec := [Seg "Vec" (AAngle [GType f64_ty] false)] in
  parse_field (Field (Some "x") [doc; cache_attr; id_attr "X"] (opt_ty (TyPath false false vec))) =
  Ok (CtxField "x" (opt_ty (TyPath false false vec)) (TyPath false false vec) (Some "X") true) /\
  parse_field (Field (Some "x") [id_attr "X"; id_attr "Y"] f64_ty) = Err TooManyIds /\
  parse_field (Field (Some "x") [cache_attr] (opt_ty f64_ty)) = Err NoFieldId /\
  parse_field (Field (Some "x") [cache_attr; id_attr "X"] f64_ty) = Err ImproperCacheType /\
  parse_field (Field None [id_attr "X"] f64_ty) = Err NoFieldId.
Proof. repeat split; reflexivity. Qed.

(** * C27 The aegir! macro preserves the meaning of arithmetic *)

Theorem C27_panics : forall e,
  fold_expr e = Panic <-> exists op l r, inside (RBin op l r) e /\ unsupported op.
Proof. exact fold_panics. Qed.
Print Assumptions C27_panics.

Theorem C27_accepts : forall e,
  (exists c, fold_expr e = Ok c) <-> forall op l r, inside (RBin op l r) e -> ~ unsupported op.
Proof. exact fold_accepts. Qed.
Print Assumptions C27_accepts.

(** The converted expression is a node as soon as everything it mentions is in scope. *)
Theorem C27_builds : forall F (env : string -> option (node F)) num e,
  arithmetic e -> in_scope env num e ->
  exists c n, fold_expr e = Ok c /\ build env num c = Some n.
Proof. exact @build_defined. Qed.
Print Assumptions C27_builds.

(** The node denotes the arithmetic value of the source. *)
Theorem C27_meaning : forall F (S : Scalar F) um rho env num val,
  (forall l x, num l = Some x -> val l = x) ->
  (forall l x, two (RLit l) -> um Square x = fpow x (val l)) ->
  forall e c n t,
  fold_expr e = Ok c -> build env num c = Some n ->
  meaning um rho env val e = Some t -> scalar_powers um rho env val e -> teq (den um rho n) t.
Proof. exact @meaning_teq. Qed.
Print Assumptions C27_meaning.

(** Scalar expressions, any scalar type (also floats): when the trees of the paths have values, the
    converted expression has one, and it is the arithmetic value. *)
Theorem C27_scalar : forall F (S : Scalar F) (env : string -> option (node F)) num val e (rho : ctx F),
  (forall l x, num l = Some x -> val l = x) ->
  (forall l, two (RLit l) -> val l = ftwo) ->
  arithmetic e -> in_scope env num e -> ctx_wf rho ->
  (forall p m, env p = Some m -> elementwise rho m /\ node_wf m /\ tdims (den un_fn rho m) = [] /\
                                 exists v, evaluate m rho = (rho, Ok v)) ->
  exists c n t x, fold_expr e = Ok c /\ build env num c = Some n /\ meaning un_fn rho env val e = Some t /\
    evaluate n rho = (rho, Ok (VScal x)) /\ holds (VScal x) t.
Proof. exact @converted_scalar. Qed.
Print Assumptions C27_scalar.

(** Tensors, exact arithmetic.  Missing: the deviations of evaluation that [regular] excludes. *)
Theorem C27_exact_partial : forall F (S : Scalar F) um G (env : string -> option (node F)) num val e c n t k
    (rho : ctx F),
  exact F -> (forall u x, un_fn u x = um u x) ->
  (forall l x, num l = Some x -> val l = x) ->
  (forall l, two (RLit l) -> val l = ftwo) ->
  fold_expr e = Ok c -> build env num c = Some n ->
  meaning um rho env val e = Some t -> scalar_powers um rho env val e ->
  node_wf n -> novec G n -> square G n -> typeof G n = Some k ->
  cache_free n = true -> ctx_ok G rho -> (forall i, uses n i -> rho i <> None) -> regular um rho n ->
  exists v, evaluate n rho = (rho, Ok v) /\ sty_of (bty_of v) = k /\ holds v t.
Proof. exact @converted_exact. Qed.
Print Assumptions C27_exact_partial.

(** The full statement fails with evaluation itself: a scalar minus a matrix. *)
Definition env2 {F} (p : string) : option (node F) :=
  if String.eqb p "x" then Some (Var 0) else if String.eqb p "y" then Some (Var 1) else None.

Theorem C27_refuted :
  let S := Z_scalar in
  exists e c n t (rho : ctx Z) v,
    arithmetic e /\ ctx_wf rho /\
    fold_expr e = Ok c /\ build env2 (fun _ => None) c = Some n /\
    meaning un_fn rho env2 (fun _ => 0%Z) e = Some t /\
    evaluate n rho = (rho, Ok v) /\ ~ holds v t.
Proof.
  intro S.
  exists (RBin BSub (RPath "x") (RPath "y")), (CMethod (CPath "x") "sub" [CPath "y"]), (Sub (Var 0) (Var 1)).
  eexists; exists (ctx2 (VScal 1%Z) (mat22 1 2 3 4)); eexists.
  split; [simpl; repeat split; auto; intros [H|H]; discriminate|].
  split; [apply ctx2_wf; simpl; auto; repeat constructor|].
  split; [reflexivity|split; [reflexivity|split; [reflexivity|split; [reflexivity|]]]].
  intros [_ H]; specialize (H [0; 1]).
  assert (B : in_box [2; 2] [0; 1]) by (repeat constructor).
  specialize (H B); vm_compute in H; discriminate.
Qed.
Print Assumptions C27_refuted.

(** README.md:57-58: [aegir!((model - y) ^ 2)] is the squared error. *)
Example C27_readme :
  let env := fun p => if String.eqb p "model" then Some (Contract 1 (Var 0) (Var 1))
                      else if String.eqb p "y" then Some (Var 2) else None in
  exists c, fold_expr (RBin BXor (RParen (RBin BSub (RPath "model") (RPath "y"))) (RLit (LInt "2"))) = Ok c /\
  build (F := Z) env (fun _ => None) c = Some (sse 0 1 2).
Proof. eexists; split; reflexivity. Qed.

(** [x * y ^ 3 - 1], as Rust reads it, with x = 2, y = 5. *)
Example C27_example :
  let S := Z_scalar in
  let e := RBin BXor (RBin BMul (RPath "x") (RPath "y")) (RBin BSub (RLit (LInt "3")) (RLit (LInt "1"))) in
  let num := fun l => match l with LInt "1" => Some 1%Z | LInt "2" => Some 2%Z | LInt "3" => Some 3%Z | _ => None end in
  let val := fun l => match l with LInt "1" => 1%Z | LInt "3" => 3%Z | _ => 2%Z end in
  let rho := ctx2 (VScal 2%Z) (VScal 5%Z) in
  arithmetic e /\ in_scope env2 num e /\ scalar_powers un_fn rho env2 val e /\
  (forall l x, num l = Some x -> val l = x) /\ (forall l, two (RLit l) -> val l = ftwo) /\
  exists c n t, fold_expr e = Ok c /\ build env2 num c = Some n /\
    meaning un_fn rho env2 val e = Some t /\ tat t [] = 100%Z /\ evaluate n rho = (rho, Ok (VScal 100%Z)).
Proof.
  intros S e num val rho.
  split; [simpl; unfold unsupported; repeat split; auto; intuition discriminate|].
  split; [simpl; repeat split; try discriminate; right; split; discriminate|].
  split; [apply scalar_powers_all; [simpl; unfold unsupported; repeat split; auto; intuition discriminate|];
          intros p m; unfold env2; destruct (String.eqb p "x");
          [|destruct (String.eqb p "y"); [|discriminate]]; intro H; injection H as <-; reflexivity|].
  split.
  { intros l x; unfold num, val; destruct l as [t|t|t]; try discriminate.
    repeat (match goal with |- context [match ?t with _ => _ end] => destruct t end; try discriminate;
            try (intro H; injection H as <-; reflexivity)). }
  split; [intros l [H|H]; injection H as ->; reflexivity|].
  eexists; eexists; eexists; repeat (split; [reflexivity|]); reflexivity.
Qed.

(** Method calls, over arrays: [x.dot(y).squared() - x.sum()] with x = (1, 2), y = (3, 4), which is
    121 - 3; and over scalars: [(x.neg() + 1).mul(y.abs())] with x = 2, y = -5, which is -5. *)
Example C27_method_example :
  let S := Z_scalar in
  let num := fun l => match l with LInt "1" => Some 1%Z | _ => None end in
  let val := fun l => match l with LInt "1" => 1%Z | _ => 2%Z end in
  let x := RPath "x" in let y := RPath "y" in
  let e1 := RBin BSub (RMethod (RMethod x "dot" [y]) "squared" []) (RMethod x "sum" []) in
  let e2 := RMethod (RParen (RBin BAdd (RMethod x "neg" []) (RLit (LInt "1")))) "mul" [RMethod y "abs" []] in
  let rho1 := ctx2 (vec2 1 2) (vec2 3 4) in
  let rho2 := ctx2 (VScal 2%Z) (VScal (-5)%Z) in
  (exists c n t, fold_expr e1 = Ok c /\ build env2 num c = Some n /\ meaning un_fn rho1 env2 val e1 = Some t /\
     scalar_powers un_fn rho1 env2 val e1 /\ evaluate n rho1 = (rho1, Ok (VScal 118%Z)) /\ tat t [] = 118%Z) /\
  arithmetic e2 /\ in_scope env2 num e2 /\ ctx_wf rho2 /\
  (forall p m, env2 p = Some m -> elementwise rho2 m /\ node_wf m /\ tdims (den un_fn rho2 m) = [] /\
                                  exists v, evaluate m rho2 = (rho2, Ok v)) /\
  (exists c n, fold_expr e2 = Ok c /\ build env2 num c = Some n /\ evaluate n rho2 = (rho2, Ok (VScal (-5)%Z))).
Proof.
  intros S num val x y e1 e2 rho1 rho2.
  split; [do 3 eexists; split; [reflexivity|split; [reflexivity|split; [reflexivity|
          split; [simpl; repeat split; intros; discriminate|split; reflexivity]]]]|].
  split; [simpl; unfold unsupported; repeat split; auto; intuition discriminate|].
  split; [simpl; repeat split; discriminate|].
  split; [apply ctx2_wf; simpl; auto|].
  split; [|do 2 eexists; split; [reflexivity|split; reflexivity]].
  intros p m; unfold env2; destruct (String.eqb p "x"); [|destruct (String.eqb p "y"); [|discriminate]];
    intro H; injection H as <-; repeat split; simpl; auto; eexists; reflexivity.
Qed.

(** * C62 How aegir! reads operators *)

(** The argument is read by the grammar of [power]: [*] binds tighter than [+] and [-], which bind
    tighter than [^], and all of them group to the left. *)
Theorem C62_grammar : forall ts e, parse_tokens ts = Some e <-> power e ts.
Proof. exact parse_grammar. Qed.
Print Assumptions C62_grammar.

Theorem C62_unique : forall ts e e', power e ts -> power e' ts -> e = e'.
Proof. exact grammar_unique. Qed.
Print Assumptions C62_unique.

Theorem C62_error : forall ts, aegir_macro ts = Err tt <-> forall e, ~ power e ts.
Proof. exact macro_error. Qed.
Print Assumptions C62_error.

(** The macro panics exactly on readable arguments with a [/] or [%] somewhere. *)
Theorem C62_panics : forall ts,
  aegir_macro ts = Panic <->
  (exists e, power e ts) /\ exists op, unsupported op /\ occurs (XOp op) ts.
Proof. exact macro_panics. Qed.
Print Assumptions C62_panics.

(** The base of the last [^] outside of parentheses is everything to the left of it, its exponent
    everything to the right. *)
Theorem C62_xor : forall l r tl tr, power l tl -> sum_of r tr ->
  aegir_macro (tl ++ XOp BXor :: tr) = fold_expr (RBin BXor l r).
Proof. exact macro_xor. Qed.
Print Assumptions C62_xor.

(** From the tokens to the value: scalars, any scalar type. *)
Theorem C62_scalar : forall F (S : Scalar F) (env : string -> option (node F)) num val ts e (rho : ctx F),
  (forall l x, num l = Some x -> val l = x) ->
  (forall l, two (RLit l) -> val l = ftwo) ->
  power e ts -> arithmetic e -> in_scope env num e -> ctx_wf rho ->
  (forall p m, env p = Some m -> elementwise rho m /\ node_wf m /\ tdims (den un_fn rho m) = [] /\
                                 exists v, evaluate m rho = (rho, Ok v)) ->
  exists c n t x, aegir_macro ts = Ok c /\ build env num c = Some n /\ meaning un_fn rho env val e = Some t /\
    evaluate n rho = (rho, Ok (VScal x)) /\ holds (VScal x) t.
Proof. exact @macro_scalar. Qed.
Print Assumptions C62_scalar.

(** The conventional reading, in which a power binds tightest, is false: [x + y ^ 2] with x = 1 and
    y = 2 is 9, the value of [(x + y) ^ 2], and not 5, the value of [x + (y ^ 2)]. *)
Theorem C62_conventional_refuted :
  let S := Z_scalar in
  let rho := ctx2 (VScal 1%Z) (VScal 2%Z) in
  let square_y := [XPath "y"; XOp BXor; XLit (LInt "2")] in
  exists c n c' n',
    aegir_macro ([XPath "x"; XOp BAdd] ++ square_y) = Ok c /\ build env2 (fun _ => None) c = Some n /\
    aegir_macro ([XPath "x"; XOp BAdd] ++ [XParen square_y]) = Ok c' /\ build env2 (fun _ => None) c' = Some n' /\
    evaluate n rho = (rho, Ok (VScal 9%Z)) /\ evaluate n' rho = (rho, Ok (VScal 5%Z)).
Proof.
  intros S rho sq; do 4 eexists.
  split; [reflexivity|split; [reflexivity|split; [reflexivity|split; [reflexivity|split; reflexivity]]]].
Qed.
Print Assumptions C62_conventional_refuted.

(** [a - b - c * d.pow(e, ) ^ f ^ 2]: grouping to the left and by levels, with a method call. *)
Example C62_example :
  let p s := RPath s in
  let ts := [XPath "a"; XOp BSub; XPath "b"; XOp BSub; XPath "c"; XOp BMul; XPath "d"; XDot; XPath "pow";
             XParen [XPath "e"; XComma]; XOp BXor; XPath "f"; XOp BXor; XLit (LInt "2")] in
  let e := RBin BXor (RBin BXor (RBin BSub (RBin BSub (p "a") (p "b")) (RBin BMul (p "c") (RMethod (p "d") "pow" [p "e"])))
                                (p "f")) (RLit (LInt "2")) in
  power e ts /\ parse_tokens ts = Some e /\ (exists c, aegir_macro ts = Ok c) /\
  aegir_macro [XPath "a"; XOp BMul; XParen [XPath "b"; XOp BDiv; XPath "c"]] = Panic /\
  aegir_macro [XPath "a"; XOp BMul; XOp BAdd; XPath "c"] = Err tt.
Proof.
  intros p ts e.
  assert (E : parse_tokens ts = Some e) by reflexivity.
  split; [apply C62_grammar; exact E|split; [exact E|split; [eexists; reflexivity|split; reflexivity]]].
Qed.

(** The hypotheses of the value theorem: [x * y ^ 3 - 1], which is [(x * y) ^ (3 - 1)]. *)
Example C62_scalar_example :
  let S := Z_scalar in
  let num := fun l => match l with LInt "1" => Some 1%Z | LInt "3" => Some 3%Z | _ => None end in
  let val := fun l => match l with LInt "1" => 1%Z | LInt "3" => 3%Z | _ => 2%Z end in
  let rho := ctx2 (VScal 2%Z) (VScal 5%Z) in
  exists e t, power e [XPath "x"; XOp BMul; XPath "y"; XOp BXor; XLit (LInt "3"); XOp BSub; XLit (LInt "1")] /\
    arithmetic e /\ in_scope env2 num e /\ ctx_wf rho /\
    (forall p m, env2 p = Some m -> elementwise rho m /\ node_wf m /\ tdims (den un_fn rho m) = [] /\
                                    exists v, evaluate m rho = (rho, Ok v)) /\
    (forall l x, num l = Some x -> val l = x) /\ (forall l, two (RLit l) -> val l = ftwo) /\
    meaning un_fn rho env2 val e = Some t /\ tat t [] = 100%Z.
Proof.
  intros S num val rho; do 2 eexists.
  split; [apply C62_grammar; reflexivity|].
  split; [simpl; unfold unsupported; repeat split; auto; intuition discriminate|].
  split; [simpl; repeat split; try discriminate; right; split; discriminate|].
  split; [apply ctx2_wf; simpl; auto|].
  split.
  { intros p m; unfold env2; destruct (String.eqb p "x"); [|destruct (String.eqb p "y"); [|discriminate]];
      intro H; injection H as <-; repeat split; simpl; auto; eexists; reflexivity. }
  split.
  { intros l x; unfold num, val; destruct l as [t|t|t]; try discriminate.
    repeat (match goal with |- context [match ?t with _ => _ end] => destruct t end; try discriminate;
            try (intro H; injection H as <-; reflexivity)). }
  split; [intros l [H|H]; injection H as ->; reflexivity|].
  split; reflexivity.
Qed.

(** * C66 What the compiler reads from the tokens returned by aegir! *)

(** The macro returns tokens for everything it accepts; the compiler reads them as [reread] says:
    each prefix operator of a receiver stands before the whole call. *)
Theorem C66_printed : forall ts c, aegir_macro ts = Ok c -> (forall l, ~ occurs (XBlock l) ts) ->
  exists out, print c = Some out.
Proof. exact macro_printed. Qed.
Print Assumptions C66_printed.

Theorem C66_reread : forall c out, print c = Some out -> parse_tokens out = Some (reread (as_expr c)).
Proof. exact print_reread. Qed.
Print Assumptions C66_reread.

(** The compiler reads the converted expression exactly when no operator of the source has a
    prefixed left operand. *)
Theorem C66_kept : forall ts e c out, power e ts -> aegir_macro ts = Ok c -> print c = Some out ->
  (parse_tokens out = Some (as_expr c) <-> forall op l r, inside (RBin op l r) e -> ~ prefixed l).
Proof. exact macro_kept. Qed.
Print Assumptions C66_kept.

(** Every converted expression that is a node is read as it stands, and no prefix operator is in it:
    negative literals and unary minus are not supported. *)
Theorem C66_node : forall F (env : string -> option (node F)) num ts c n,
  (forall l, ~ occurs (XBlock l) ts) -> aegir_macro ts = Ok c -> build env num c = Some n ->
  exists out, print c = Some out /\ parse_tokens out = Some (as_expr c).
Proof. exact macro_node. Qed.
Print Assumptions C66_node.

Theorem C66_no_prefix : forall F (env : string -> option (node F)) num c n p x,
  build env num c = Some n -> ~ inside (RPrefix p x) (as_expr c).
Proof. exact build_plain. Qed.
Print Assumptions C66_no_prefix.

(** Not always as converted: the tokens for [*a + b] are those of [*(a.add(b))]. *)
Theorem C66_reread_refuted : exists ts c out,
  aegir_macro ts = Ok c /\ print c = Some out /\
  ts = [XOp BMul; XPath "a"; XOp BAdd; XPath "b"] /\
  as_expr c = RMethod (RPrefix PDeref (RPath "a")) "add" [RPath "b"] /\
  parse_tokens out = Some (RPrefix PDeref (RMethod (RPath "a") "add" [RPath "b"])).
Proof.
  exists [XOp BMul; XPath "a"; XOp BAdd; XPath "b"]; do 2 eexists.
  split; [reflexivity|split; [reflexivity|split; [reflexivity|split; reflexivity]]].
Qed.
Print Assumptions C66_reread_refuted.

(** [(x + 2).pow(y, ) ^ 2] is read as converted, [-2 * a - b] is not. *)
Example C66_example :
  let num := fun l => match l with LInt "2" => Some 2%Z | _ => None end in
  let ts := [XParen [XPath "x"; XOp BAdd; XLit (LInt "2")]; XDot; XPath "pow"; XParen [XPath "y"; XComma];
             XOp BXor; XLit (LInt "2")] in
  let neg := [XOp BSub; XLit (LInt "2"); XOp BMul; XPath "a"; XOp BSub; XPath "b"] in
  (forall l, ~ occurs (XBlock l) ts) /\
  (exists e c out n, power e ts /\ aegir_macro ts = Ok c /\ print c = Some out /\ build env2 num c = Some n /\
     out = [XParen [XPath "x"; XDot; XPath "add"; XParen [XBlock (LInt "2")]]; XDot; XPath "pow"; XParen [XPath "y"];
            XDot; XPath "squared"; XParen []] /\
     parse_tokens out = Some (as_expr c)) /\
  (exists e c out, power e neg /\ aegir_macro neg = Ok c /\ print c = Some out /\
     out = [XOp BSub; XBlock (LInt "2"); XDot; XPath "mul"; XParen [XPath "a"]; XDot; XPath "sub"; XParen [XPath "b"]] /\
     parse_tokens out =
       Some (RPrefix PNeg (RMethod (RMethod (block (LInt "2")) "mul" [RPath "a"]) "sub" [RPath "b"])) /\
     parse_tokens out <> Some (as_expr c)).
Proof.
  intros num ts neg; split; [|split].
  - intros l H; subst ts; clear num neg.
    repeat match goal with
           | H : In _ (_ :: _) |- _ => destruct H as [H|H]; try discriminate H
           | H : In _ [] |- _ => destruct H
           | H : XParen _ = XParen _ |- _ => injection H as <-
           | H : occurs _ _ |- _ => inversion H; clear H; subst
           end.
  - do 4 eexists; split; [apply C62_grammar; reflexivity|].
    split; [reflexivity|split; [reflexivity|split; [reflexivity|split; reflexivity]]].
  - do 3 eexists; split; [apply C62_grammar; reflexivity|].
    split; [reflexivity|split; [reflexivity|split; [reflexivity|split; [reflexivity|discriminate]]]].
Qed.

(** * C28 Identifiers are distinguishable *)
Theorem C28_equal : forall ds a b, NoDup (map type_id ds) -> In a ds -> In b ds ->
  exists x, eval_eq (expand ds) (type_id a) (type_id b) = Some x /\ (x = true <-> a = b).
Proof. exact ids_eq. Qed.
Print Assumptions C28_equal.

(** Distinct identifiers without an explicit symbol are displayed alike. *)
Theorem C28_display_refuted : exists ts ds a b,
  parse_ids ts = Some ds /\ NoDup (map type_id ds) /\ In a ds /\ In b ds /\ a <> b /\
  eval_display (expand ds) (type_id a) = eval_display (expand ds) (type_id b).
Proof.
  exists [TIdent "A"; TComma; TIdent "B"], [DataId "A" None; DataId "B" None], (DataId "A" None), (DataId "B" None).
  split; [reflexivity|split; [repeat constructor; simpl; intuition discriminate|]].
  split; [simpl; auto|split; [simpl; auto|split; [discriminate|reflexivity]]].
Qed.
Print Assumptions C28_display_refuted.

(** Displays differ when the symbols do, taking a missing symbol as "type_id".  Missing: lists in
    which two symbols agree. *)
Theorem C28_display_partial : forall ds a b u,
  NoDup (map type_id ds) -> NoDup (map shown ds) -> In a ds -> In b ds ->
  eval_display (expand ds) (type_id a) = Some u -> eval_display (expand ds) (type_id b) = Some u -> a = b.
Proof. exact ids_display_inj. Qed.
Print Assumptions C28_display_partial.

(** All identifiers of [aegir::ids] are distinguishable both ways. *)
Theorem C28_crate : exists ds, parse_ids crate_ids = Some ds /\ List.length ds = 50 /\
  forall a b, In a ds -> In b ds -> a <> b ->
  eval_eq (expand ds) (type_id a) (type_id b) = Some false /\
  exists u v, eval_display (expand ds) (type_id a) = Some u /\ eval_display (expand ds) (type_id b) = Some v /\ u <> v.
Proof. exact crate_distinct. Qed.
Print Assumptions C28_crate.

Example C28_example :
  let ds := [DataId "X" (Some "x"); DataId "Theta" (Some "ϑ"); DataId "Y" None] in
  NoDup (map type_id ds) /\ NoDup (map shown ds) /\
  eval_eq (expand ds) "X" "Theta" = Some false /\ eval_eq (expand ds) "X" "X" = Some true /\
  eval_display (expand ds) "Theta" = Some "ϑ" /\ eval_display (expand ds) "Y" = Some "type_id".
Proof.
  repeat (split; [first [reflexivity|repeat constructor; simpl; intuition discriminate]|]); reflexivity.
Qed.

(** * C45 What ids! accepts and defines *)
Theorem C45_syntax : forall ts ds, parse_ids ts = Some ds <-> id_list ds ts.
Proof. exact parse_list. Qed.
Print Assumptions C45_syntax.

(** Nothing is defined twice exactly when the type names are distinct. *)
Theorem C45_once : forall ds, NoDup (flat_map defines (expand ds)) <-> NoDup (map type_id ds).
Proof. exact defined_once. Qed.
Print Assumptions C45_once.

(** What is displayed: the symbol, or the text "type_id" without one; the symbol is a format
    string, so doubled braces are shown once and other braces do not compile. *)
Theorem C45_display : forall ds d, NoDup (map type_id ds) -> In d ds ->
  eval_display (expand ds) (type_id d) = format_text (shown d).
Proof. exact ids_display. Qed.
Print Assumptions C45_display.

Example C45_example :
  id_list [DataId "X" (Some "x"); DataId "Y" None] [TIdent "X"; TColon2; TIdent "x"; TComma; TIdent "Y"] /\
  parse_ids [TIdent "X"; TComma] = None /\ parse_ids [] = None /\
  ~ NoDup (flat_map defines (expand [DataId "X" None; DataId "X" (Some "x")])) /\
  eval_display (expand [DataId "X" (Some "a{{b")]) "X" = Some "a{b" /\
  eval_display (expand [DataId "X" (Some "{}")]) "X" = None.
Proof.
  split; [|split; [reflexivity|split; [reflexivity|split; [|split; reflexivity]]]].
  - apply (list_more _ [TIdent "X"; TColon2; TIdent "x"] _ [TIdent "Y"]); [constructor|].
    constructor; constructor.
  - rewrite C45_once; intro N; inversion N as [|x l H]; subst; apply H; simpl; auto.
Qed.

(** * C79 Identifiers display the letters they are named after *)

(** The full statement fails: [Tau] is displayed as a sigma. *)
Theorem C79_letters_refuted : exists ds k t, parse_ids crate_ids = Some ds /\
  nth_error greek_names k = Some t /\ eval_display (expand ds) t <> Some (utf8_two (greek_code k)) /\
  exists j u, nth_error greek_names j = Some u /\ u <> t /\
  eval_display (expand ds) t = Some (utf8_two (greek_code j)).
Proof. exact crate_letters_wrong. Qed.
Print Assumptions C79_letters_refuted.

(** All Latin identifiers, and the Greek ones except three.  Missing: those three, which are
    displayed as other characters (C80). *)
Theorem C79_letters_partial : exists ds, parse_ids crate_ids = Some ds /\
  (forall k, k < 26 -> eval_display (expand ds) (latin_capital k) = Some (latin_small k)) /\
  (forall k t, nth_error greek_names k = Some t ->
     (eval_display (expand ds) t = Some (utf8_two (greek_code k)) <->
      ~ In t ["Sigma"; "Tau"; "Upsilon"])).
Proof. exact crate_own. Qed.
Print Assumptions C79_letters_partial.

Example C79_example :
  nth_error greek_names 0 = Some "Alpha" /\ utf8_two (greek_code 0) = "α" /\
  nth_error greek_names 17 = Some "Sigma" /\ utf8_two (greek_code 17) = "σ" /\
  nth_error greek_names 18 = Some "Tau" /\ utf8_two (greek_code 18) = "τ" /\
  nth_error greek_names 23 = Some "Omega" /\ utf8_two (greek_code 23) = "ω" /\
  latin_capital 21 = "V" /\ latin_small 21 = "v".
Proof. repeat split. Qed.

(** * C80 What every identifier of [aegir::ids] displays *)
Theorem C80_symbols : exists ds, parse_ids crate_ids = Some ds /\ List.length ds = 50 /\
  (forall k, k < 26 -> eval_display (expand ds) (latin_capital k) = Some (latin_small k)) /\
  (forall k t, nth_error greek_names k = Some t ->
     eval_display (expand ds) t = Some (utf8_two (if (k <=? 19)%nat then 945 + k else 946 + k))).
Proof. exact crate_symbols. Qed.
Print Assumptions C80_symbols.

Example C80_example :
  utf8_two (945 + 17) = "ς" /\ utf8_two (945 + 18) = "σ" /\ utf8_two (945 + 19) = "τ" /\
  utf8_two (946 + 20) = "φ" /\ List.length greek_names = 24.
Proof. repeat split. Qed.
