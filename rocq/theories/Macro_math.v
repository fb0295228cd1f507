(** Vocabulary for the macros.  Specification side; nothing here models code. *)
From Coq Require Import List Arith Bool String Ascii.
Import ListNotations.
From Verif Require Import Base Shapes Scalar Buffers Spec Node Eval Vocab Math Ids Derive Compile Syntax.

(** Syntax of [ids!]: a non-empty list, separated by commas, of [T], [T::sym] or [T::"sym"]. *)
Inductive id_entry : data_id -> list token -> Prop :=
| entry_plain t : id_entry (DataId t None) [TIdent t]
| entry_ident t s : id_entry (DataId t (Some s)) [TIdent t; TColon2; TIdent s]
| entry_str t s : id_entry (DataId t (Some s)) [TIdent t; TColon2; TStr s].
Inductive id_list : list data_id -> list token -> Prop :=
| list_one d ts : id_entry d ts -> id_list [d] ts
| list_more d ts ds r : id_entry d ts -> id_list ds r -> id_list (d :: ds) (ts ++ TComma :: r).

(** The symbol shown for an identifier: without an explicit symbol, the text "type_id". *)
Definition shown (d : data_id) : string :=
  match symbol d with Some s => s | None => "type_id"%string end.

(** * Fields of a context struct *)
Definition path_dec (p q : path) : {p = q} + {p <> q}.
Proof. decide equality; [apply (list_eq_dec string_dec)|apply bool_dec]. Defined.

(** Paths [id] and [cache]. *)
Definition id_path : path := Path false ["id"%string].
Definition cache_path : path := Path false ["cache"%string].

(** A type whose outermost segment is [Option<..>]. *)
Definition option_type (t : ty) (args : list garg) (trailing : bool) : Prop :=
  exists q l rest, t = TyPath q l (Seg "Option" (AAngle args trailing) :: rest).

(** The conditions of property C16 on a field. *)
Record described (f : field) : Prop := {
  de_name : fd_name f <> None;
  de_id : forall a, In a (fd_attrs f) -> at_path a = id_path ->
          exists i, at_meta a = MList [NPath (Path false [i])];
  de_ids : count_occ path_dec (map at_path (fd_attrs f)) id_path <= 1;
  de_cache : In cache_path (map at_path (fd_attrs f)) ->
             In id_path (map at_path (fd_attrs f)) /\ exists args tr, option_type (fd_ty f) args tr
}.

(** Two more conditions: every attribute path is one identifier, and what stands between the angle
    brackets of a cache type is nothing or a path. *)
Definition single_paths (f : field) : Prop :=
  forall a, In a (fd_attrs f) -> exists s, at_path a = Path false [s].
Definition path_argument (args : list garg) (trailing : bool) : Prop :=
  trailing = false /\
  (args = [] \/ exists segs, args = [GType (TyPath false false segs)] /\
                            forall n, ~ In (Seg n AParen) segs).
Definition cache_type_ok (f : field) : Prop :=
  In cache_path (map at_path (fd_attrs f)) ->
  forall args tr, option_type (fd_ty f) args tr -> path_argument args tr.

(** Fields of [ctx_type!]: [name: Ident] or [modifier name: Ident], separated by commas, the last
    comma optional. *)
Inductive field_tokens : raw_field -> list ctok -> Prop :=
| ft_plain n i : field_tokens (RawField None n i) [KIdent n; KColon; KIdent i]
| ft_mod m n i : field_tokens (RawField (Some m) n i) [KIdent m; KIdent n; KColon; KIdent i].
Inductive field_list : list raw_field -> list ctok -> Prop :=
| fl_none : field_list [] []
| fl_last r ts : field_tokens r ts -> field_list [r] ts
| fl_more r ts rs rest : field_tokens r ts -> field_list rs rest -> field_list (r :: rs) (ts ++ KComma :: rest).

(** Modifiers known to [ctx_type!]. *)
Definition known_modifier (r : raw_field) : Prop :=
  rf_modifier r = None \/ rf_modifier r = Some "cache"%string.

(** [f] is the context field described by [r]. *)
Definition describes (r : raw_field) (f : ctx_field) : Prop :=
  cf_name f = rf_name r /\ cf_ident f = Some (rf_ident r) /\
  (cf_cache f = true <-> rf_modifier r = Some "cache"%string) /\
  cf_bty f = TyPath false false [Seg ("__" ++ rf_ident r) ANone].

(** * Generated contexts *)
(** What rustc checks: field names are distinct, no identifier has two impls, and the slots have
    the kind of their field. *)
Record compiled {F} (fs : list ctx_field) (st : struct_val F) : Prop := {
  co_names : NoDup (map cf_name fs);
  co_ids : forall f g i, In f fs -> In g fs -> cf_ident f = Some i -> cf_ident g = Some i -> f = g;
  co_slots : forall f, In f fs ->
             if cf_cache f then exists o, st (cf_name f) = Cell o else exists v, st (cf_name f) = Plain v
}.

(** The last value written to [i] in a history of writes. *)
Fixpoint last_write {V} (ws : list (string * V)) (i : string) : option V :=
  match ws with
  | [] => None
  | (j, v) :: ws' =>
      match last_write ws' i with Some w => Some w | None => if String.eqb j i then Some v else None end
  end.
Definition run_writes {F} {S : Scalar F} (fs : list ctx_field) (st : struct_val F)
           (ws : list (string * value F)) : struct_val F :=
  fold_left (fun st w => gen_write fs st (fst w) (snd w)) ws st.

(** The context of Eval.v that a struct stands for, when [name] gives the type names of the
    identifiers. *)
Definition ctx_of {F} {S : Scalar F} (name : ident -> string) (fs : list ctx_field) (st : struct_val F)
  : ctx F := fun i => gen_read fs st (name i).

(** * Source expressions of [aegir!] *)
(** Subexpressions. *)
Inductive inside : rexpr -> rexpr -> Prop :=
| in_self e : inside e e
| in_left s op l r : inside s l -> inside s (RBin op l r)
| in_right s op l r : inside s r -> inside s (RBin op l r)
| in_paren s e : inside s e -> inside s (RParen e)
| in_recv s e m args : inside s e -> inside s (RMethod e m args)
| in_arg s e m args a : In a args -> inside s a -> inside s (RMethod e m args)
| in_prefix s p e : inside s e -> inside s (RPrefix p e)
| in_child s cs a : In a cs -> inside s a -> inside s (ROther cs).

(** Operators other than [+], [-], [*] and [^]. *)
Definition unsupported (op : binop) : Prop := op = BDiv \/ op = BOther.

(** The literals [2] and [2.0]. *)
Definition two (e : rexpr) : Prop := e = RLit (LInt "2") \/ e = RLit (LFloat "2.0").

Section Source.
Context {F : Type} {S : Scalar F}.
Variable um : unop -> F -> F.
Variable rho : ctx F.
Variable env : string -> option (node F).
Variable val : lit -> F.

(** Tensors of two subexpressions combined. *)
Definition combine (f : F -> F -> F) (a b : option (tensor F)) : option (tensor F) :=
  match a, b with Some x, Some y => Some (pointwise f x y) | _, _ => None end.

(** Methods of nodes: functions of every entry, and of the entries of two tensors. *)
Definition unary_method (m : string) : option unop :=
  if String.eqb m "squared" then Some Square
  else if String.eqb m "abs" then Some Abs
  else if String.eqb m "neg" then Some Negate
  else if String.eqb m "ln" then Some Ln
  else if String.eqb m "sigmoid" then Some Sigmoid
  else None.
Definition binary_method (m : string) : option (F -> F -> F) :=
  if String.eqb m "add" then Some fadd
  else if String.eqb m "sub" then Some fsub
  else if String.eqb m "mul" then Some fmul
  else if String.eqb m "div" then Some fdiv
  else if String.eqb m "pow" then Some fpow
  else None.
Definition each (f : F -> F) (a : tensor F) : tensor F := Tensor (tdims a) (fun ix => f (tat a ix)).
Definition total (a : tensor F) : tensor F := Tensor [] (fun _ => sum_over (all_ix (tdims a)) (tat a)).
(** The inner product of two scalars or two arrays. *)
Definition dot_product (a b : option (tensor F)) : option (tensor F) :=
  match a, b with
  | Some x, Some y =>
      match tdims x, tdims y with
      | [], _ :: _ | _ :: _, [] => None
      | _, _ => Some (inner x y)
      end
  | _, _ => None
  end.

(** Arithmetic value of an expression of paths, number literals, parentheses, [+], [-], [*], [^]
    and calls of the methods above, [sum] and [dot], reading [^] as the power; [val] gives the
    values of the literals. *)
Fixpoint meaning (e : rexpr) : option (tensor F) :=
  match e with
  | RBin BAdd l r => combine fadd (meaning l) (meaning r)
  | RBin BSub l r => combine fsub (meaning l) (meaning r)
  | RBin BMul l r => combine fmul (meaning l) (meaning r)
  | RBin BXor l r => combine fpow (meaning l) (meaning r)
  | RLit (LInt t) => Some (Tensor [] (fun _ => val (LInt t)))
  | RLit (LFloat t) => Some (Tensor [] (fun _ => val (LFloat t)))
  | RParen e => meaning e
  | RPath p => option_map (den um rho) (env p)
  | RMethod r m [] =>
      match unary_method m with
      | Some u => option_map (each (um u)) (meaning r)
      | None => if String.eqb m "sum" then option_map total (meaning r) else None
      end
  | RMethod r m [a] =>
      match binary_method m with
      | Some f => combine f (meaning r) (meaning a)
      | None => if String.eqb m "dot" then dot_product (meaning r) (meaning a) else None
      end
  | _ => None
  end.

(** Base and exponent of every power are scalars, except that everything can be squared: [Power] is
    only a node for scalars. *)
Fixpoint scalar_powers (e : rexpr) : Prop :=
  match e with
  | RBin BXor l r =>
      scalar_powers l /\ scalar_powers r /\
      (two r \/ forall a b, meaning l = Some a -> meaning r = Some b -> tdims a = [] /\ tdims b = [])
  | RBin _ l r => scalar_powers l /\ scalar_powers r
  | RParen e => scalar_powers e
  | RMethod r m [] => scalar_powers r
  | RMethod r m [a] =>
      scalar_powers r /\ scalar_powers a /\
      (m = "pow"%string -> forall x y, meaning r = Some x -> meaning a = Some y -> tdims x = [] /\ tdims y = [])
  | _ => True
  end.

(** Everything the converted expression mentions has the type of the tree: paths are bound to
    nodes, literals other than squaring exponents have the scalar type. *)
Fixpoint in_scope (num : lit -> option F) (e : rexpr) : Prop :=
  match e with
  | RBin BXor l r => in_scope num l /\ (two r \/ in_scope num r)
  | RBin _ l r => in_scope num l /\ in_scope num r
  | RLit l => num l <> None
  | RParen e => in_scope num e
  | RPath p => env p <> None
  | RMethod r _ [] => in_scope num r
  | RMethod r _ [a] => in_scope num r /\ in_scope num a
  | _ => True
  end.

End Source.

(** Expressions of paths, number literals, parentheses, [+], [-], [*], [^] and calls of the
    elementwise methods. *)
Fixpoint arithmetic (e : rexpr) : Prop :=
  match e with
  | RBin op l r => ~ unsupported op /\ arithmetic l /\ arithmetic r
  | RLit (LOther _) => False
  | RLit _ => True
  | RParen e => arithmetic e
  | RPath _ => True
  | RMethod r m [] => arithmetic r /\ In m ["squared"; "abs"; "neg"; "ln"; "sigmoid"]%string
  | RMethod r m [a] => arithmetic r /\ arithmetic a /\ In m ["add"; "sub"; "mul"; "div"; "pow"]%string
  | _ => False
  end.

(** * Operator structs *)
(** Exactly one attribute of a field is [#[op]]. *)
Definition op_path : path := Path false ["op"%string].
Definition one_op (f : field) : Prop := count_occ path_dec (map at_path (fd_attrs f)) op_path = 1.

(** * Syntax of the argument of aegir! *)
(** The grammar, one category per level of binding:
<<
  power   ::= sum | power ^ sum
  sum     ::= product | sum + product | sum - product
  product ::= unary | product * unary | product / unary | product % unary
  unary   ::= operand | - unary | * unary | ! unary | & unary
  operand ::= path | literal | block | ( power ) | operand . path ( args )
  args    ::= nothing | power | power , args
>>
*)
Inductive power : rexpr -> list tok -> Prop :=
| power_sum e ts : sum_of e ts -> power e ts
| power_xor l r tl tr : power l tl -> sum_of r tr -> power (RBin BXor l r) (tl ++ XOp BXor :: tr)
with sum_of : rexpr -> list tok -> Prop :=
| sum_product e ts : product e ts -> sum_of e ts
| sum_add l r tl tr : sum_of l tl -> product r tr -> sum_of (RBin BAdd l r) (tl ++ XOp BAdd :: tr)
| sum_sub l r tl tr : sum_of l tl -> product r tr -> sum_of (RBin BSub l r) (tl ++ XOp BSub :: tr)
with product : rexpr -> list tok -> Prop :=
| product_unary e ts : unary e ts -> product e ts
| product_mul l r tl tr : product l tl -> unary r tr -> product (RBin BMul l r) (tl ++ XOp BMul :: tr)
| product_div l r tl tr : product l tl -> unary r tr -> product (RBin BDiv l r) (tl ++ XOp BDiv :: tr)
| product_rem l r tl tr : product l tl -> unary r tr -> product (RBin BOther l r) (tl ++ XOp BOther :: tr)
with unary : rexpr -> list tok -> Prop :=
| unary_operand e ts : operand e ts -> unary e ts
| unary_neg e ts : unary e ts -> unary (RPrefix PNeg e) (XOp BSub :: ts)
| unary_deref e ts : unary e ts -> unary (RPrefix PDeref e) (XOp BMul :: ts)
| unary_not e ts : unary e ts -> unary (RPrefix PNot e) (XBang :: ts)
| unary_ref e ts : unary e ts -> unary (RPrefix PRef e) (XAmp :: ts)
with operand : rexpr -> list tok -> Prop :=
| operand_path p : operand (RPath p) [XPath p]
| operand_lit l : operand (RLit l) [XLit l]
| operand_block l : operand (block l) [XBlock l]
| operand_paren e ts : power e ts -> operand (RParen e) [XParen ts]
| operand_method e m args ts ta : operand e ts -> arguments args ta ->
    operand (RMethod e m args) (ts ++ [XDot; XPath m; XParen ta])
with arguments : list rexpr -> list tok -> Prop :=
| args_none : arguments [] []
| args_last e ts : power e ts -> arguments [e] ts
| args_more e ts es r : power e ts -> arguments es r -> arguments (e :: es) (ts ++ XComma :: r).

(** A token occurs, possibly inside parentheses. *)
Inductive occurs (t : tok) : list tok -> Prop :=
| occurs_here ts : In t ts -> occurs t ts
| occurs_group g ts : In (XParen g) ts -> occurs t g -> occurs t ts.

(** * The tokens returned by aegir! *)
(** An expression with one of the prefix operators outermost. *)
Definition prefixed (e : rexpr) : Prop := exists p x, e = RPrefix p x.

(** A call binds tighter than a prefix operator: printed without parentheses, the prefix operators
    of a receiver stand before the whole call. *)
Fixpoint under_prefixes (f : rexpr -> rexpr) (e : rexpr) : rexpr :=
  match e with RPrefix p x => RPrefix p (under_prefixes f x) | _ => f e end.
Fixpoint reread (e : rexpr) : rexpr :=
  match e with
  | RMethod r m args => under_prefixes (fun b => RMethod b m (map reread args)) (reread r)
  | RPrefix p x => RPrefix p (reread x)
  | RParen x => RParen (reread x)
  | _ => e
  end.

(** Fields with an [id] attribute. *)
Definition identified (f : field) : bool :=
  if in_dec path_dec id_path (map at_path (fd_attrs f)) then true else false.

(** * Alphabets *)

(** UTF-8 encoding of the code points from 128 to 2047. *)
Definition utf8_two (cp : nat) : string :=
  String (ascii_of_nat (192 + cp / 64)) (String (ascii_of_nat (128 + cp mod 64)) EmptyString).

(** Names of the Greek letters, in order. *)
Definition greek_names : list string :=
  ["Alpha"; "Beta"; "Gamma"; "Delta"; "Epsilon"; "Zeta"; "Eta"; "Theta"; "Iota"; "Kappa"; "Lambda"; "Mu";
   "Nu"; "Xi"; "Omicron"; "Pi"; "Rho"; "Sigma"; "Tau"; "Upsilon"; "Phi"; "Chi"; "Psi"; "Omega"]%string.

(** Unicode has them in order from 945 (hexadecimal 3B1), with the final form of sigma between rho
    (961) and sigma (963). *)
Definition greek_code (k : nat) : nat := if k <=? 16 then 945 + k else 946 + k.

(** The capital and the small letter number [k] of the Latin alphabet. *)
Definition latin_capital (k : nat) : string := String (ascii_of_nat (65 + k)) EmptyString.
Definition latin_small (k : nat) : string := String (ascii_of_nat (97 + k)) EmptyString.

(** Letters and their small letters. *)
Definition capitals : string := "ABCDEFGHIJKLMNOPQRSTUVWXYZ".
Definition smalls : string := "abcdefghijklmnopqrstuvwxyz".
Fixpoint beside (above below : string) (c : ascii) : ascii :=
  match above, below with
  | String a above', String b below' => if ascii_dec c a then b else beside above' below' c
  | _, _ => c
  end.
