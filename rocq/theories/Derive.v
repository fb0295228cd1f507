(** Model of [#[derive(Context)]] (aegir_derive/src/ctx/derive.rs), of [ctx_type!]
    (aegir_derive/src/ctx/ctx_type.rs) and of the contexts they generate.  Rust syntax (crate syn)
    is represented as far as the macros look at it.  No proofs in this file. *)
From Coq Require Import List Arith Bool String.
Import ListNotations.
From Verif Require Import Base Shapes Scalar Buffers Spec.
Local Open Scope string_scope.

(** * Syntax *)

(** Paths in attributes ([syn::Path]; used in derive.rs:69,91). *)
Record path : Type := Path { p_lead : bool; p_segs : list string }.

(** [Path::get_ident] (syn), used in derive.rs:69,91 and ctx_type.rs:123. *)
Definition get_ident (p : path) : option string :=
  if p_lead p then None else match p_segs p with [s] => Some s | _ => None end.

(** Arguments of a list attribute ([syn::NestedMeta], derive.rs:67-75): a path, another meta item,
    a literal. *)
Inductive nested_meta := NPath (p : path) | NMeta | NLit.

(** Result of [Attribute::parse_meta] (syn; derive.rs:65): an error, a list, anything else. *)
Inductive meta := MetaErr | MList (l : list nested_meta) | MetaOther.

(** An attribute ([syn::Attribute], derive.rs:62,90). *)
Record attr : Type := Attr { at_path : path; at_meta : meta }.

(** Types ([syn::Type], derive.rs:130-152).  [TyPath qself lead segs]; [TyOther] is every other
    type (arrays, tuples, references, ..).  Generic arguments are types or something else
    (lifetimes, constants, bindings); [trailing] says whether a comma follows the last one. *)
Inductive ty :=
| TyPath (qself lead : bool) (segs : list seg)
| TyOther
with seg := Seg (name : string) (args : seg_args)
with seg_args := ANone | AAngle (args : list garg) (trailing : bool) | AParen
with garg := GType (t : ty) | GOther.

(** A struct field ([syn::Field], derive.rs:158). *)
Record field : Type := Field { fd_name : option string; fd_attrs : list attr; fd_ty : ty }.

(** * derive.rs *)

(** [enum IdParseError], derive.rs:17-26. *)
Inductive id_error :=
| MetaParseError | TooFewArguments | TooManyArguments | Improper | Literal | Unsupported.

(** [enum CtxFieldError], derive.rs:107-114, with [AttrParseError] (43-47) merged in. *)
Inductive field_error :=
| InvalidAttr | BadId (e : id_error) | NoFieldId | TooManyIds | ImproperCacheType.

(** [parse_id_attr], derive.rs:62-81; [get_ident().unwrap()] panics on other paths. *)
Definition parse_id_attr (m : meta) : res id_error string :=
  match m with
  | MetaErr => Err MetaParseError
  | MList [] => Err TooFewArguments
  | MList (_ :: _ :: _) => Err TooManyArguments
  | MList [NPath p] => opt_unwrap (get_ident p)
  | MList [NMeta] => Err Improper
  | MList [NLit] => Err Literal
  | MetaOther => Err Unsupported
  end.

(** [enum CtxAttr], derive.rs:83-88. *)
Inductive ctx_attr := AIdent (s : string) | ACache | AUnknown.

(** [CtxAttr::parse_attr], derive.rs:90-104. *)
Definition parse_attr (a : attr) : res field_error ctx_attr :=
  match get_ident (at_path a) with
  | Some s =>
      if String.eqb s "cache" then Ok ACache
      else if String.eqb s "id" then res_map AIdent (res_map_err BadId (parse_id_attr (at_meta a)))
      else Ok AUnknown
  | None => Err InvalidAttr
  end.

(** Segments that the parser of [syn::PathSegment] accepts: no parenthesised arguments
    (derive.rs:145; syn). *)
Definition plain_seg (s : seg) : bool := match s with Seg _ AParen => false | _ => true end.

(** [parse_quote! { #ab_args }] as path segments, derive.rs:145: panics unless the tokens between
    the angle brackets are nothing or a path. *)
Definition args_as_segments {E} (args : list garg) (trailing : bool) : res E (list seg) :=
  match args, trailing with
  | [], false => Ok []
  | [GType (TyPath false false segs)], false => if forallb plain_seg segs then Ok segs else Panic
  | _, _ => Panic
  end.

(** [parse_ty_cache], derive.rs:130-156. *)
Definition parse_ty_cache (t : ty) : res field_error ty :=
  match t with
  | TyPath q l (Seg s (AAngle args trailing) :: _) =>
      if String.eqb s "Option"
      then res_map (TyPath q l) (args_as_segments args trailing)
      else Err ImproperCacheType
  | _ => Err ImproperCacheType
  end.

(** [struct CtxField], ctx/mod.rs:1-10. *)
Record ctx_field : Type := CtxField {
  cf_name : string; cf_ty : ty; cf_bty : ty; cf_ident : option string; cf_cache : bool
}.

(** [.map(parse_attr).collect::<Result<Vec<_>, _>>()?], derive.rs:164-168. *)
Fixpoint parse_attrs (l : list attr) : res field_error (list ctx_attr) :=
  match l with
  | [] => Ok []
  | a :: l' => res_bind (parse_attr a) (fun x => res_map (cons x) (parse_attrs l'))
  end.

(** The loop over the attributes, derive.rs:161-162,170-180; returns [is_cache] and [field_ident]. *)
Fixpoint scan_attrs (l : list ctx_attr) (cache : bool) (id : option string)
  : res field_error (bool * option string) :=
  match l with
  | [] => Ok (cache, id)
  | AUnknown :: l' => scan_attrs l' cache id
  | ACache :: l' => scan_attrs l' true id
  | AIdent s :: l' =>
      match id with Some _ => Err TooManyIds | None => scan_attrs l' cache (Some s) end
  end.

(** [parse_field], derive.rs:158-201. *)
Definition parse_field (f : field) : res field_error ctx_field :=
  match fd_name f with
  | None => Err NoFieldId
  | Some name =>
      res_bind (parse_attrs (fd_attrs f)) (fun attrs =>
      res_bind (scan_attrs attrs false None) (fun ci =>
      let (cache, id) := ci in
      match cache, id with
      | true, None => Err NoFieldId
      | _, _ =>
          res_map (fun bty => CtxField name (fd_ty f) bty id cache)
                  (if cache then parse_ty_cache (fd_ty f) else Ok (fd_ty f))
      end))
  end.

(** The item the derive is applied to ([syn::Data], derive.rs:7-13). *)
Inductive data := DStruct (fields : list field) | DOther.

(** [FieldExtractor::fields], derive.rs:262-280: [parse_field(..).unwrap()] on each field. *)
Fixpoint extract_fields (l : list field) : res unit (list ctx_field) :=
  match l with
  | [] => Ok []
  | f :: l' => res_bind (res_unwrap (parse_field f)) (fun c => res_map (cons c) (extract_fields l'))
  end.

(** [expand] and [ctx_struct_impl], derive.rs:7-13,282-300: the fields for which impls are
    generated, i.e. those with an identifier; a panic aborts compilation. *)
Definition derive_context (d : data) : res unit (list ctx_field) :=
  match d with
  | DStruct fields =>
      res_map (filter (fun f => match cf_ident f with Some _ => true | None => false end))
              (extract_fields fields)
  | DOther => Panic
  end.

(** * ctx_type.rs *)

(** [struct CtxFieldRaw], ctx_type.rs:18-23. *)
Record raw_field : Type := RawField {
  rf_modifier : option string; rf_name : string; rf_ident : string
}.

(** Tokens inside the braces of [ctx_type!] (proc_macro2), read at ctx_type.rs:55-97. *)
Inductive ctok := KIdent (s : string) | KColon | KComma | KOther.

(** [Parse for CtxFieldRaw], ctx_type.rs:55-79. *)
Definition parse_raw (ts : list ctok) : option (raw_field * list ctok) :=
  match ts with
  | KIdent m :: KIdent n :: KColon :: KIdent i :: r => Some (RawField (Some m) n i, r)
  | KIdent n :: KColon :: KIdent i :: r => Some (RawField None n i, r)
  | _ => None
  end.

(** [content.parse_terminated(CtxFieldRaw::parse)], ctx_type.rs:94 (syn): a trailing comma is
    allowed.  [fuel] bounds the recursion; the number of tokens is enough. *)
Fixpoint parse_raws (fuel : nat) (ts : list ctok) : option (list raw_field) :=
  match ts, fuel with
  | [], _ => Some []
  | _, 0 => None
  | _, S fuel =>
      match parse_raw ts with
      | None => None
      | Some (f, []) => Some [f]
      | Some (f, KComma :: r) => option_map (cons f) (parse_raws fuel r)
      | Some (_, _) => None
      end
  end.

(** [CtxFieldRaw::normalise], ctx_type.rs:26-52; [None] is [InvalidModifier]. *)
Definition normalise (f : raw_field) : option ctx_field :=
  let bty := TyPath false false [Seg ("__" ++ rf_ident f) ANone] in
  let mk (cache : bool) :=
    CtxField (rf_name f)
             (if cache then TyPath false false [Seg "Option" (AAngle [GType bty] false)] else bty)
             bty (Some (rf_ident f)) cache in
  match rf_modifier f with
  | None => Some (mk false)
  | Some m => if String.eqb m "cache" then Some (mk true) else None
  end.

(** The attribute [#[id(X)]] emitted at ctx_type.rs:106-110. *)
Definition id_attr (i : string) : attr := Attr (Path false ["id"]) (MList [NPath (Path false [i])]).
(** The attribute [#[cache]] emitted at ctx_type.rs:107. *)
Definition cache_attr : attr := Attr (Path false ["cache"]) MetaOther.

(** One field of the emitted struct, ctx_type.rs:104-117. *)
Definition emit_field (f : ctx_field) : field :=
  let id := match cf_ident f with Some i => [id_attr i] | None => [] end in
  Field (Some (cf_name f)) (if cf_cache f then cache_attr :: id else id) (cf_ty f).

(** [expand], ctx_type.rs:99-139: the struct given to the derive; [None] is a panic (parse error or
    invalid modifier).  The name and the generics of the struct are left out. *)
Definition ctx_type (ts : list ctok) : option data :=
  match parse_raws (List.length ts) ts with
  | None => None
  | Some raws =>
      let fields := map normalise raws in
      if forallb (fun o => match o with Some _ => true | None => false end) fields
      then Some (DStruct (flat_map (fun o => match o with Some f => [emit_field f] | None => [] end) fields))
      else None
  end.

(** * Generated contexts *)

Section Contexts.
Context {F : Type} {S : Scalar F}.

(** Content of a struct field: a buffer, or an optional buffer for cache fields, ctx/derive.rs:203-260. *)
Inductive slot := Plain (v : value F) | Cell (o : option (value F)).

(** A value of the struct: its fields by name (derive.rs:214,221,230,237,249,256).  Simplified:
    a total function, and buffers of all types in one type. *)
Definition struct_val : Type := string -> slot.

(** The impl selected for an identifier: the field whose [#[id(..)]] it is (derive.rs:297-330).
    [None]: no impl, does not compile. *)
Definition impl_for (fs : list ctx_field) (i : string) : option ctx_field :=
  find (fun f => match cf_ident f with Some j => String.eqb i j | None => false end) fs.

(** Generated [read_spec], derive.rs:209-215 (cache) and 225-231 (plain).  A slot of the wrong kind
    does not typecheck and gives [None]. *)
Definition gen_read_spec (fs : list ctx_field) (st : struct_val) (i : string) : option (spec F) :=
  match impl_for fs i with
  | None => None
  | Some f =>
      if cf_cache f
      then match st (cf_name f) with Cell o => option_map (@into_spec F) o | Plain _ => None end
      else match st (cf_name f) with Plain v => Some (into_spec v) | Cell _ => None end
  end.

(** Generated [read_shape], derive.rs:216-222 and 232-238. *)
Definition gen_read_shape (fs : list ctx_field) (st : struct_val) (i : string) : option shape :=
  match impl_for fs i with
  | None => None
  | Some f =>
      if cf_cache f
      then match st (cf_name f) with Cell o => option_map (@vshape F) o | Plain _ => None end
      else match st (cf_name f) with Plain v => Some (vshape v) | Cell _ => None end
  end.

(** Generated [read], derive.rs:318-322. *)
Definition gen_read (fs : list ctx_field) (st : struct_val) (i : string) : option (value F) :=
  option_map unwrap (gen_read_spec fs st i).

(** Generated [write], derive.rs:246-251 and 253-258. *)
Definition gen_write (fs : list ctx_field) (st : struct_val) (i : string) (v : value F) : struct_val :=
  match impl_for fs i with
  | None => st
  | Some f =>
      fun n => if String.eqb n (cf_name f) then (if cf_cache f then Cell (Some v) else Plain v) else st n
  end.

(** [Write::write_spec], aegir/src/lib.rs:110-112. *)
Definition gen_write_spec (fs : list ctx_field) (st : struct_val) (i : string) (s : spec F) : struct_val :=
  gen_write fs st i (unwrap s).

End Contexts.
Arguments slot : clear implicits.
Arguments struct_val : clear implicits.
