(** Model of what the macros say when they reject their input: the [Debug] impls of their errors and
    the panics that show them (aegir_derive/src/ctx/derive.rs, aegir_derive/src/ctx/ctx_type.rs,
    aegir_derive/src/ops.rs, aegir_compile/src/lib.rs), and the doc comments written by [ids!]
    (aegir_derive/src/ids.rs).  No proofs in this file. *)
From Coq Require Import List Arith Bool String.
Import ListNotations.
From Verif Require Import Base Ids Derive Ops_derive Compile.
Local Open Scope string_scope.

(** How a macro ends: it returns, it panics with a text, or with a text written by crate syn
    (aegir_derive/src/lib.rs:14-33). *)
Inductive report := Fine | Says (s : string) | Foreign.

(** The text of [Result::unwrap] and [expect] on an error (std), ctx/derive.rs:278,
    ctx/ctx_type.rs:103 and ops.rs:126. *)
Definition unwrap_text (msg : string) : string :=
  "called `Result::unwrap()` on an `Err` value: " ++ msg.
(** The text of [Option::unwrap] on [None] (std), ctx/derive.rs:71. *)
Definition none_text : string := "called `Option::unwrap()` on a `None` value".

(** [Debug for IdParseError], ctx/derive.rs:27-41; [None]: the text of a [syn::Error]. *)
Definition id_message (e : id_error) : option string :=
  match e with
  | MetaParseError => None
  | TooFewArguments => Some "Too few arguments to #[id(.)]"
  | TooManyArguments => Some "Too many arguments to #[id(.)]"
  | Improper => Some "Incorrectly formed argument to #[id(.)]"
  | Literal => Some "Literals not supported by #[id(.)]"
  | Unsupported => Some "Unsupported attribute format."
  end.

(** [Debug for CtxFieldError], ctx/derive.rs:116-128, and [Debug for AttrParseError],
    ctx/derive.rs:49-59. *)
Definition field_message (e : field_error) : option string :=
  match e with
  | InvalidAttr => Some "Invalid attribute."
  | BadId e' => id_message e'
  | NoFieldId => Some "Field is labelled as #[cache] but has no #[id(.)] attr."
  | TooManyIds => Some "Too many #[id(.)] attributes provided."
  | ImproperCacheType => Some "Cache field must be of type Option<Buffer>."
  end.

(** [parse_field(&field).unwrap()], ctx/derive.rs:277-279.  The panics inside [parse_field] are the
    [unwrap] of ctx/derive.rs:71, reached while the attributes are parsed, and the [parse_quote!] of
    ctx/derive.rs:145. *)
Definition field_report (f : field) : report :=
  match parse_field f with
  | Ok _ => Fine
  | Err e => match field_message e with Some m => Says (unwrap_text m) | None => Foreign end
  | _ => match fd_name f, parse_attrs (fd_attrs f) with
         | Some _, Panic => Says none_text
         | _, _ => Foreign
         end
  end.

(** [FieldExtractor::fields], ctx/derive.rs:262-280: the first panic ends the macro. *)
Fixpoint fields_report (l : list field) : report :=
  match l with
  | [] => Fine
  | f :: l' => match field_report f with Fine => fields_report l' | r => r end
  end.

(** [expand], ctx/derive.rs:7-13, with [unimplemented!()] (std). *)
Definition derive_report (d : data) : report :=
  match d with DStruct l => fields_report l | DOther => Says "not implemented" end.

(** [Debug for ParseError], ctx/ctx_type.rs:10-16. *)
Definition modifier_message (m : string) : string := "Invalid modifier: " ++ m ++ ".".

(** [raw.normalise().unwrap()] on each field, ctx/ctx_type.rs:103. *)
Fixpoint raws_report (l : list raw_field) : report :=
  match l with
  | [] => Fine
  | r :: l' =>
      match normalise r, rf_modifier r with
      | None, Some m => Says (unwrap_text (modifier_message m))
      | _, _ => raws_report l'
      end
  end.

(** [expand], ctx/ctx_type.rs:99-103; the parse errors are texts of crate syn. *)
Definition ctx_type_report (ts : list ctok) : report :=
  match parse_raws (List.length ts) ts with None => Foreign | Some raws => raws_report raws end.

(** [expand_contains], ops.rs:126: [expect] shows its text and the derived [Debug] of the error
    (ops.rs:5-8); [todo!()] (std), ops.rs:117,119. *)
Definition contains_report (d : op_data) : report :=
  match op_fields d with
  | Ok _ => Fine
  | Err OpParseError => Says ("struct should have #[op] annotated successor nodes: " ++ "ParseError")
  | _ => Says "not yet implemented"
  end.

(** [aegir!], aegir_compile/src/lib.rs:133-143: [unimplemented!()] (std) at 23 and 25. *)
Definition aegir_report (e : rexpr) : report :=
  match fold_expr e with Ok _ => Fine | _ => Says "not implemented" end.

(** The doc comment of an identifier type, ids.rs:12-17. *)
Definition doc_comment (d : data_id) : string :=
  "Identifier type with symbol `" ++ (match symbol d with Some s => s | None => type_id d end) ++ "`.".
