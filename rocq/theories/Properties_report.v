(** What the macros say: C70, C71. *)
From Coq Require Import List Arith Bool String Ascii.
Import ListNotations.
From Verif Require Import Base Shapes Scalar Buffers Spec Node Eval Ids Derive Ops_derive Compile Report
  Vocab Math Macro_math Report_math Report_claims.
Local Open Scope string_scope.

(** * C70 What the macros report when they reject their input *)

(** The derive is silent exactly when it succeeds. *)
Theorem C70_silent : forall d, derive_report d = Fine <-> exists fs, derive_context d = Ok fs.
Proof. exact struct_fine. Qed.
Print Assumptions C70_silent.

(** Otherwise it panics, which aborts compilation; it never returns an error. *)
Theorem C70_aborts : forall d, derive_context d = Panic <-> forall fs, derive_context d <> Ok fs.
Proof. exact derive_panics. Qed.
Print Assumptions C70_aborts.

(** What it reports then is the fault of the first field that has one. *)
Theorem C70_struct : forall d r,
  (derive_report d = r /\ r <> Fine) <->
  (d = DOther /\ r = Says "not implemented") \/
  exists l1 f l2, d = DStruct (l1 ++ f :: l2)%list /\
    (forall g s, In g l1 -> ~ field_fault g s) /\ field_fault f r.
Proof. exact struct_report. Qed.
Print Assumptions C70_struct.

(** In a field: a missing name, then the first attribute with a fault, then more than one [id], then
    a cache without [id], then the type of a cache. *)
Theorem C70_field : forall f r, field_fault f r <-> field_report f = r /\ r <> Fine.
Proof. exact fault_report. Qed.
Print Assumptions C70_field.

(** Fields of tuple structs are reported as caches without [id], whatever they are marked with. *)
Theorem C70_unnamed : forall f, fd_name f = None ->
  field_report f = shown_error "Field is labelled as #[cache] but has no #[id(.)] attr.".
Proof. exact unnamed_report. Qed.
Print Assumptions C70_unnamed.

(** [ctx_type!]: silent when it succeeds, the text of the parser when the fields cannot be read, and
    otherwise the first unknown modifier. *)
Theorem C70_ctx_type : forall ts,
  (ctx_type_report ts = Fine <-> exists d, ctx_type ts = Some d) /\
  (ctx_type_report ts = Foreign <-> forall rs, ~ field_list rs ts) /\
  (forall rs m, field_list rs ts ->
   (ctx_type_report ts = shown_error ("Invalid modifier: " ++ m ++ ".") <->
    exists rs1 r rs2, rs = (rs1 ++ r :: rs2)%list /\ (forall q, In q rs1 -> known_modifier q) /\
      rf_modifier r = Some m /\ ~ known_modifier r)).
Proof.
  intro ts; split; [apply modifier_fine|split; [apply modifier_syntax|]].
  intros rs m L; apply modifier_report; auto.
Qed.
Print Assumptions C70_ctx_type.

(** [derive(Contains)]. *)
Theorem C70_contains : forall d,
  (contains_report d = Fine <-> exists l, (d = ONamed l \/ d = OUnnamed l) /\ Forall one_op l) /\
  (contains_report d = Says "struct should have #[op] annotated successor nodes: ParseError" <->
   exists l, (d = ONamed l \/ d = OUnnamed l) /\ ~ Forall one_op l) /\
  (contains_report d = Says "not yet implemented" <-> forall l, d <> ONamed l /\ d <> OUnnamed l).
Proof. exact contains_reports. Qed.
Print Assumptions C70_contains.

(** [aegir!]: every unsupported operator gives the same text, which does not name it. *)
Theorem C70_aegir : forall e,
  (aegir_report e = Fine \/ aegir_report e = Says "not implemented") /\
  (aegir_report e = Says "not implemented" <-> exists op l r, inside (RBin op l r) e /\ unsupported op).
Proof. exact aegir_reports. Qed.
Print Assumptions C70_aegir.

(** [struct S { #[id(X)] x: f64, #[cache] c: Option<f64>, #[id] y: f64 }] is reported for [c];
    [struct S(#[id(X)] f64)] for a cache it does not have. *)
Example C70_example :
  let f64 := TyPath false false [Seg "f64" ANone] in
  let opt := TyPath false false [Seg "Option" (AAngle [GType f64] false)] in
  let x := Field (Some "x") [id_attr "X"] f64 in
  let c := Field (Some "c") [cache_attr] opt in
  let y := Field (Some "y") [Attr (Path false ["id"]) MetaOther] f64 in
  derive_report (DStruct [x; c; y]) = shown_error "Field is labelled as #[cache] but has no #[id(.)] attr." /\
  derive_report (DStruct [x; y; c]) = shown_error "Unsupported attribute format." /\
  field_fault y (shown_error "Unsupported attribute format.") /\
  fd_name (Field None [id_attr "X"] f64) = None /\ ~ marked (Field None [id_attr "X"] f64) /\
  derive_report (DStruct [Field None [id_attr "X"] f64]) =
    shown_error "Field is labelled as #[cache] but has no #[id(.)] attr." /\
  derive_report (DStruct [Field (Some "z") [id_attr "X"; id_attr "X"] f64]) =
    shown_error "Too many #[id(.)] attributes provided." /\
  derive_report (DStruct [Field (Some "z") [cache_attr; id_attr "X"] f64]) =
    shown_error "Cache field must be of type Option<Buffer>." /\
  ctx_type_report [KIdent "x"; KColon; KIdent "X"; KComma; KIdent "mut"; KIdent "y"; KColon; KIdent "Y"] =
    shown_error "Invalid modifier: mut." /\
  contains_report (OUnnamed [op_of "N"; Field None [] TyOther]) =
    Says "struct should have #[op] annotated successor nodes: ParseError" /\
  aegir_report (RBin BAdd (RPath "x") (RBin BDiv (RPath "y") (RPath "z"))) = Says "not implemented".
Proof.
  intros f64 opt x c y.
  split; [reflexivity|split; [reflexivity|split]].
  { apply ff_attr with (l1 := []) (a := Attr (Path false ["id"]) MetaOther) (l2 := []);
      [discriminate|reflexivity|intros a r []|apply af_other; reflexivity]. }
  split; [reflexivity|split; [intros [H|[]]; discriminate|]].
  repeat (split; [reflexivity|]); reflexivity.
Qed.

(** * C71 Doc comments of identifiers *)

(** The doc comment names the text that is shown exactly when the identifier has a symbol without
    braces, or has none and is called [type_id]. *)
Theorem C71_doc : forall ds d u, NoDup (map type_id ds) -> In d ds ->
  eval_display (Ids.expand ds) (type_id d) = Some u ->
  (doc_comment d = ("Identifier type with symbol `" ++ u ++ "`.") <->
   match symbol d with
   | Some s => forall a, In a (list_ascii_of_string s) -> a <> "{"%char /\ a <> "}"%char
   | None => type_id d = "type_id"
   end).
Proof. exact doc_shown. Qed.
Print Assumptions C71_doc.

(** [ids!(X::x, Y, Z::"{{z}}")] *)
Example C71_example :
  let ds := [DataId "X" (Some "x"); DataId "Y" None; DataId "Z" (Some "{{z}}")] in
  NoDup (map type_id ds) /\
  map (eval_display (Ids.expand ds)) ["X"; "Y"; "Z"] = [Some "x"; Some "type_id"; Some "{z}"] /\
  map doc_comment ds =
    ["Identifier type with symbol `x`."; "Identifier type with symbol `Y`."; "Identifier type with symbol `{{z}}`."].
Proof.
  split; [repeat constructor; simpl; intuition discriminate|split; reflexivity].
Qed.
