(** Model of the [ids!] macro, aegir_derive/src/ids.rs.  Spans are left out; the doc comments are in Report.v.  No
    proofs in this file. *)
From Coq Require Import List Arith Bool String Ascii.
Import ListNotations.
From Verif Require Import Base.
Local Open Scope string_scope.

(** Tokens of the macro input (proc_macro2, not in /repo), read at ids.rs:62-84.  [TIdent] is an identifier that is not a
    keyword; [TOther] is everything the macro does not mention. *)
Inductive token := TIdent (s : string) | TColon2 | TComma | TStr (s : string) | TOther.

(** [struct DataIdentifier], ids.rs:5-8. *)
Record data_id : Type := DataId { type_id : string; symbol : option string }.

(** [Parse for DataIdentifier], ids.rs:61-86. *)
Definition parse_data_id (ts : list token) : option (data_id * list token) :=
  match ts with
  | TIdent t :: TColon2 :: TIdent s :: r => Some (DataId t (Some s), r)
  | TIdent t :: TColon2 :: TStr s :: r => Some (DataId t (Some s), r)
  | TIdent _ :: TColon2 :: _ => None
  | TIdent t :: r => Some (DataId t None, r)
  | _ => None
  end.

(** [Punctuated::parse_separated_nonempty] (syn) as used in ids.rs:88,91-93, on the whole input;
    [None] is a panic of the [unwrap].  [fuel] bounds the recursion; the number of tokens is
    enough. *)
Fixpoint parse_separated (fuel : nat) (ts : list token) : option (list data_id) :=
  match fuel with
  | 0 => None
  | S fuel =>
      match parse_data_id ts with
      | None => None
      | Some (d, []) => Some [d]
      | Some (d, TComma :: r) => option_map (cons d) (parse_separated fuel r)
      | Some (_, _) => None
      end
  end.
(** The parse of the macro input, ids.rs:91-93. *)
Definition parse_ids (ts : list token) : option (list data_id) :=
  parse_separated (S (List.length ts)) ts.

(** Items generated by the macro: [to_struct] (ids.rs:11-25, with a derived [PartialEq]),
    [impl_identifier] (27-31), [impl_display] (33-47), [impl_partial_eq] (49-59). *)
Inductive item :=
| IStruct (t : string)
| IIdentifier (t : string)
| IDisplay (t fmt : string)
| IPartialEq (t u : string) (answer : bool).

(** [DataIdentifier::impl_display], ids.rs:33-47: without a symbol, [stringify!(type_id)] is the
    text "type_id", not the name of the type. *)
Definition impl_display (d : data_id) : item :=
  IDisplay (type_id d) (match symbol d with Some s => s | None => "type_id" end).

(** [expand], ids.rs:90-111. *)
Definition expand (ds : list data_id) : list item :=
  flat_map (fun d =>
    IStruct (type_id d) :: IIdentifier (type_id d) :: impl_display d ::
    map (fun e => IPartialEq (type_id d) (type_id e) false)
        (filter (fun e => negb (String.eqb (type_id e) (type_id d))) ds)) ds.

(** A format string without arguments, as in [write!(f, #symbol)] (ids.rs:41; std): doubled braces
    stand for braces; [None]: a lone brace (does not compile, or formats [self] again). *)
Fixpoint format_text (s : string) : option string :=
  match s with
  | EmptyString => Some ""
  | String "{" (String "{" s') => option_map (String "{") (format_text s')
  | String "}" (String "}" s') => option_map (String "}") (format_text s')
  | String "{" _ | String "}" _ => None
  | String a s' => option_map (String a) (format_text s')
  end.

(** [a == b] for two generated types: the derived impl of a struct compares values of a unit struct
    (ids.rs:22), the others are those of ids.rs:103-107.  [None]: no impl. *)
Fixpoint eval_eq (items : list item) (a b : string) : option bool :=
  match items with
  | [] => None
  | IStruct t :: r => if String.eqb t a && String.eqb t b then Some true else eval_eq r a b
  | IPartialEq t u x :: r => if String.eqb t a && String.eqb u b then Some x else eval_eq r a b
  | _ :: r => eval_eq r a b
  end.

(** Text shown for a value of type [a]: the generated [Display] impl (ids.rs:38-43). *)
Fixpoint eval_display (items : list item) (a : string) : option string :=
  match items with
  | [] => None
  | IDisplay t s :: r => if String.eqb t a then format_text s else eval_display r a
  | _ :: r => eval_display r a
  end.

(** What an item defines: a type, or an impl of a trait for types (rustc rejects two definitions of
    the same thing); struct items also define the derived [PartialEq] impl (ids.rs:22). *)
Definition defines (i : item) : list (string * string * string) :=
  match i with
  | IStruct t => [("struct", t, ""); ("PartialEq", t, t)]
  | IIdentifier t => [("Identifier", t, "")]
  | IDisplay t _ => [("Display", t, "")]
  | IPartialEq t u _ => [("PartialEq", t, u)]
  end.

(** The identifiers of the crate, aegir/src/lib.rs:65-78. *)
Definition crate_ids : list token :=
  let latin := map (fun p => [TIdent (fst p); TColon2; TIdent (snd p)])
    [("A", "a"); ("B", "b"); ("C", "c"); ("D", "d"); ("E", "e"); ("F", "f"); ("G", "g"); ("H", "h");
     ("I", "i"); ("J", "j"); ("K", "k"); ("L", "l"); ("M", "m"); ("N", "n"); ("O", "o"); ("P", "p");
     ("Q", "q"); ("R", "r"); ("S", "s"); ("T", "t"); ("U", "u"); ("V", "v"); ("W", "w"); ("X", "x");
     ("Y", "y"); ("Z", "z")] in
  let greek := map (fun p => [TIdent (fst p); TColon2; TStr (snd p)])
    [("Alpha", "α"); ("Beta", "β"); ("Gamma", "γ"); ("Delta", "δ"); ("Epsilon", "ε"); ("Zeta", "ζ");
     ("Eta", "η"); ("Theta", "θ"); ("Iota", "ι"); ("Kappa", "κ"); ("Lambda", "λ"); ("Mu", "μ");
     ("Nu", "ν"); ("Xi", "ξ"); ("Omicron", "ο"); ("Pi", "π"); ("Rho", "ρ"); ("Sigma", "ς");
     ("Tau", "σ"); ("Upsilon", "τ"); ("Phi", "φ"); ("Chi", "χ"); ("Psi", "ψ"); ("Omega", "ω")] in
  match (latin ++ greek)%list with
  | [] => []
  | x :: l => (x ++ flat_map (cons TComma) l)%list
  end.
