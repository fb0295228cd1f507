(** Model of [#[derive(Contains)]] (aegir_derive/src/ops.rs), of the operator structs it is applied
    to, and of the macro [ctx!] (aegir/src/lib.rs).  No proofs in this file. *)
From Coq Require Import List Arith Bool String Ascii.
Import ListNotations.
From Verif Require Import Base Shapes Scalar Buffers Spec Node Derive.
Local Open Scope string_scope.

(** The item the derive is applied to ([syn::Data], aegir_derive/src/ops.rs:112-119). *)
Inductive op_data := ONamed (fields : list field) | OUnnamed (fields : list field) | OUnit | OEnum | OUnion.

(** [enum Error], aegir_derive/src/ops.rs:6-8. *)
Inductive op_error := OpParseError.

(** [OpAttributes::try_from], aegir_derive/src/ops.rs:16-28. *)
Definition op_attributes (f : field) : res op_error unit :=
  let is_op a := match get_ident (at_path a) with Some s => String.eqb s "op" | None => false end in
  if Nat.eqb (List.length (filter is_op (fd_attrs f))) 1 then Ok tt else Err OpParseError.

(** The tokens after [self.], aegir_derive/src/ops.rs:88,101-105; named fields always have a name. *)
Inductive accessor := AccName (s : string) | AccIndex (i : nat).

(** [struct OpField], aegir_derive/src/ops.rs:32-36. *)
Record op_field : Type := OpField { of_ty : ty; of_acc : accessor }.

(** [parse_fields_named], aegir_derive/src/ops.rs:80-92. *)
Fixpoint named_fields (l : list field) : res op_error (list op_field) :=
  match l with
  | [] => Ok []
  | f :: l' =>
      res_bind (op_attributes f) (fun _ =>
      res_map (cons (OpField (fd_ty f) (AccName (match fd_name f with Some s => s | None => "" end))))
              (named_fields l'))
  end.

(** [parse_fields_unnamed], aegir_derive/src/ops.rs:94-110. *)
Fixpoint unnamed_fields (i : nat) (l : list field) : res op_error (list op_field) :=
  match l with
  | [] => Ok []
  | f :: l' =>
      res_bind (op_attributes f) (fun _ =>
      res_map (cons (OpField (fd_ty f) (AccIndex i))) (unnamed_fields (S i) l'))
  end.

(** [OpFields::try_from], aegir_derive/src/ops.rs:79-120; [todo!()] panics. *)
Definition op_fields (d : op_data) : res op_error (list op_field) :=
  match d with
  | ONamed l => named_fields l
  | OUnnamed l => unnamed_fields 0 l
  | OUnit | OEnum | OUnion => Panic
  end.

(** The generated impl, aegir_derive/src/ops.rs:127-153: names of the generic parameters, types
    bounded by [Contains<I>], and the calls joined by [||]. *)
Record contains_impl : Type := ContainsImpl {
  ci_params : list string; ci_bounds : list ty; ci_calls : list accessor
}.

(** [expand_contains], aegir_derive/src/ops.rs:123-154, with [extend_generics] (42-61) and the
    pushed parameter [I] (132-134); [expect] panics. *)
Definition expand_contains (params : list string) (d : op_data) : res unit contains_impl :=
  match op_fields d with
  | Ok fs => Ok (ContainsImpl (params ++ ["I"]) (map of_ty fs) (map of_acc fs))
  | Err _ | Panic => Panic
  | Stuck => Stuck
  end.

(** Running the generated method, aegir_derive/src/ops.rs:149-151; [field] gives what
    [contains(target)] of a field returns.  [None]: the method has an empty body and does not
    compile. *)
Definition run_contains (i : contains_impl) (field : accessor -> bool) : option bool :=
  match ci_calls i with
  | [] => None
  | a :: r => Some (fold_left (fun b a' => b || field a') r (field a))
  end.

(** The attribute [#[op]], ops/arithmetic/binary.rs:198. *)
Definition op_attr : attr := Attr (Path false ["op"]) MetaOther.
(** The field [#[op] pub N] of type [N], ops/arithmetic/binary.rs:198. *)
Definition op_of (n : string) : field := Field None [op_attr] (TyPath false false [Seg n ANone]).

(** Generic parameters and body of the struct of an operator: ops/mod.rs:5-6 (unary operators),
    ops/arithmetic/unary.rs:227-228 (Sum), ops/arithmetic/binary.rs:81-82 (Power), 197-198 (Add),
    333-334 (Sub), 469-470 (Mul), 588-589 (Div), ops/linalg/mod.rs:30-31 (Contract).  [None]: the
    impl of [Contains] is written by hand. *)
Definition declaration {F} (n : node F) : option (list string * op_data) :=
  match n with
  | Un _ _ | Sum _ => Some (["N"], OUnnamed [op_of "N"])
  | Power _ _ => Some (["N"; "E"], OUnnamed [op_of "N"; op_of "E"])
  | Add _ _ | Sub _ _ | Mul _ _ | Div _ _ => Some (["L"; "R"], OUnnamed [op_of "L"; op_of "R"])
  | Contract _ _ _ => Some (["AXES"; "L"; "R"], OUnnamed [op_of "L"; op_of "R"])
  | _ => None
  end.

(** The field of an operator that an accessor selects, ops/arithmetic/binary.rs:198 and the other
    structs above. *)
Definition operand_at {F} (n : node F) (a : accessor) : option (node F) :=
  match n, a with
  | (Un _ m | Sum m), AccIndex 0 => Some m
  | (Power l _ | Add l _ | Sub l _ | Mul l _ | Div l _ | Contract _ l _), AccIndex 0 => Some l
  | (Power _ r | Add _ r | Sub _ r | Mul _ r | Div _ r | Contract _ _ r), AccIndex 1 => Some r
  | _, _ => None
  end.

(** [:lower] of crate paste ([str::to_lowercase]), aegir/src/lib.rs:120.  Simplified: letters outside
    ASCII are left alone. *)
Definition lower_ascii (c : ascii) : ascii :=
  let n := nat_of_ascii c in
  if (Nat.leb 65 n && Nat.leb n 90)%bool then ascii_of_nat (n + 32) else c.
(** As above, on identifiers, aegir/src/lib.rs:120. *)
Fixpoint lower (s : string) : string :=
  match s with EmptyString => EmptyString | String c s' => String (lower_ascii c) (lower s') end.

(** The name of the field of a key, [[<_ $key:lower>]], aegir/src/lib.rs:120. *)
Definition key_field (key : string) : string := "_" ++ lower key.

(** The tokens given to [ctx_type!], aegir/src/lib.rs:120. *)
Fixpoint ctx_tokens (keys : list string) : list ctok :=
  match keys with
  | [] => []
  | [k] => [KIdent (key_field k); KColon; KIdent k]
  | k :: keys' => KIdent (key_field k) :: KColon :: KIdent k :: KComma :: ctx_tokens keys'
  end.

(** [ctx!], aegir/src/lib.rs:117-126, up to the struct given to the derive; without a key the macro
    does not match. *)
Definition ctx_macro (keys : list string) : option data :=
  match keys with [] => None | _ => ctx_type (ctx_tokens keys) end.

(** The struct literal, aegir/src/lib.rs:122-124; fields that are not listed are never looked at. *)
Definition ctx_literal {F} (kvs : list (string * value F)) : struct_val F :=
  fun n => match find (fun kv => String.eqb (key_field (fst kv)) n) kvs with
           | Some kv => Plain (snd kv)
           | None => Cell None
           end.
