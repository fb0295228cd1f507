(** Vocabulary for the messages of the macros.  Specification side; nothing here models code. *)
From Coq Require Import List Arith Bool String.
Import ListNotations.
From Verif Require Import Base Derive Report Macro_math.
Local Open Scope string_scope.

(** The texts of [Result::unwrap] on an error shown as [msg]. *)
Definition shown_error (msg : string) : report :=
  Says ("called `Result::unwrap()` on an `Err` value: " ++ msg).

(** What is wrong with an attribute, and the report it leads to. *)
Inductive attr_fault (a : attr) : report -> Prop :=
| af_path : (forall s, at_path a <> Path false [s]) -> attr_fault a (shown_error "Invalid attribute.")
| af_syntax : at_path a = id_path -> at_meta a = MetaErr -> attr_fault a Foreign
| af_few : at_path a = id_path -> at_meta a = MList [] ->
           attr_fault a (shown_error "Too few arguments to #[id(.)]")
| af_many l : at_path a = id_path -> at_meta a = MList l -> 2 <= List.length l ->
              attr_fault a (shown_error "Too many arguments to #[id(.)]")
| af_form : at_path a = id_path -> at_meta a = MList [NMeta] ->
            attr_fault a (shown_error "Incorrectly formed argument to #[id(.)]")
| af_literal : at_path a = id_path -> at_meta a = MList [NLit] ->
               attr_fault a (shown_error "Literals not supported by #[id(.)]")
| af_argument p : at_path a = id_path -> at_meta a = MList [NPath p] -> (forall s, p <> Path false [s]) ->
                  attr_fault a (Says "called `Option::unwrap()` on a `None` value")
| af_other : at_path a = id_path -> at_meta a = MetaOther ->
             attr_fault a (shown_error "Unsupported attribute format.").

(** Attributes without a fault. *)
Definition sound_attrs (l : list attr) : Prop := forall a r, In a l -> ~ attr_fault a r.

(** Number of [id] attributes; whether the field is marked [cache]. *)
Definition id_count (f : field) : nat := count_occ path_dec (map at_path (fd_attrs f)) id_path.
Definition marked (f : field) : Prop := In cache_path (map at_path (fd_attrs f)).

(** What is wrong with a field, and the report it leads to. *)
Inductive field_fault (f : field) : report -> Prop :=
| ff_name : fd_name f = None ->
            field_fault f (shown_error "Field is labelled as #[cache] but has no #[id(.)] attr.")
| ff_attr l1 a l2 r : fd_name f <> None -> fd_attrs f = (l1 ++ a :: l2)%list -> sound_attrs l1 ->
                      attr_fault a r -> field_fault f r
| ff_ids : fd_name f <> None -> sound_attrs (fd_attrs f) -> 2 <= id_count f ->
           field_fault f (shown_error "Too many #[id(.)] attributes provided.")
| ff_no_id : fd_name f <> None -> sound_attrs (fd_attrs f) -> id_count f = 0 -> marked f ->
             field_fault f (shown_error "Field is labelled as #[cache] but has no #[id(.)] attr.")
| ff_type : fd_name f <> None -> sound_attrs (fd_attrs f) -> id_count f = 1 -> marked f ->
            (forall args tr, ~ option_type (fd_ty f) args tr) ->
            field_fault f (shown_error "Cache field must be of type Option<Buffer>.")
| ff_argument args tr : fd_name f <> None -> sound_attrs (fd_attrs f) -> id_count f = 1 -> marked f ->
                        option_type (fd_ty f) args tr -> ~ path_argument args tr ->
                        field_fault f Foreign.
