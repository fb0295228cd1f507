(** The typing rules of expressions.  Specification side; nothing here models code. *)
From Coq Require Import List.
Import ListNotations.
From Verif Require Import Base Shapes Scalar Buffers Spec Contraction Node Eval Types Diff_math.

(** Buffers of the first two types can be combined entry by entry, giving the third: equal types, or
    a scalar with anything but a pair. *)
Inductive zips : sty -> sty -> sty -> Prop :=
| zips_same k : zips k k k
| zips_left k : k <> KT -> zips KS k k
| zips_right k : k <> KT -> zips k KS k.

(** Dimensions that can be contracted over so many axes, and the dimensions of the result.  The last
    line is what the code has for a matrix times a vector: the vector needs as many entries as the
    matrix has rows, and the result has as many as the matrix has columns. *)
Inductive contracts : nat -> list nat -> list nat -> list nat -> Prop :=
| contracts_outer a b : length a + length b <= 2 -> contracts 0 a b (a ++ b)
| contracts_scalars : contracts 1 [] [] []
| contracts_inner n : contracts 1 [n] [n] []
| contracts_vec_mat n m : contracts 1 [n] [n; m] [m]
| contracts_mat_mat n z m : contracts 1 [n; z] [z; m] [n; m]
| contracts_mat_vec n m : contracts 1 [n; m] [n] [m].

(** Types with a static shape, and their dimensions. *)
Inductive has_dims : sty -> list nat -> Prop :=
| dims_scalar : has_dims KS []
| dims_pair : has_dims KT [2]
| dims_array ds : has_dims (KA ds) ds.

(** The type of the derivative of something of the first type by something of the second. *)
Inductive derives : sty -> sty -> sty -> Prop :=
| derives_scalars : derives KS KS KS
| derives_scalar_pair : derives KS KT KT
| derives_pair_scalar : derives KT KS KT
| derives_array l r a b : has_dims l a -> has_dims r b ->
    (exists ds, l = KA ds) \/ (exists ds, r = KA ds) ->
    1 <= length a + length b <= 5 -> derives l r (KA (a ++ b)).

(** [has_type G n k]: in a context whose fields have the types [G], [n] has values of type [k]. *)
Inductive has_type {F} (G : tenv) : node F -> sty -> Prop :=
| type_var i k : G i = Some k -> has_type G (Var i) k
| type_varadj i t ki kt a k : G i = Some ki -> G t = Some kt -> has_dims ki a -> length a <= 3 ->
    derives ki kt k -> has_type G (VarAdj i t) k
| type_const v : has_type G (Const v) (sty_of (bty_of v))
| type_constspec s : has_type G (ConstSpec s) (sty_of (spec_bty s))
| type_constadj m t km kt k : has_type G m km -> G t = Some kt -> derives km kt k ->
    has_type G (ConstAdj m t) k
| type_cached m i k : has_type G m k -> G i = Some k -> has_type G (Cached m i) k
| type_un u m k : has_type G m k -> has_type G (Un u m) k
| type_sum m k : has_type G m k -> has_type G (Sum m) KS
| type_power b e : has_type G b KS -> has_type G e KS -> has_type G (Power b e) KS
| type_add l r kl kr k : has_type G l kl -> has_type G r kr -> zips kl kr k -> has_type G (Add l r) k
| type_sub l r kl kr k : has_type G l kl -> has_type G r kr -> zips kl kr k -> has_type G (Sub l r) k
| type_mul l r kl kr k : has_type G l kl -> has_type G r kr -> zips kl kr k -> has_type G (Mul l r) k
| type_div l r kl kr k : has_type G l kl -> has_type G r kr -> zips kl kr k -> has_type G (Div l r) k
| type_contract axes l r a b d : has_type G l (array_type a) -> has_type G r (array_type b) ->
    contracts axes a b d -> has_type G (Contract axes l r) (array_type d).

(** Built from variables and constants by operators. *)
Fixpoint undifferentiated {F} (n : node F) : Prop :=
  match n with
  | Var _ | Const _ | ConstSpec _ => True
  | VarAdj _ _ | ConstAdj _ _ | Cached _ _ => False
  | Un _ m | Sum m => undifferentiated m
  | Power l r | Add l r | Sub l r | Mul l r | Div l r | Contract _ l r =>
      undifferentiated l /\ undifferentiated r
  end.
