(** Model of aegir/src/buffers/arrays/contraction_ops.rs.  No proofs in this file. *)
From Coq Require Import List Arith Bool.
Import ListNotations.
From Verif Require Import Base Shapes Scalar Buffers Spec.

Section Contraction.
Context {F : Type} {S : Scalar F}.

(** [array_init] with a closure that may panic (crate array_init), contraction_ops.rs:146,172-173,190. *)
Fixpoint try_list {E A} (l : list (res E A)) : res E (list A) :=
  match l with
  | [] => Ok []
  | r :: l' => res_bind r (fun a => res_bind (try_list l') (fun m => Ok (a :: m)))
  end.

(** Nested [array_init] with a closure that may panic, contraction_ops.rs:146,172-176,190. *)
Fixpoint try_build {E} (ds : list nat) (f : list nat -> res E F) : res E (arr F) :=
  match ds with
  | [] => res_map AF (f [])
  | d :: ds' =>
      res_map AN (try_list (map (fun i => try_build ds' (fun ix => f (i :: ix))) (seq 0 d)))
  end.

(** [(0..n).fold(F::zero(), |acc, k| acc + f(k))], contraction_ops.rs:146,174,190. *)
Definition sum_loop {E} (n : nat) (f : nat -> res E F) : res E F :=
  fold_left (fun acc k => res_bind acc (fun a => res_bind (f k) (fun x => Ok (fadd a x))))
            (seq 0 n) (Ok fzero).

(** Array indexing [a[i][j]..] (panics out of bounds), contraction_ops.rs:146,174,190. *)
Definition aix {E} (a : arr F) (ix : list nat) : res E F := opt_unwrap (arr_get ix a).

(** [x.map(|x_i| g(x_i))] where [g] yields an array, contraction_ops.rs:85,98,104. *)
Fixpoint arr_bind (g : F -> arr F) (a : arr F) : arr F :=
  match a with
  | AF x => g x
  | AN l => AN (map (arr_bind g) l)
  end.

(** [Contract::contract]: AXES = 0 at contraction_ops.rs:37-39,43-49,56-62,69-77,84-86,110-118;
    AXES = 1 at 126-128,132-134,145-147,171-177,189-191.  Other pairs have no impl. *)
Definition contract (axes : nat) (l r : value F) : res incompat (value F) :=
  match axes, l, r with
  | 0, VScal x, VScal y => Ok (VScal (fmul x y))
  | 0, VArr [n] a, VScal y => Ok (VArr [n] (arr_map (fun xi => fmul xi y) a))
  | 0, VScal x, VArr [n] b => Ok (VArr [n] (arr_map (fun yi => fmul yi x) b))
  | 0, VArr [n; m] a, VScal y => Ok (VArr [n; m] (arr_map (fun xij => fmul xij y) a))
  | 0, VArr [n] a, VArr [m] b =>
      Ok (VArr [n; m] (arr_bind (fun xi => arr_map (fun yi => fmul xi yi) b) a))
  | 0, VScal x, VArr [n; m] b => Ok (VArr [n; m] (arr_map (fun yij => fmul yij x) b))
  | 1, VScal x, VScal y => Ok (VScal (fmul x y))
  | 1, VArr [n] a, VArr [n'] b =>
      if Nat.eqb n n' then
        res_map VScal (zip_fold (fun acc p => fadd acc (fmul (fst p) (snd p))) fzero l r)
      else Stuck
  | 1, VArr [n; m] a, VArr [n'] b =>
      if Nat.eqb n n' then
        res_map (VArr [m])
          (try_build [m] (fun ix =>
             let i := nth 0 ix 0 in
             sum_loop m (fun k =>
               res_bind (aix a [i; k]) (fun x =>
               res_bind (aix b [k]) (fun y => Ok (fmul x y))))))
      else Stuck
  | 1, VArr [n; z] a, VArr [z'; m] b =>
      if Nat.eqb z z' then
        res_map (VArr [n; m])
          (try_build [n; m] (fun ix =>
             let i := nth 0 ix 0 in
             let j := nth 1 ix 0 in
             sum_loop z (fun k =>
               res_bind (aix a [i; k]) (fun x =>
               res_bind (aix b [k; j]) (fun y => Ok (fmul x y))))))
      else Stuck
  | 1, VArr [n] a, VArr [n'; m] b =>
      if Nat.eqb n n' then
        res_map (VArr [m])
          (try_build [m] (fun ix =>
             let i := nth 0 ix 0 in
             sum_loop m (fun k =>
               res_bind (aix a [k]) (fun x =>
               res_bind (aix b [k; i]) (fun y => Ok (fmul x y))))))
      else Stuck
  | _, _, _ => Stuck
  end.

(** [Contract::contract_shape]: the shape expression at the end of each [impl_contract!],
    contraction_ops.rs:41,54,67,82,108,123,130,143,169,187,213 (class of [type Output]
    included). *)
Definition contract_bty (axes : nat) (l r : bty) : option bty :=
  match axes, l, r with
  | 0, TS, TS => Some TS
  | 0, TA [n], TS => Some (TA [n])
  | 0, TS, TA [n] => Some (TA [n])
  | 0, TA [n; m], TS => Some (TA [n; m])
  | 0, TA [n], TA [m] => Some (TA [n; m])
  | 0, TS, TA [n; m] => Some (TA [n; m])
  | 1, TS, TS => Some TS
  | 1, TA [n], TA [n'] => if Nat.eqb n n' then Some TS else None
  | 1, TA [n; m], TA [n'] => if Nat.eqb n n' then Some (TA [m]) else None
  | 1, TA [n; z], TA [z'; m] => if Nat.eqb z z' then Some (TA [n; m]) else None
  | 1, TA [n], TA [n'; m] => if Nat.eqb n n' then Some (TA [m]) else None
  | _, _, _ => None
  end.

(** [x.unwrap()] of a [Spec<F>] for a scalar [F] (spec.rs:92-98 at [B = F]). *)
Definition unwrap_scal {E} (s : spec F) : res E F :=
  match unwrap s with VScal x => Ok x | _ => Stuck end.

(** The fallback [x.unwrap().contract(y.unwrap()).map(Spec::Raw)], e.g. contraction_ops.rs:52. *)
Definition contract_dense (axes : nat) (x y : spec F) : res incompat (spec F) :=
  res_map Raw (contract axes (unwrap x) (unwrap y)).

(** AXES = 0, array (rank 1 or 2) times scalar, contraction_ops.rs:50-53 and 78-81. *)
Definition tp_field_r (x y : spec F) : res incompat (spec F) :=
  match x with
  | Full sx fx => res_bind (unwrap_scal y) (fun fy => Ok (Full sx (fmul fx fy)))
  | _ => contract_dense 0 x y
  end.

(** AXES = 0, scalar times rank-1 array, contraction_ops.rs:63-66. *)
Definition tp_field_l1 (x y : spec F) : res incompat (spec F) :=
  match y with
  | Full sy fy => res_bind (unwrap_scal x) (fun fx => Ok (Full sy (fmul fx fy)))
  | _ => contract_dense 0 x y
  end.

(** AXES = 0, scalar times rank-2 array, contraction_ops.rs:119-122. *)
Definition tp_field_l2 (x y : spec F) : res incompat (spec F) :=
  match y with
  | Full sy fy => res_bind (unwrap_scal x) (fun fx => Ok (Full sy (fmul fy fx)))
  | _ => contract_dense 0 x y
  end.

(** AXES = 0, outer product of two vectors, contraction_ops.rs:87-107. *)
Definition tp_vec_vec (n m : nat) (x y : spec F) : res incompat (spec F) :=
  let generic :=
    match x, y with
    | Full _ fx, _ =>
        match unwrap y with
        | VArr _ b => Ok (Raw (VArr [n; m] (AN (repeat (arr_map (fun yi => fmul fx yi) b) n))))
        | _ => Stuck
        end
    | _, Full _ fy =>
        match unwrap x with
        | VArr _ a =>
            Ok (Raw (VArr [n; m] (arr_bind (fun xi => AN (repeat (AF (fmul xi fy)) m)) a)))
        | _ => Stuck
        end
    | _, _ => contract_dense 0 x y
    end in
  match x, y with
  | Full _ fx, Full _ fy => Ok (Full (TA [n; m]) (fmul fx fy))
  | Full _ fx, _ => if is_zero fx then Ok (spec_zeroes (TA [n; m])) else generic
  | _, Full _ fy => if is_zero fy then Ok (spec_zeroes (TA [n; m])) else generic
  | _, _ => generic
  end.

(** AXES = 1, inner product, contraction_ops.rs:135-142. *)
Definition dot_vec_vec (n : nat) (x y : spec F) : res incompat (spec F) :=
  match x, y with
  | Full _ fx, Full _ fy =>
      res_bind (opt_unwrap (fof_usize n)) (fun k =>
      Ok (Full TS (fmul (fmul k fx) fy)))
  | Full _ fx, _ =>
      Ok (Full TS (vfold (fun acc yi => fadd acc (fmul fx yi)) fzero (unwrap y)))
  | _, Full _ fy =>
      Ok (Full TS (vfold (fun acc xi => fadd acc (fmul xi fy)) fzero (unwrap x)))
  | _, _ =>
      res_map (fun z => Raw (VScal z))
        (zip_fold (fun acc p => fadd acc (fmul (fst p) (snd p))) fzero (unwrap x) (unwrap y))
  end.

(** Relabel the dimensions of an array: the unsafe pointer cast [[F; N]] -> [[F; M]],
    contraction_ops.rs:159-164 and 203-208 (only reached when M == N). *)
Definition cast_dims (ds : list nat) (v : value F) : res incompat (value F) :=
  match v with VArr _ a => Ok (VArr ds a) | _ => Stuck end.

(** AXES = 1, matrix ([N][M]) times vector ([N]), contraction_ops.rs:148-168. *)
Definition dot_mat_vec (n m : nat) (x y : spec F) : res incompat (spec F) :=
  let diag_arm :=
    match x, y with
    | Diagonal _ fx, Full _ fy => Ok (Full (TA [m]) (fmul fx fy))
    | Diagonal _ fx, _ =>
        if Nat.eqb m n then
          res_map Raw (cast_dims [m] (vmutate (fun yi => fmul fx yi) (unwrap y)))
        else contract_dense 1 x y
    | _, _ => contract_dense 1 x y
    end in
  match x with
  | Full _ fx => if is_zero fx then Ok (spec_zeroes (TA [m])) else diag_arm
  | _ => diag_arm
  end.

(** AXES = 1, matrix times matrix, contraction_ops.rs:178-186. *)
Definition dot_mat_mat (n z m : nat) (x y : spec F) : res incompat (spec F) :=
  match x, y with
  | Full _ fx, Full _ fy =>
      res_bind (opt_unwrap (fof_usize z)) (fun k =>
      Ok (Full (TA [n; m]) (fmul (fmul k fx) fy)))
  | Diagonal _ fx, Diagonal _ fy =>
      if Nat.eqb n z && Nat.eqb m n then Ok (Diagonal (TA [n; m]) (fmul fx fy))
      else contract_dense 1 x y
  | _, _ => contract_dense 1 x y
  end.

(** AXES = 1, vector ([N]) times matrix ([N][M]), contraction_ops.rs:192-212. *)
Definition dot_vec_mat (n m : nat) (x y : spec F) : res incompat (spec F) :=
  let diag_arm :=
    match x, y with
    | Full _ fx, Diagonal _ fy => Ok (Full (TA [m]) (fmul fx fy))
    | _, Diagonal _ fy =>
        if Nat.eqb m n then
          res_map Raw (cast_dims [m] (vmutate (fun xi => fmul xi fy) (unwrap x)))
        else contract_dense 1 x y
    | _, _ => contract_dense 1 x y
    end in
  match y with
  | Full _ fy => if is_zero fy then Ok (spec_zeroes (TA [m])) else diag_arm
  | _ => diag_arm
  end.

(** [Contract::contract_spec]: the specialised bodies above, selected by the two buffer types
    (contraction_ops.rs:37,43,56,69,84,110,126,132,145,171,189).  Scalar/scalar at lines 40,129. *)
Definition contract_spec (axes : nat) (x y : spec F) : res incompat (spec F) :=
  match axes, spec_bty x, spec_bty y with
  | 0, TS, TS =>
      res_bind (unwrap_scal x) (fun a => res_bind (unwrap_scal y) (fun b =>
      Ok (Full TS (fmul a b))))
  | 0, TA [n], TS => tp_field_r x y
  | 0, TS, TA [n] => tp_field_l1 x y
  | 0, TA [n; m], TS => tp_field_r x y
  | 0, TA [n], TA [m] => tp_vec_vec n m x y
  | 0, TS, TA [n; m] => tp_field_l2 x y
  | 1, TS, TS =>
      res_bind (unwrap_scal x) (fun a => res_bind (unwrap_scal y) (fun b =>
      Ok (Full TS (fmul a b))))
  | 1, TA [n], TA [n'] => if Nat.eqb n n' then dot_vec_vec n x y else Stuck
  | 1, TA [n; m], TA [n'] => if Nat.eqb n n' then dot_mat_vec n m x y else Stuck
  | 1, TA [n; z], TA [z'; m] => if Nat.eqb z z' then dot_mat_mat n z m x y else Stuck
  | 1, TA [n], TA [n'; m] => if Nat.eqb n n' then dot_vec_mat n m x y else Stuck
  | _, _, _ => Stuck
  end.

End Contraction.
