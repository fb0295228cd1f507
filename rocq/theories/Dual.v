(** Model of aegir/src/dual.rs and of [evaluate_dual] (aegir/src/lib.rs:330-346).  No proofs. *)
From Coq Require Import List Arith Bool.
Import ListNotations.
From Verif Require Import Base Shapes Scalar Buffers Spec Contraction Node Eval.

(** [struct Dual<V, A>], dual.rs:29-35. *)
Record dual (V A : Type) : Type := Dual { d_value : V; d_adjoint : A }.
Arguments Dual {V A}.
Arguments d_value {V A}.
Arguments d_adjoint {V A}.

(** [Dual::variable], dual.rs:39-47. *)
Definition dual_variable {F} {S : Scalar F} (b : value F) : dual (value F) (value F) :=
  Dual b (full (bty_of b) fone).
(** [Dual::constant], dual.rs:50-57, and [dual!(v)], dual.rs:10-12. *)
Definition dual_constant {F} {S : Scalar F} (b : value F) : dual (value F) (value F) :=
  Dual b (full (bty_of b) fzero).
(** [From<(V, A)>], dual.rs:60-63. *)
Definition dual_from {V A} (p : V * A) : dual V A := Dual (fst p) (snd p).
(** [Dual::map], dual.rs:65-70. *)
Definition dual_map {V A V' A'} (f : V -> A -> V' * A') (d : dual V A) : dual V' A' :=
  dual_from (f (d_value d) (d_adjoint d)).
(** [Dual::conj], dual.rs:76-83.  The adjoint is a buffer, mapped element by element. *)
Definition dual_conj {V F} {S : Scalar F} (d : dual V (value F)) : dual V (value F) :=
  Dual (d_value d) (vmap fneg (d_adjoint d)).

(** The operators of dual.rs are generic in the buffer types [V] and [A] and use their std
    operators; these are parameters here ([vneg], [vadd], .. for [Neg], [Add], .. of [V] and so
    on).  The impls taking [&'a V] and [&'a Dual] differ from the owned ones only where shown. *)

(** [Neg], dual.rs:88-96. *)
Definition dual_neg {V A V' A'} (vneg : V -> V') (aneg : A -> A') (d : dual V A) : dual V' A' :=
  dual_map (fun v a => (vneg v, aneg a)) d.
(** [Add<V>] and [Add<&V>], dual.rs:101-127. *)
Definition dual_add_val {V A V'} (vadd : V -> V -> V') (d : dual V A) (rhs : V) : dual V' A :=
  Dual (vadd (d_value d) rhs) (d_adjoint d).
(** [Add<Dual>] and [Add<&Dual>], dual.rs:129-157. *)
Definition dual_add {V A V' A'} (vadd : V -> V -> V') (aadd : A -> A -> A') (d rhs : dual V A)
  : dual V' A' :=
  Dual (vadd (d_value d) (d_value rhs)) (aadd (d_adjoint d) (d_adjoint rhs)).
(** [Sub<V>] and [Sub<&V>], dual.rs:162-188. *)
Definition dual_sub_val {V A V'} (vsub : V -> V -> V') (d : dual V A) (rhs : V) : dual V' A :=
  Dual (vsub (d_value d) rhs) (d_adjoint d).
(** [Sub<Dual>] and [Sub<&Dual>], dual.rs:190-218. *)
Definition dual_sub {V A V' A'} (vsub : V -> V -> V') (asub : A -> A -> A') (d rhs : dual V A)
  : dual V' A' :=
  Dual (vsub (d_value d) (d_value rhs)) (asub (d_adjoint d) (d_adjoint rhs)).
(** [Mul<V>] and [Mul<&V>], dual.rs:223-249. *)
Definition dual_mul_val {V A V'} (vmul : V -> V -> V') (d : dual V A) (rhs : V) : dual V' A :=
  Dual (vmul (d_value d) rhs) (d_adjoint d).
(** [Mul<Dual>], dual.rs:251-267. *)
Definition dual_mul {V A V' M A'} (vmul : V -> V -> V') (amul : A -> V -> M) (madd : M -> M -> A')
           (d rhs : dual V A) : dual V' A' :=
  Dual (vmul (d_value d) (d_value rhs))
       (madd (amul (d_adjoint d) (d_value rhs)) (amul (d_adjoint rhs) (d_value d))).
(** [Mul<&Dual>], dual.rs:269-283. *)
Definition dual_mul_ref {V A V' M N A'} (vmul : V -> V -> V') (amul : A -> V -> M)
           (vamul : V -> A -> N) (madd : M -> N -> A') (d rhs : dual V A) : dual V' A' :=
  Dual (vmul (d_value d) (d_value rhs))
       (madd (amul (d_adjoint d) (d_value rhs)) (vamul (d_value d) (d_adjoint rhs))).

(** [Differentiable::evaluate_dual], aegir/src/lib.rs:330-346 ([None]: not Differentiable). *)
Definition evaluate_dual {F} {S : Scalar F} (n : node F) (t : ident) (c : ctx F)
  : option (ctx F * res err (dual (value F) (value F))) :=
  match adjoint n t with
  | None => None
  | Some n' => Some
      (let (c1, x) := evaluate n c in
       match res_map_err ELeft x with
       | Ok v =>
           let (c2, y) := evaluate n' c1 in
           match res_map_err ERight y with
           | Ok w => (c2, Ok (Dual v w))
           | Err e => (c2, Err e)
           | Panic => (c2, Panic)
           | Stuck => (c2, Stuck)
           end
       | Err e => (c1, Err e)
       | Panic => (c1, Panic)
       | Stuck => (c1, Stuck)
       end)
  end.
