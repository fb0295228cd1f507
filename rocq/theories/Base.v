(** Outcomes, identifiers and errors.  No proofs in this file. *)
From Coq Require Import List Arith Bool.
Import ListNotations.

(** Result of running a modelled function.  [Ok]/[Err] are Rust's [Result]
    (the results of aegir/src/lib.rs:251,268,281);
    [Panic] is a Rust panic (unwrap on Err/None, index out of bounds);
    [Stuck] marks a combination of types for which /repo has no impl, i.e. a
    program that does not compile (modelling device, no source line). *)
Inductive res (E A : Type) : Type :=
| Ok (a : A)
| Err (e : E)
| Panic
| Stuck.
Arguments Ok {E A} a.
Arguments Err {E A} e.
Arguments Panic {E A}.
Arguments Stuck {E A}.

(** [Result::map] (std), used throughout, e.g. aegir/src/ops/mod.rs:24. *)
Definition res_map {E A B} (f : A -> B) (r : res E A) : res E B :=
  match r with Ok a => Ok (f a) | Err e => Err e | Panic => Panic | Stuck => Stuck end.

(** [Result::map_err] (std), used e.g. at aegir/src/ops/arithmetic/binary.rs:246. *)
Definition res_map_err {E E' A} (f : E -> E') (r : res E A) : res E' A :=
  match r with Ok a => Ok a | Err e => Err (f e) | Panic => Panic | Stuck => Stuck end.

(** The [?] operator (std), e.g. aegir/src/ops/mod.rs:30. *)
Definition res_bind {E A B} (r : res E A) (f : A -> res E B) : res E B :=
  match r with Ok a => f a | Err e => Err e | Panic => Panic | Stuck => Stuck end.

(** [Result::unwrap] (std), used at aegir/src/ops/arithmetic/binary.rs:242,374,528:
    an [Err] becomes a panic. *)
Definition res_unwrap {E E' A} (r : res E A) : res E' A :=
  match r with Ok a => Ok a | Err _ => Panic | Panic => Panic | Stuck => Stuck end.

(** [Option::unwrap] (std), used at aegir/src/ops/arithmetic/unary.rs:252 and
    contraction_ops.rs:138,181; also array indexing, which panics out of bounds. *)
Definition opt_unwrap {E A} (o : option A) : res E A :=
  match o with Some a => Ok a | None => Panic end.

(** Identifiers (aegir/src/lib.rs:58 [trait Identifier]): zero-sized types that are
    pairwise comparable (aegir_derive/src/ids.rs:103-107).  Simplified: a type name is
    represented by a natural number. *)
Definition ident := nat.

(** Comparison of identifiers, [PartialEq] generated at aegir_derive/src/ids.rs:95-107. *)
Definition ident_eqb (a b : ident) : bool := Nat.eqb a b.
