(** Model of aegir/src/buffers/spec.rs.  No proofs in this file. *)
From Coq Require Import List Arith Bool.
Import ListNotations.
From Verif Require Import Base Shapes Scalar Buffers.

(** [Spec], spec.rs:41-64.  The shape field is stored together with the buffer class, which
    Rust tracks in the type parameter [B]. *)
Inductive spec (F : Type) : Type :=
| Raw (v : value F)
| Full (t : bty) (x : F)
| Diagonal (t : bty) (x : F).
Arguments Raw {F} v.
Arguments Full {F} t x.
Arguments Diagonal {F} t x.

(** Type of the buffer a spec stands for; its shape is spec.rs:75-80. *)
Definition spec_bty {F} (s : spec F) : bty :=
  match s with Raw v => bty_of v | Full t _ => t | Diagonal t _ => t end.

(** [Shaped::shape] for [Spec], spec.rs:75-80. *)
Definition spec_shape {F} (s : spec F) : shape := bty_shape (spec_bty s).

(** [Spec::unwrap], spec.rs:92-98. *)
Definition unwrap {F} {S : Scalar F} (s : spec F) : value F :=
  match s with
  | Raw v => v
  | Full t x => full t x
  | Diagonal t x => diagonal t x
  end.

(** [Spec::map], spec.rs:111-130. *)
Definition spec_map {F B} {S : Scalar F} (f : F -> B) (s : spec F) : spec B :=
  match s with
  | Raw v => Raw (vmap f v)
  | Full t x => Full t (f x)
  | Diagonal t x =>
      Raw (build t (fun ix => if is_diagonal ix then f x else f fzero))
  end.

(** [Spec::zip_map], spec.rs:145-165. *)
Definition spec_zip_map {F B} {S : Scalar F} (f : F -> F -> B) (l r : spec F)
  : res incompat (spec B) :=
  match l, r with
  | Full sx fx, Full sy fy => res_map (fun sz => Full sz (f fx fy)) (bcast_bty sx sy)
  | _, _ => res_map Raw (zip_map f (unwrap l) (unwrap r))
  end.

(** [Spec::zeroes], spec.rs:169. *)
Definition spec_zeroes {F} {S : Scalar F} (t : bty) : spec F := Full t fzero.
(** [Spec::ones], spec.rs:173. *)
Definition spec_ones {F} {S : Scalar F} (t : bty) : spec F := Full t fone.
(** [Spec::eye], spec.rs:177. *)
Definition spec_eye {F} {S : Scalar F} (t : bty) : spec F := Diagonal t fone.
(** [IntoSpec::into_spec], spec.rs:26-30 (buffers) and 66-70 (specs are returned as they are). *)
Definition into_spec {F} (v : value F) : spec F := Raw v.
