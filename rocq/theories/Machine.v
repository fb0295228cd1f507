(** The integer types of std as scalar types, at any width, with both behaviours of overflow.
    std and num_traits are not part of /repo.  No proofs in this file. *)
From Coq Require Import ZArith List Bool.
From Verif Require Import Scalar.
Local Open Scope Z_scope.

(** [MIN] and [MAX] (std) of the integer type with [w] bits: u8, u16, u32, u64, usize and i8, i16,
    i32, i64, isize, aegir/src/buffers/scalars.rs:109-119. *)
Definition int_min (signed : bool) (w : Z) : Z := if signed then - 2 ^ (w - 1) else 0.
Definition int_max (signed : bool) (w : Z) : Z :=
  if signed then 2 ^ (w - 1) - 1 else 2 ^ w - 1.
Definition fits (signed : bool) (w z : Z) : bool :=
  (int_min signed w <=? z) && (z <=? int_max signed w).

(** The lowest [w] bits of a number, read as a number of the type (std: wrapping arithmetic),
    for the types of aegir/src/buffers/scalars.rs:109-119. *)
Definition wrap (signed : bool) (w z : Z) : Z :=
  int_min signed w + (z - int_min signed w) mod 2 ^ w.

(** Integers with overflow checks off (release builds), as [Scalar], scalars.rs:36-39,109-119.
    [FromPrimitive::from_usize] (num_traits), used at ops/arithmetic/unary.rs:252 and
    buffers/arrays/contraction_ops.rs:138,181, fails above
    [MAX].  Division truncates (std); simplified: by zero it gives 0 instead of a panic; [finf] and [flib] belong to [Float] and are never used. *)
Definition wrapping_int (signed : bool) (w : Z) : Scalar Z := {|
  fzero := 0; fone := 1; finf := 0;
  fadd := fun x y => wrap signed w (x + y);
  fsub := fun x y => wrap signed w (x - y);
  fmul := fun x y => wrap signed w (x * y);
  fdiv := fun x y => wrap signed w (Z.quot x y);
  fpow := fun x y => wrap signed w (x ^ y);
  fneg := fun x => wrap signed w (- x);
  fabs := fun x => wrap signed w (Z.abs x);
  fsignum := Z.sgn;
  flib := fun _ x => x;
  feq := Z.eqb; fle := Z.leb;
  fof_usize := fun n => if Z.of_nat n <=? int_max signed w then Some (Z.of_nat n) else None
|}.

(** One operation with overflow checks on (std, debug builds), for the types of
    aegir/src/buffers/scalars.rs:109-119. *)
Definition checked (signed : bool) (w z : Z) : option Z := if fits signed w z then Some z else None.
Definition checked2 (signed : bool) (w : Z) (op : Z -> Z -> Z) (x y : option Z) : option Z :=
  match x, y with Some a, Some b => checked signed w (op a b) | _, _ => None end.
Definition checked1 (signed : bool) (w : Z) (op : Z -> Z) (x : option Z) : option Z :=
  match x with Some a => checked signed w (op a) | None => None end.

(** Integers with overflow checks on (debug builds), as [Scalar], scalars.rs:36-39,109-119.
    Simplified: instead of a panic, an overflow gives the mark [None], which every operation on it
    keeps and which compares unequal to all numbers. *)
Definition checked_int (signed : bool) (w : Z) : Scalar (option Z) := {|
  fzero := Some 0; fone := Some 1; finf := Some 0;
  fadd := checked2 signed w Z.add;
  fsub := checked2 signed w Z.sub;
  fmul := checked2 signed w Z.mul;
  fdiv := fun x y => match y with Some 0 => None | _ => checked2 signed w Z.quot x y end;
  fpow := checked2 signed w Z.pow;
  fneg := checked1 signed w Z.opp;
  fabs := checked1 signed w Z.abs;
  fsignum := checked1 signed w Z.sgn;
  flib := fun _ x => x;
  feq := fun x y => match x, y with Some a, Some b => a =? b | _, _ => false end;
  fle := fun x y => match x, y with Some a, Some b => a <=? b | _, _ => false end;
  fof_usize := fun n =>
    if Z.of_nat n <=? int_max signed w then Some (Some (Z.of_nat n)) else None
|}.
