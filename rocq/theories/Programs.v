(** The programs in aegir/examples and aegir/benches.  No proofs.  Random numbers are inputs:
    each loop takes the list of vectors (and labels) drawn, whatever its length. *)
From Coq Require Import List Arith Bool.
Import ListNotations.
From Verif Require Import Base Shapes Scalar Buffers Spec Contraction Node Eval.

(** [ids::X], examples/linear.rs:6; X, Y, W and C are distinct types. *)
Definition idX : ident := 0.
(** [ids::Y], examples/linear.rs:6. *)
Definition idY : ident := 1.
(** [ids::W], examples/linear.rs:6. *)
Definition idW : ident := 2.
(** [ids::C], examples/caching.rs:6. *)
Definition idC : ident := 3.

Section Programs.
Context {F : Type} {S : Scalar F}.

(** An array [[f64; N]], examples/linear.rs:21-23. *)
Definition array1 (xs : list F) : value F := VArr [length xs] (AN (map AF xs)).

(** The elements of an array of rank 1 (std), as indexed at examples/linear.rs:47. *)
Fixpoint leaves (l : list (arr F)) : option (list F) :=
  match l with
  | [] => Some []
  | AF x :: l' => option_map (cons x) (leaves l')
  | AN _ :: _ => None
  end.
(** Array indexing at rank 1, examples/linear.rs:47. *)
Definition elements (v : value F) : option (list F) :=
  match v with VArr [_] (AN l) => leaves l | _ => None end.

(** [ctx_type!(Ctx { x: X, y: Y, w: W })], examples/linear.rs:16 and
    examples/logistic.rs:17, as read during evaluation. *)
Definition xyw (xs : list F) (y : F) (ws : list F) : ctx F := fun i =>
  if ident_eqb i idX then Some (array1 xs)
  else if ident_eqb i idY then Some (VScal y)
  else if ident_eqb i idW then Some (array1 ws)
  else None.

(** [xs.iter().zip(ts.iter()).map(|(x, t)| x * t).sum()], examples/linear.rs:41, and the [fold] of
    benches/linear.rs:76.  Simplified: std starts the f64 sum at -0.0 since Rust 1.83. *)
Definition dotted (xs ts : list F) : F :=
  fold_left (fun acc p => fadd acc (fmul (fst p) (snd p))) (combine xs ts) fzero.

(** [x.dot(w)], examples/linear.rs:32 and examples/logistic.rs:33. *)
Definition x_dot_w : node F := Contract 1 (Var idX) (Var idW).

(** [model.sub(y).squared()], examples/linear.rs:32-33. *)
Definition linear_loss : node F := Un Square (Sub x_dot_w (Var idY)).

(** [ops::Mul(ops::Double(ops::Sub(ops::TensorDot::new(x, w), y)), x)], benches/linear.rs:91. *)
Definition linear_manual : node F := Mul (Un Double (Sub x_dot_w (Var idY))) (Var idX).

(** [RawAdjoint::evaluate], benches/linear.rs:115-131; reading an undefined variable, or indexing
    beyond the end, panics. *)
Definition linear_raw (c : ctx F) : res err (value F) :=
  match read c idX, read c idW, read c idY with
  | Some vx, Some vw, Some (VScal y) =>
      match elements vx, elements vw with
      | Some xs, Some ws =>
          if length xs =? length ws then
            let p := dotted xs ws in
            let e := fmul ftwo (fsub p y) in
            Ok (array1 (map (fun x => fmul x e) xs))
          else Stuck
      | _, _ => Stuck
      end
  | Some _, Some _, Some _ => Stuck
  | _, _, _ => Panic
  end.

(** [for i in 0..N { ctx.w[i] -= rate * g[i]; }], examples/linear.rs:46-48. *)
Definition descend (rate : F) (ws g : list F) : list F :=
  map (fun p => fsub (fst p) (fmul rate (snd p))) (combine ws g).
(** [for i in 0..N { ctx.w[i] += rate * g[i]; }], examples/logistic.rs:49-51. *)
Definition ascend (rate : F) (ws g : list F) : list F :=
  map (fun p => fadd (fst p) (fmul rate (snd p))) (combine ws g).

(** [let g: [f64; N] = ....unwrap();], examples/linear.rs:44: an error panics, another type does
    not compile. *)
Definition unwrap_array (n : nat) (r : res err (value F)) : res err (list F) :=
  match r with
  | Ok v => match elements v with
            | Some g => if length g =? n then Ok g else Stuck
            | None => Stuck
            end
  | Err _ | Panic => Panic
  | Stuck => Stuck
  end.

(** One iteration of the loop of examples/linear.rs:36-49 (benches/linear.rs:52-58), with the
    gradient computed by [grad]. *)
Definition linear_step (grad : ctx F -> res err (value F)) (rate : F) (tw : list F)
           (ws xs : list F) : res err (list F) :=
  let c := xyw xs (dotted xs tw) ws in
  res_map (descend rate ws) (unwrap_array (length ws) (grad c)).

(** The whole loop, examples/linear.rs:36-49, over the vectors drawn. *)
Fixpoint linear_run (grad : ctx F -> res err (value F)) (rate : F) (tw ws : list F)
         (draws : list (list F)) : res err (list F) :=
  match draws with
  | [] => Ok ws
  | xs :: rest => res_bind (linear_step grad rate tw ws xs)
                           (fun ws' => linear_run grad rate tw ws' rest)
  end.

(** [adj.evaluate(&mut ctx)] with [adj = node.adjoint(W)], examples/linear.rs:34,44. *)
Definition auto_grad (n : node F) (c : ctx F) : res err (value F) :=
  match evaluate_adjoint n idW c with Some r => snd r | None => Stuck end.

(** Gradient of the example and of the benchmark "Auto", examples/linear.rs:34,44 and
    benches/linear.rs:72,79. *)
Definition linear_auto : ctx F -> res err (value F) := auto_grad linear_loss.
(** Gradient of the benchmark "Manual", benches/linear.rs:91,98. *)
Definition linear_by_hand (c : ctx F) : res err (value F) := snd (evaluate linear_manual c).

(** [main] of examples/linear.rs:18-52: weights start at zero, the result is printed. *)
Definition linear_main (rate : F) (tw : list F) (draws : list (list F)) : res err (list F) :=
  linear_run linear_auto rate tw (repeat fzero (length tw)) draws.

(** [x.dot(w).sigmoid()], examples/logistic.rs:33. *)
Definition logistic_model : node F := Un Sigmoid x_dot_w.
(** [model.mul(y).add(OneSub(model).mul(OneSub(y)))], examples/logistic.rs:34. *)
Definition likelihood : node F :=
  Add (Mul logistic_model (Var idY)) (Mul (Un OneSub logistic_model) (Un OneSub (Var idY))).
(** Its logarithm, examples/logistic.rs:34. *)
Definition log_likelihood : node F := Un Ln likelihood.

(** [l.sub(r).mul(x)], benches/logistic.rs:94-97. *)
Definition logistic_manual : node F :=
  Mul (Sub (Mul (Var idY) (Un OneSub logistic_model)) (Mul (Un OneSub (Var idY)) logistic_model))
      (Var idX).

(** One iteration of examples/logistic.rs:37-51 (benches/logistic.rs:52-58); the label is 1.0 or
    0.0 ([gen_bool(..) as u8 as f64]), an input here. *)
Definition logistic_step (grad : ctx F -> res err (value F)) (rate : F)
           (ws xs : list F) (label : bool) : res err (list F) :=
  let c := xyw xs (if label then fone else fzero) ws in
  res_map (ascend rate ws) (unwrap_array (length ws) (grad c)).

(** The probability handed to [gen_bool], examples/logistic.rs:42-44 and benches/logistic.rs:78-80.
    Simplified as [dotted] is. *)
Definition logistic_chance (tw xs : list F) : F := sigmoid (dotted xs tw).

(** The whole loop, examples/logistic.rs:37-52, over the vectors and labels drawn. *)
Fixpoint logistic_run (grad : ctx F -> res err (value F)) (rate : F) (ws : list F)
         (draws : list (list F * bool)) : res err (list F) :=
  match draws with
  | [] => Ok ws
  | (xs, b) :: rest => res_bind (logistic_step grad rate ws xs b)
                                (fun ws' => logistic_run grad rate ws' rest)
  end.

(** Gradient of the example and of the benchmark "Auto", examples/logistic.rs:35,47 and
    benches/logistic.rs:72,82. *)
Definition logistic_auto : ctx F -> res err (value F) := auto_grad log_likelihood.
(** Gradient of the benchmark "Manual", benches/logistic.rs:97,107. *)
Definition logistic_by_hand (c : ctx F) : res err (value F) := snd (evaluate logistic_manual c).

(** [ctx_type!(Ctx { x: X, cache cc: C })] and [Ctx::new], examples/caching.rs:18-27. *)
Definition cache_ctx (x : list F) : ctx F := fun i =>
  if ident_eqb i idX then Some (VVec x) else None.
(** [ops::Sum(ops::Negate(ops::Double(x)))], examples/caching.rs:53. *)
Definition basic : node F := Sum (Un Negate (Un Double (Var idX))).
(** [basic.clone().cached(C)], examples/caching.rs:54. *)
Definition cached : node F := Cached basic idC.
(** [repeated], examples/caching.rs:31-38: eight copies joined by [add]. *)
Definition repeated (n : node F) : node F :=
  Add (Add (Add (Add (Add (Add (Add n n) n) n) n) n) n) n.

End Programs.
