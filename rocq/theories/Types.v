(** Static types: which expressions compile and what [Function::Value] they get.  No proofs. *)
From Coq Require Import List Arith Bool.
Import ListNotations.
From Verif Require Import Base Shapes Scalar Buffers Spec Contraction Node Eval.

(** Buffer types as Rust sees them (the length of a Vec is not part of the type): [F]
    (scalars.rs), [(F, F)] (tuples.rs), [Vec<F>] (vecs.rs), nested arrays (arrays/buffer.rs). *)
Inductive sty : Type := KS | KT | KV | KA (ds : list nat).

(** Static type of a runtime buffer type: scalars.rs:49, tuples.rs:47, vecs.rs:48, arrays/buffer.rs:47. *)
Definition sty_of (t : bty) : sty :=
  match t with TS => KS | TT => KT | TV _ => KV | TA ds => KA ds end.

(** [impl ZipMap<R> for L] exists, with its [Output]: scalars.rs:81, tuples.rs:95,
    vecs.rs:101,147,170, arrays/zip_ops.rs:63,93,123 (required by binary.rs:208,344,480,599). *)
Definition zip_sty (l r : sty) : option sty :=
  match l, r with
  | KS, KS => Some KS
  | KT, KT => Some KT
  | KV, KV => Some KV
  | KV, KS => Some KV
  | KS, KV => Some KV
  | KA a, KA b => if dims_eqb a b then Some (KA a) else None
  | KA a, KS => Some (KA a)
  | KS, KA b => Some (KA b)
  | _, _ => None
  end.

(** [impl Contract<R, AXES> for L] exists, with its [Output]:
    contraction_ops.rs:37,43,56,69,84,110,126,132,145,171,189 (required by linalg/mod.rs:46). *)
Definition contract_sty (axes : nat) (l r : sty) : option sty :=
  match axes, l, r with
  | 0, KS, KS => Some KS
  | 0, KA [n], KS => Some (KA [n])
  | 0, KS, KA [n] => Some (KA [n])
  | 0, KA [n; m], KS => Some (KA [n; m])
  | 0, KA [n], KA [m] => Some (KA [n; m])
  | 0, KS, KA [n; m] => Some (KA [n; m])
  | 1, KS, KS => Some KS
  | 1, KA [n], KA [n'] => if Nat.eqb n n' then Some KS else None
  | 1, KA [n; m], KA [n'] => if Nat.eqb n n' then Some (KA [m]) else None
  | 1, KA [n; z], KA [z'; m] => if Nat.eqb z z' then Some (KA [n; m]) else None
  | 1, KA [n], KA [n'; m] => if Nat.eqb n n' then Some (KA [m]) else None
  | _, _, _ => None
  end.

(** Dimensions of a statically shaped type: [type Shape], scalars.rs:44, tuples.rs:42,
    arrays/buffer.rs:42; [Vec] (vecs.rs:43) has none. *)
Definition sty_dims (k : sty) : option (list nat) :=
  match k with KS => Some [] | KT => Some [2] | KA ds => Some ds | KV => None end.

(** Class of a static type: [type Class], scalars.rs:50, tuples.rs:48, vecs.rs:49,
    arrays/buffer.rs:48. *)
Definition sty_cls (k : sty) : cls :=
  match k with KS => CScalars | KT => CTuples | KV => CVecs | KA _ => CArrays end.

(** Type of the adjoint of something of type [l] with respect to something of type [r]:
    [SN: Concat<ST, Shape = SA>], [Precedence<CN, CT, Class = CA>], [CA: Class<SA>]
    (constant.rs:143-151, variable.rs:143-153).  With a [Vec] on either side the concatenated
    shape is SDynamic<2> or has no Concat impl, and no class implements [Class<SDynamic<2>>]. *)
Definition adj_sty (l r : sty) : option sty :=
  match sty_dims l, sty_dims r with
  | Some a, Some b =>
      match shape_concat (St a) (St b) with
      | Some s => option_map sty_of (mk_bty (precedence (sty_cls l) (sty_cls r)) s)
      | None => None
      end
  | _, _ => None
  end.

(** The extra bound [SI: Concat<SI>] of variable.rs:143. *)
Definition self_concat (k : sty) : bool :=
  match sty_dims k with
  | Some a => match shape_concat (St a) (St a) with Some _ => true | None => false end
  | None => true
  end.

(** Types of context fields, [<C as Read<I>>::Buffer] (aegir/src/lib.rs:89). *)
Definition tenv : Type := ident -> option sty.

(** [Function::Value] of a node, when all the trait bounds hold: variable.rs:53-59 and 135-159;
    constant.rs:55-62 and 138-163; cached.rs:30-37 ([N::Value = C::Buffer]); ops/mod.rs:10-19;
    unary.rs:232-241; binary.rs:86-95 (both operands of type [F]), 202-218, 338-353, 474-492,
    593-609; linalg/mod.rs:40-51. *)
Fixpoint typeof {F} (G : tenv) (n : node F) : option sty :=
  match n with
  | Var i => G i
  | VarAdj i t =>
      obind (G i) (fun ki => obind (G t) (fun kt =>
      if self_concat ki then adj_sty ki kt else None))
  | Const v => Some (sty_of (bty_of v))
  | ConstSpec s => Some (sty_of (spec_bty s))
  | ConstAdj m t => obind (typeof G m) (fun km => obind (G t) (fun kt => adj_sty km kt))
  | Cached m k =>
      obind (typeof G m) (fun km => obind (G k) (fun kc =>
      match km, kc with
      | KS, KS => Some KS
      | KT, KT => Some KT
      | KV, KV => Some KV
      | KA a, KA b => if dims_eqb a b then Some (KA a) else None
      | _, _ => None
      end))
  | Un _ m => typeof G m
  | Sum m => obind (typeof G m) (fun _ => Some KS)
  | Power b e =>
      obind (typeof G b) (fun kb => obind (typeof G e) (fun ke =>
      match kb, ke with KS, KS => Some KS | _, _ => None end))
  | Add l r | Sub l r | Mul l r | Div l r =>
      obind (typeof G l) (fun kl => obind (typeof G r) (fun kr => zip_sty kl kr))
  | Contract axes l r =>
      obind (typeof G l) (fun kl => obind (typeof G r) (fun kr => contract_sty axes kl kr))
  end.
