(** Model of aegir/src/buffers/{mod,scalars,tuples,vecs}.rs and buffers/arrays/{buffer,zip_ops}.rs.
    No proofs in this file. *)
From Coq Require Import List Arith Bool.
Import ListNotations.
From Verif Require Import Base Shapes Scalar.

(** Contents of a nested Rust array [[[F; ..]; ..]; D1] (arrays/buffer.rs:74,93,112,137,164):
    [AF x] is one element, [AN l] an array of sub-arrays. *)
Inductive arr (F : Type) : Type :=
| AF (x : F)
| AN (l : list (arr F)).
Arguments AF {F} x.
Arguments AN {F} l.

(** A buffer: scalar (scalars.rs:41), pair (tuples.rs:15), Vec (vecs.rs:18), nested array with
    its const dimensions (arrays/buffer.rs:74,93,112,137,164). *)
Inductive value (F : Type) : Type :=
| VScal (x : F)
| VTup (x y : F)
| VVec (l : list F)
| VArr (ds : list nat) (a : arr F).
Arguments VScal {F} x.
Arguments VTup {F} x y.
Arguments VVec {F} l.
Arguments VArr {F} ds a.

(** Buffer class, [trait Class] (buffers/mod.rs:77): Scalars scalars.rs:12, Tuples tuples.rs:12,
    Vecs vecs.rs:15, Arrays arrays/mod.rs:11. *)
Inductive cls : Type := CScalars | CTuples | CVecs | CArrays.

(** A class together with a shape it supports, i.e. the pair that determines
    [Class<S>::Buffer] (buffers/mod.rs:77-82): scalar/S0, pair/S1<2>, Vec/SDynamic<1>,
    array/S1..S5. *)
Inductive bty : Type := TS | TT | TV (n : nat) | TA (ds : list nat).

(** Class part of a buffer type: [type Class], scalars.rs:50, tuples.rs:48, vecs.rs:49,
    arrays/buffer.rs:48. *)
Definition bty_cls (t : bty) : cls :=
  match t with TS => CScalars | TT => CTuples | TV _ => CVecs | TA _ => CArrays end.

(** Shape part: scalars.rs:46, tuples.rs:44, vecs.rs:45, arrays/buffer.rs:44. *)
Definition bty_shape (t : bty) : shape :=
  match t with TS => St [] | TT => St [2] | TV n => Dy [n] | TA ds => St ds end.

(** Which [impl Class<S> for C] exist: scalars.rs:14, tuples.rs:14, vecs.rs:17,
    arrays/buffer.rs:18 at ranks 1..5. *)
Definition mk_bty (c : cls) (s : shape) : option bty :=
  match c, s with
  | CScalars, St [] => Some TS
  | CTuples, St [n] => if Nat.eqb n 2 then Some TT else None
  | CVecs, Dy [n] => Some (TV n)
  | CArrays, St ds =>
      if (1 <=? length ds) && (length ds <=? 5) then Some (TA ds) else None
  | _, _ => None
  end.

(** Type of a buffer; its shape is [Shaped::shape] (scalars.rs:46, tuples.rs:44, vecs.rs:45,
    arrays/buffer.rs:44). *)
Definition bty_of {F} (v : value F) : bty :=
  match v with
  | VScal _ => TS
  | VTup _ _ => TT
  | VVec l => TV (length l)
  | VArr ds _ => TA ds
  end.

(** [Shaped::shape] of a buffer: scalars.rs:46, tuples.rs:44, vecs.rs:45, arrays/buffer.rs:44. *)
Definition vshape {F} (v : value F) : shape := bty_shape (bty_of v).

(** [array_init(|i| array_init(|j| .. f([i, j, ..])))], arrays/buffer.rs:76,95,114-120,139-147,166-176. *)
Fixpoint arr_build {F} (ds : list nat) (f : list nat -> F) : arr F :=
  match ds with
  | [] => AF (f [])
  | d :: ds' => AN (map (fun i => arr_build ds' (fun ix => f (i :: ix))) (seq 0 d))
  end.

(** [[[val; D2]; D1]], arrays/buffer.rs:78,97,122,149,178. *)
Fixpoint arr_full {F} (ds : list nat) (x : F) : arr F :=
  match ds with
  | [] => AF x
  | d :: ds' => AN (repeat (arr_full ds' x) d)
  end.

(** Indexing [self[i0][i1]..]; [None] is Rust's out-of-bounds panic
    (arrays/buffer.rs:81,100,125,152,181). *)
Fixpoint arr_get {F} (ix : list nat) (a : arr F) : option F :=
  match ix, a with
  | [], AF x => Some x
  | i :: ix', AN l =>
      match nth_error l i with Some a' => arr_get ix' a' | None => None end
  | _, _ => None
  end.

(** Replace the element at position [i] of a list (assignment [buf[i] = x]); [None] when out
    of bounds (std); used at vecs.rs:33, arrays/buffer.rs:77,96,121,148,177. *)
Fixpoint list_set {A} (i : nat) (x : A) (l : list A) : option (list A) :=
  match l, i with
  | [], _ => None
  | _ :: l', 0 => Some (x :: l')
  | y :: l', S i' =>
      match list_set i' x l' with Some m => Some (y :: m) | None => None end
  end.

(** Assignment [buf[ix[0]][ix[1]].. = x], arrays/buffer.rs:77,96,121,148,177. *)
Fixpoint arr_set {F} (ix : list nat) (x : F) (a : arr F) : option (arr F) :=
  match ix, a with
  | [], AF _ => Some (AF x)
  | i :: ix', AN l =>
      match nth_error l i with
      | Some a' =>
          match arr_set ix' x a' with
          | Some a'' =>
              match list_set i a'' l with Some l' => Some (AN l') | None => None end
          | None => None
          end
      | None => None
      end
  | _, _ => None
  end.

(** [Buffer::map] on arrays, arrays/buffer.rs:83,102,127,154,183 (map over rows, recursively).
    Also used for [map_ref] (line 57) and [mutate] (lines 84-88,103-107,..), whose loops visit
    each element once and write back in place. *)
Fixpoint arr_map {A B} (f : A -> B) (a : arr A) : arr B :=
  match a with
  | AF x => AF (f x)
  | AN l => AN (map (arr_map f) l)
  end.

(** [Buffer::fold] on arrays, arrays/buffer.rs:61-67. *)
Fixpoint arr_fold {A F} (f : A -> F -> A) (init : A) (a : arr F) : A :=
  match a with
  | AF x => f init x
  | AN l => fold_left (fun acc a' => arr_fold f acc a') l init
  end.

(** [zip_map] array/array, zip_ops.rs:148-150 (generic) and 227 (rank 1); [zip_mut] 38-40,207-210
    computes the same elements in place. *)
Fixpoint arr_zip {A B C} (f : A -> B -> C) (a : arr A) (b : arr B) : arr C :=
  match a, b with
  | AF x, AF y => AF (f x y)
  | AN l, AN m =>
      AN ((fix go (l : list (arr A)) (m : list (arr B)) : list (arr C) :=
             match l, m with
             | x :: l', y :: m' => arr_zip f x y :: go l' m'
             | _, _ => []
             end) l m)
  | _, _ => AN []
  end.

(** [zip_map] array/scalar, zip_ops.rs:153-155 and 230. *)
Definition arr_zip_field_r {A B C} (f : A -> B -> C) (a : arr A) (y : B) : arr C :=
  arr_map (fun x => f x y) a.

(** [zip_map] scalar/array.  Rank 1 (zip_ops.rs:231-233) applies [f self rhs_i]; the generic
    body (zip_ops.rs:158-162) calls [rhs[i].zip_map(&self, &f)], so at rank >= 2 the arguments
    reach [f] swapped. *)
Definition arr_zip_field_l {A B} (f : A -> A -> B) (x : A) (ds : list nat) (b : arr A) : arr B :=
  match ds with
  | [_] => arr_map (fun y => f x y) b
  | _ => match b with
         | AN l => AN (map (fun row => arr_zip_field_r f row x) l)
         | AF y => AF (f y x)
         end
  end.

(** [Class::build]: scalars.rs:17, tuples.rs:17, vecs.rs:20-22, arrays/buffer.rs:21-23. *)
Definition build {F} (t : bty) (f : list nat -> F) : value F :=
  match t with
  | TS => VScal (f [])
  | TT => VTup (f [0]) (f [1])
  | TV n => VVec (map (fun i => f [i]) (seq 0 n))
  | TA ds => VArr ds (arr_build ds f)
  end.

(** [Class::full]: default buffers/mod.rs:169 (scalars), tuples.rs:38, vecs.rs:39,
    arrays/buffer.rs:38. *)
Definition full {F} (t : bty) (x : F) : value F :=
  match t with
  | TS => build TS (fun _ => x)
  | TT => VTup x x
  | TV n => VVec (repeat x n)
  | TA ds => VArr ds (arr_full ds x)
  end.

(** [Class::zeroes], buffers/mod.rs:180. *)
Definition zeroes {F} {S : Scalar F} (t : bty) : value F := full t fzero.
(** [Class::ones], buffers/mod.rs:191. *)
Definition ones {F} {S : Scalar F} (t : bty) : value F := full t fone.
(** [Class::diagonal], buffers/mod.rs:215-223. *)
Definition diagonal {F} {S : Scalar F} (t : bty) (x : F) : value F :=
  build t (fun ix => if is_diagonal ix then x else fzero).
(** [Class::identity], buffers/mod.rs:247-249. *)
Definition identity {F} {S : Scalar F} (t : bty) : value F := diagonal t fone.

(** One step [buf[ix] = active(ix)] of [build_subset]: tuples.rs:27-33 (other indices ignored),
    vecs.rs:32-34, arrays/buffer.rs:33 (out of bounds panics). *)
Definition subset_step {F E} (active : list nat -> F) (buf : value F) (ix : list nat)
  : res E (value F) :=
  match buf with
  | VScal x => Ok (VScal x)
  | VTup x y =>
      match ix with
      | [0] => Ok (VTup (active [0]) y)
      | [1] => Ok (VTup x (active [1]))
      | _ => Ok (VTup x y)
      end
  | VVec l =>
      match ix with
      | [i] => res_map VVec (opt_unwrap (list_set i (active [i]) l))
      | _ => Stuck
      end
  | VArr ds a => res_map (VArr ds) (opt_unwrap (arr_set ix (active ix) a))
  end.

(** [Class::build_subset]: scalars.rs:19-32 (only asks for one index), tuples.rs:19-36,
    vecs.rs:24-37, arrays/buffer.rs:25-36.  Simplified: the iterator is a finite list. *)
Definition build_subset {F E} (t : bty) (base : F) (subset : list (list nat))
           (active : list nat -> F) : res E (value F) :=
  match t with
  | TS => match subset with
          | _ :: _ => Ok (full TS (active []))
          | [] => Ok (full TS base)
          end
  | _ => fold_left (fun acc ix => res_bind acc (fun buf => subset_step active buf ix))
                   subset (Ok (full t base))
  end.

(** [Buffer::get_unchecked]: scalars.rs:57, tuples.rs:61-67, vecs.rs:54, arrays/buffer.rs:53. *)
Definition get_unchecked {F E} (v : value F) (ix : list nat) : res E F :=
  match v with
  | VScal x => Ok x
  | VTup x y => match ix with [0] => Ok x | [1] => Ok y | _ => Panic end
  | VVec l => match ix with [i] => opt_unwrap (nth_error l i) | _ => Stuck end
  | VArr _ a => opt_unwrap (arr_get ix a)
  end.

(** [Buffer::get]: scalars.rs:55, tuples.rs:53-59, default buffers/mod.rs:282-288. *)
Definition get {F E} (v : value F) (ix : list nat) : res E (option F) :=
  match v with
  | VScal x => Ok (Some x)
  | VTup x y => match ix with [0] => Ok (Some x) | [1] => Ok (Some y) | _ => Ok None end
  | _ => if shape_contains (vshape v) ix
         then res_map Some (get_unchecked v ix)
         else Ok None
  end.

(** [Buffer::map]: scalars.rs:59, tuples.rs:69, vecs.rs:56, arrays/buffer.rs:55. *)
Definition vmap {A B} (f : A -> B) (v : value A) : value B :=
  match v with
  | VScal x => VScal (f x)
  | VTup x y => VTup (f x) (f y)
  | VVec l => VVec (map f l)
  | VArr ds a => VArr ds (arr_map f a)
  end.

(** [Buffer::map_ref]: scalars.rs:61, tuples.rs:71, vecs.rs:58-60, arrays/buffer.rs:57. *)
Definition vmap_ref {A B} (f : A -> B) (v : value A) : value B :=
  match v with
  | VScal x => VScal (f x)
  | VTup x y => VTup (f x) (f y)
  | VVec l => VVec (map (fun x => f x) l)
  | VArr ds a => VArr ds (arr_map f a)
  end.

(** The loop [for i in 0..n { self[i] = f(self[i]); }] over a list, left to right
    (vecs.rs:62-66, arrays/buffer.rs:84-88). *)
Fixpoint mutate_from {A} (f : A -> A) (i n : nat) (l : list A) : option (list A) :=
  match n with
  | 0 => Some l
  | S n' =>
      match nth_error l i with
      | Some x => match list_set i (f x) l with
                  | Some l' => mutate_from f (S i) n' l'
                  | None => None
                  end
      | None => None
      end
  end.

(** [Buffer::mutate]: scalars.rs:63, tuples.rs:73-76, vecs.rs:62-66 (the index loop of
    [mutate_from] gives [map], lemma [mutate_from_map] in Buffers_facts.v),
    arrays/buffer.rs:59,84-88,103-107. *)
Definition vmutate {A} (f : A -> A) (v : value A) : value A :=
  match v with
  | VScal x => VScal (f x)
  | VTup x y => VTup (f x) (f y)
  | VVec l => VVec (match mutate_from f 0 (length l) l with Some l' => l' | None => [] end)
  | VArr ds a => VArr ds (arr_map f a)
  end.

(** [Buffer::fold]: scalars.rs:65, tuples.rs:78, vecs.rs:68-70, arrays/buffer.rs:61-67. *)
Definition vfold {A F} (f : A -> F -> A) (init : A) (v : value F) : A :=
  match v with
  | VScal x => f init x
  | VTup x y => f (f init x) y
  | VVec l => fold_left f l init
  | VArr _ a => arr_fold f init a
  end.

(** [Buffer::sum], buffers/mod.rs:379. *)
Definition vsum {F} {S : Scalar F} (v : value F) : F := vfold fadd fzero v.

(** Loop [for ijk in indices { acc = f(acc, (self[ijk], rhs[ijk])) }] of [zip_fold]
    (zip_ops.rs:177-181,193-197, vecs.rs:81-86); indexing may panic. *)
Definition zip_fold_loop {A F E} (f : A -> F * F -> A)
           (gl gr : list nat -> res E F) (ixs : list (list nat)) (init : A) : res E A :=
  fold_left (fun acc ix =>
               res_bind acc (fun a =>
               res_bind (gl ix) (fun x =>
               res_bind (gr ix) (fun y => Ok (f a (x, y)))))) ixs (Ok init).

(** [ZipFold::zip_fold]: scalars.rs:69-78, tuples.rs:82-92, vecs.rs:74-98,
    arrays/zip_ops.rs:169-199.  Pairs of types without an impl are [Stuck]. *)
Definition zip_fold {A F} (f : A -> F * F -> A) (init : A) (l r : value F)
  : res incompat A :=
  match l, r with
  | VScal x, VScal y => Ok (f init (x, y))
  | VTup x0 x1, VTup y0 y1 => Ok (f (f init (x0, y0)) (x1, y1))
  | VVec xs, VVec ys =>
      if Nat.eqb (length xs) (length ys) then
        zip_fold_loop f (get_unchecked l) (get_unchecked r)
                      (map (fun i => [i]) (seq 0 (length xs))) init
      else Err (Incompat (Dy [length xs]) (Dy [length ys]))
  | VArr ds _, VArr ds' _ =>
      if dims_eqb ds ds' then
        zip_fold_loop f (get_unchecked l) (get_unchecked r) (st_indices ds) init
      else Stuck
  | VArr ds _, VScal y =>
      zip_fold_loop f (get_unchecked l) (fun _ => Ok y) (st_indices ds) init
  | _, _ => Stuck
  end.

(** [ZipMap::zip_map]: scalars.rs:85-91, tuples.rs:99-105, vecs.rs:105-127 (Vec/Vec),
    151-159 (Vec/F), 174-182 (F/Vec), arrays/zip_ops.rs:63-73,92-103,122-132 with bodies
    148-162 and 226-233. *)
Definition zip_map {F B} (f : F -> F -> B) (l r : value F) : res incompat (value B) :=
  match l, r with
  | VScal x, VScal y => Ok (VScal (f x y))
  | VTup x0 x1, VTup y0 y1 => Ok (VTup (f x0 y0) (f x1 y1))
  | VVec xs, VVec ys =>
      if dims_eqb [length xs] [length ys]
      then Ok (VVec (map (fun p => f (fst p) (snd p)) (combine xs ys)))
      else Err (Incompat (vshape l) (vshape r))
  | VVec xs, VScal y => Ok (VVec (map (fun x => f x y) xs))
  | VScal x, VVec ys => Ok (VVec (map (fun y => f x y) ys))
  | VArr ds a, VArr ds' b => if dims_eqb ds ds' then Ok (VArr ds (arr_zip f a b)) else Stuck
  | VArr ds a, VScal y => Ok (VArr ds (arr_zip_field_r f a y))
  | VScal x, VArr ds b => Ok (VArr ds (arr_zip_field_l f x ds b))
  | _, _ => Stuck
  end.

(** [ZipMut::zip_mut] (arrays only), arrays/zip_ops.rs:11-32 with bodies 37-50 and 207-221;
    returns the updated left buffer. *)
Definition zip_mut {F} (f : F -> F -> F) (l r : value F) : res incompat (value F) :=
  match l, r with
  | VArr ds a, VArr ds' b => if dims_eqb ds ds' then Ok (VArr ds (arr_zip f a b)) else Stuck
  | VArr ds a, VScal y => Ok (VArr ds (arr_zip_field_r f a y))
  | _, _ => Stuck
  end.

(** [ZipMap::zip_map_id]: default buffers/mod.rs:462-468; arrays override it with [zip_mut],
    arrays/zip_ops.rs:75-82,105-112. *)
Definition zip_map_id {F} (f : F -> F -> F) (l r : value F) : res incompat (value F) :=
  match l, r with
  | VArr _ _, VArr _ _ => zip_mut f l r
  | VArr _ _, VScal _ => zip_mut f l r
  | _, _ => zip_map f l r
  end.

(** [ZipMap::zip_shape]: scalars.rs:94-99, tuples.rs:108-113, vecs.rs:130-144,162-167,185-190,
    arrays/zip_ops.rs:84-90,114-120,135-141.  The right-hand buffer is given by its type. *)
Definition zip_shape {F} (l : value F) (r : bty) : res incompat (value F) :=
  match l, r with
  | VScal _, TS => Ok l
  | VTup _ _, TT => Ok l
  | VVec xs, TV m =>
      if dims_eqb [length xs] [m] then Ok l else Err (Incompat (vshape l) (bty_shape r))
  | VVec _, TS => Ok l
  | VScal x, TV m => Ok (full (TV m) x)
  | VArr ds _, TA ds' => if dims_eqb ds ds' then Ok l else Stuck
  | VArr _ _, TS => Ok l
  | VScal x, TA ds => Ok (full (TA ds) x)
  | _, _ => Stuck
  end.

(** Class of [ZipMap::Output] for each existing impl: scalars.rs:82, tuples.rs:96, vecs.rs:102,148,171,
    arrays/zip_ops.rs:64,94,124. *)
Definition zip_cls (l r : cls) : option cls :=
  match l, r with
  | CScalars, c => match c with CTuples => None | _ => Some c end
  | c, CScalars => match c with CTuples => None | _ => Some c end
  | CTuples, CTuples => Some CTuples
  | CVecs, CVecs => Some CVecs
  | CArrays, CArrays => Some CArrays
  | _, _ => None
  end.

(** [sx.broadcast(sy)] as used at binary.rs:231,253,366,506,510,513,..: the shape comes from
    [Broadcast::broadcast], the class from [ZipMap::Output]. *)
Definition bcast_bty (l r : bty) : res incompat bty :=
  match zip_cls (bty_cls l) (bty_cls r) with
  | None => Stuck
  | Some c =>
      res_bind (broadcast (bty_shape l) (bty_shape r)) (fun s =>
      match mk_bty c s with Some t => Ok t | None => Stuck end)
  end.
