(** Contexts and the three evaluation methods of [trait Function].  No proofs. *)
From Coq Require Import List Arith Bool.
Import ListNotations.
From Verif Require Import Base Shapes Scalar Buffers Spec Contraction Node.

(** Errors of evaluation: [SourceError::Undefined] (meta/mod.rs:43-47) and [BinaryError]
    (errors.rs:64-73).  Simplified: the error type, which Rust builds per node type, is one
    inductive; [NoError] (errors.rs:10) has no values. *)
Inductive err : Type :=
| Undefined (i : ident)
| ELeft (e : err)
| ERight (e : err)
| EOutput (e : incompat).

(** Contexts (aegir/src/lib.rs:82-113): what [read] returns for each identifier.  Simplified: the
    struct fields generated by the derive macro are a total function to [option]. *)
Definition ctx (F : Type) : Type := ident -> option (value F).

(** [Read::read], aegir/src/lib.rs:92 / aegir_derive/src/ctx/derive.rs:319-322. *)
Definition read {F} (c : ctx F) (i : ident) : option (value F) := c i.
(** [Read::read_spec], aegir/src/lib.rs:95-97 / derive.rs:210-214,226-230. *)
Definition read_spec {F} (c : ctx F) (i : ident) : option (spec F) :=
  option_map (@into_spec F) (c i).
(** [Read::read_shape], aegir/src/lib.rs:100-104 / derive.rs:217-221,233-237 (with its class). *)
Definition read_bty {F} (c : ctx F) (i : ident) : option bty := option_map bty_of (c i).
(** [Write::write], aegir/src/lib.rs:108 / derive.rs:248-250,255-257. *)
Definition write {F} (c : ctx F) (i : ident) (v : value F) : ctx F :=
  fun j => if ident_eqb i j then Some v else c j.
(** [Write::write_spec], aegir/src/lib.rs:110-112. *)
Definition write_spec {F} {S : Scalar F} (c : ctx F) (i : ident) (s : spec F) : ctx F :=
  write c i (unwrap s).

(** Class precedence, meta/mod.rs:21-39. *)
Definition precedence (l r : cls) : cls :=
  match l, r with
  | CScalars, c => c
  | CArrays, _ => CArrays
  | CTuples, CScalars => CTuples
  | CTuples, c => c
  | CVecs, _ => CVecs
  end.

(** Buffer type of an adjoint: shapes concatenated, class by precedence; [None] when a bound
    of variable.rs:143-153 / constant.rs:143-151 has no impl. *)
Definition adj_bty (l r : bty) : option bty :=
  match shape_concat (bty_shape l) (bty_shape r) with
  | Some s => mk_bty (precedence (bty_cls l) (bty_cls r)) s
  | None => None
  end.

Section Eval.
Context {F : Type} {S : Scalar F}.

(** The three methods of [trait Function] (aegir/src/lib.rs:233-285).  Each takes the mutable context
    and returns it updated.  [f_shape] returns the shape together with the buffer class, which
    Rust tracks in [Self::Value]. *)
Record fn : Type := Fn {
  f_eval : ctx F -> ctx F * res err (value F);
  f_spec : ctx F -> ctx F * res err (spec F);
  f_shape : ctx F -> ctx F * res err bty
}.

(** Default [evaluate_spec], aegir/src/lib.rs:265-270. *)
Definition default_spec (ev : ctx F -> ctx F * res err (value F))
  : ctx F -> ctx F * res err (spec F) :=
  fun c => let (c', r) := ev c in (c', res_map Raw r).

(** Default [evaluate_shape], aegir/src/lib.rs:278-284. *)
Definition default_shape (ev : ctx F -> ctx F * res err (value F))
  : ctx F -> ctx F * res err bty :=
  fun c => let (c', r) := ev c in (c', res_map bty_of r).

(** [evaluate] as [self.evaluate_spec(ctx).map(|s| s.unwrap())], e.g. binary.rs:220-222. *)
Definition eval_by_spec (sp : ctx F -> ctx F * res err (spec F))
  : ctx F -> ctx F * res err (value F) :=
  fun c => let (c', r) := sp c in (c', res_map unwrap r).

(** [self.0.m(&mut ctx).map_err(Left)?; self.1.m(ctx).map_err(Right)?], e.g. binary.rs:227-228. *)
Definition both {A B} (l : ctx F -> ctx F * res err A) (r : ctx F -> ctx F * res err B)
           (k : A -> B -> res err (spec F)) : ctx F -> ctx F * res err (spec F) :=
  fun c =>
    let (c1, x) := l c in
    match res_map_err ELeft x with
    | Ok a =>
        let (c2, y) := r c1 in
        match res_map_err ERight y with
        | Ok b => (c2, k a b)
        | Err e => (c2, Err e)
        | Panic => (c2, Panic)
        | Stuck => (c2, Stuck)
        end
    | Err e => (c1, Err e)
    | Panic => (c1, Panic)
    | Stuck => (c1, Stuck)
    end.

(** Same for [evaluate_shape] of binary nodes, e.g. binary.rs:249-254. *)
Definition both_shape (l r : ctx F -> ctx F * res err bty)
           (k : bty -> bty -> res err bty) : ctx F -> ctx F * res err bty :=
  fun c =>
    let (c1, x) := l c in
    match res_map_err ELeft x with
    | Ok a =>
        let (c2, y) := r c1 in
        match res_map_err ERight y with
        | Ok b => (c2, k a b)
        | Err e => (c2, Err e)
        | Panic => (c2, Panic)
        | Stuck => (c2, Stuck)
        end
    | Err e => (c1, Err e)
    | Panic => (c1, Panic)
    | Stuck => (c1, Stuck)
    end.

(** Same for [evaluate] of [Div], binary.rs:611-616. *)
Definition both_eval (l r : ctx F -> ctx F * res err (value F))
           (k : value F -> value F -> res err (value F)) : ctx F -> ctx F * res err (value F) :=
  fun c =>
    let (c1, x) := l c in
    match res_map_err ELeft x with
    | Ok a =>
        let (c2, y) := r c1 in
        match res_map_err ERight y with
        | Ok b => (c2, k a b)
        | Err e => (c2, Err e)
        | Panic => (c2, Panic)
        | Stuck => (c2, Stuck)
        end
    | Err e => (c1, Err e)
    | Panic => (c1, Panic)
    | Stuck => (c1, Stuck)
    end.

(** [.ok_or_else(|| SourceError::Undefined(id))], variable.rs:64,70,76. *)
Definition ok_or_undef {A} (i : ident) (o : option A) : res err A :=
  match o with Some a => Ok a | None => Err (Undefined i) end.

(** [Function for Variable], variable.rs:53-78. *)
Definition var_fn (i : ident) : fn := {|
  f_eval := fun c => (c, ok_or_undef i (read c i));
  f_spec := fun c => (c, ok_or_undef i (read_spec c i));
  f_shape := fun c => (c, ok_or_undef i (read_bty c i))
|}.

(** [Function for VariableAdjoint]: evaluate_shape variable.rs:203-216. *)
Definition varadj_shape (i t : ident) (c : ctx F) : ctx F * res err bty :=
  (c,
   res_bind (res_map_err ELeft (ok_or_undef i (read_bty c i))) (fun sv =>
   res_bind (res_map_err ERight (ok_or_undef t (read_bty c t))) (fun st =>
   match adj_bty sv st with Some sa => Ok sa | None => Stuck end))).

(** [Function for VariableAdjoint]: evaluate_spec variable.rs:165-201. *)
Definition varadj_spec (i t : ident) (c : ctx F) : ctx F * res err (spec F) :=
  (c,
   res_bind (res_map_err ELeft (ok_or_undef i (read_bty c i))) (fun sv =>
   res_bind (res_map_err ERight (ok_or_undef t (read_bty c t))) (fun st =>
   match adj_bty sv st with
   | None => Stuck
   | Some sa =>
       if ident_eqb i t then
         if Nat.eqb (shape_DIM (bty_shape sv) + shape_DIM (bty_shape st)) 2 then
           Ok (spec_eye sa)
         else
           let ixs := map (fun p => concat_indices (fst p) (snd p))
                          (combine (st_indices (dims (bty_shape sv)))
                                   (st_indices (dims (bty_shape st)))) in
           res_map Raw (build_subset sa fzero ixs (fun _ => fone))
       else Ok (spec_zeroes sa)
   end))).

(** [Function for VariableAdjoint], variable.rs:135-217 (evaluate at 161-163). *)
Definition varadj_fn (i t : ident) : fn := {|
  f_eval := eval_by_spec (varadj_spec i t);
  f_spec := varadj_spec i t;
  f_shape := varadj_shape i t
|}.

(** [Function for Constant], constant.rs:55-74. *)
Definition const_spec_fn (s : spec F) : fn := {|
  f_eval := eval_by_spec (fun c => (c, Ok s));
  f_spec := fun c => (c, Ok s);
  f_shape := fun c => (c, Ok (spec_bty s))
|}.

(** [Function for ConstantAdjoint]: evaluate_shape constant.rs:174-184. *)
Definition constadj_shape (m : fn) (t : ident) (c : ctx F) : ctx F * res err bty :=
  let (c1, x) := f_shape m c in
  match res_map_err ELeft x with
  | Ok sv =>
      (c1,
       res_bind (res_map_err ERight (ok_or_undef t (option_map bty_of (read c1 t)))) (fun st =>
       match adj_bty sv st with Some sa => Ok sa | None => Stuck end))
  | Err e => (c1, Err e)
  | Panic => (c1, Panic)
  | Stuck => (c1, Stuck)
  end.

(** [Function for ConstantAdjoint]: evaluate_spec constant.rs:169-172. *)
Definition constadj_spec (m : fn) (t : ident) (c : ctx F) : ctx F * res err (spec F) :=
  let (c1, r) := constadj_shape m t c in (c1, res_map (fun sa => Full sa fzero) r).

(** [Function for ConstantAdjoint], constant.rs:138-185 (evaluate at 165-167). *)
Definition constadj_fn (m : fn) (t : ident) : fn := {|
  f_eval := eval_by_spec (constadj_spec m t);
  f_spec := constadj_spec m t;
  f_shape := constadj_shape m t
|}.

(** [Function for Cached]: evaluate cached.rs:39-51. *)
Definition cached_eval (m : fn) (k : ident) (c : ctx F) : ctx F * res err (value F) :=
  match read c k with
  | Some v => (c, Ok v)
  | None =>
      let (c1, r) := f_eval m c in
      match r with
      | Ok v => (write c1 k v, Ok v)
      | Err e => (c1, Err e)
      | Panic => (c1, Panic)
      | Stuck => (c1, Stuck)
      end
  end.

(** [Function for Cached], cached.rs:30-52: only [evaluate] is given, so the other two are the
    defaults of aegir/src/lib.rs:265-284. *)
Definition cached_fn (m : fn) (k : ident) : fn := {|
  f_eval := cached_eval m k;
  f_spec := default_spec (cached_eval m k);
  f_shape := default_shape (cached_eval m k)
|}.

(** [evaluate_spec] of [impl_unary!], ops/mod.rs:27-40. *)
Definition un_spec_post (u : unop) (s : spec F) : spec F :=
  match s with
  | Full sh x => Full sh (un_fn u x)
  | _ => Raw (vmutate (un_fn u) (unwrap s))
  end.

(** [Function] of [impl_unary!], ops/mod.rs:10-45. *)
Definition unary_fn (u : unop) (m : fn) : fn := {|
  f_eval := fun c => let (c1, r) := f_eval m c in (c1, res_map (vmutate (un_fn u)) r);
  f_spec := fun c => let (c1, r) := f_spec m c in (c1, res_map (un_spec_post u) r);
  f_shape := f_shape m
|}.

(** [evaluate_spec] of [Sum], unary.rs:247-255. *)
Definition sum_spec_post (s : spec F) : res err (spec F) :=
  match s with
  | Full sh x =>
      res_bind (opt_unwrap (fof_usize (shape_cardinality (bty_shape sh)))) (fun k =>
      Ok (Full TS (fmul k x)))
  | _ => Ok (Raw (VScal (vsum (unwrap s))))
  end.

(** [Function for Sum], unary.rs:232-261. *)
Definition sum_fn (m : fn) : fn := {|
  f_eval := fun c => let (c1, r) := f_eval m c in (c1, res_map (fun v => VScal (vsum v)) r);
  f_spec := fun c => let (c1, r) := f_spec m c in (c1, res_bind r sum_spec_post);
  f_shape := fun c => (c, Ok TS)
|}.

(** The match of [Power::evaluate_spec], binary.rs:110-124.  Both operands have type [F]
    (lines 88-92), so anything else does not compile. *)
Definition power_post (b e : spec F) : res err (spec F) :=
  match spec_bty b, spec_bty e with
  | TS, TS =>
      let rest :=
        let general :=
          res_bind (unwrap_scal e) (fun x =>
          Ok (Raw (vmutate (fun y => fpow y x) (unwrap b)))) in
        match b with
        | Full sx fx =>
            if feq fx fone then Ok (Full sx fx)
            else if feq fx fzero then Ok (Full sx fx)
            else general
        | _ => general
        end in
      match e with
      | Full _ fx => if feq fx fzero then Ok (spec_ones (spec_bty b)) else rest
      | _ => rest
      end
  | _, _ => Stuck
  end.

(** [Function for Power], binary.rs:86-130. *)
Definition power_fn (l r : fn) : fn := {|
  f_eval := eval_by_spec (both (f_spec l) (f_spec r) power_post);
  f_spec := both (f_spec l) (f_spec r) power_post;
  f_shape := fun c => (c, Ok TS)
|}.

(** The regular case [Ok(Raw(x.zip_map_id(&y, f).unwrap()))], binary.rs:238-243,370-375,524-529. *)
Definition zip_dense (f : F -> F -> F) (x y : spec F) : res incompat (spec F) :=
  res_map Raw (res_unwrap (zip_map_id f (unwrap x) (unwrap y))).

(** The match of [Add::evaluate_spec], binary.rs:230-244. *)
Definition add_match (x y : spec F) : res incompat (spec F) :=
  match x, y with
  | Full sx fx, Full sy fy => res_map (fun sz => Full sz (fadd fx fy)) (bcast_bty sx sy)
  | Raw xv, Full sy fy =>
      if is_zero fy then res_map Raw (zip_shape xv sy) else zip_dense fadd x y
  | Full sx fx, Raw yv =>
      if is_zero fx then res_map_err inc_reverse (res_map Raw (zip_shape yv sx))
      else zip_dense fadd x y
  | _, _ => zip_dense fadd x y
  end.

(** The match of [Sub::evaluate_spec], binary.rs:365-376. *)
Definition sub_match (x y : spec F) : res incompat (spec F) :=
  match x, y with
  | Full sx fx, Full sy fy => res_map (fun sz => Full sz (fsub fx fy)) (bcast_bty sx sy)
  | Raw xv, Full sy fy =>
      if is_zero fy then res_map Raw (zip_shape xv sy) else zip_dense fsub x y
  | _, _ => zip_dense fsub x y
  end.

(** The match of [Mul::evaluate_spec], binary.rs:504-530.  The two arms at 517-521 repeat the
    guards of 509-513 and are unreachable. *)
Definition mul_match (x y : spec F) : res incompat (spec F) :=
  match x, y with
  | Full sx fx, Full sy fy => res_map (fun sz => Full sz (fmul fx fy)) (bcast_bty sx sy)
  | Full sx fx, _ =>
      if is_zero fx then res_map (fun sz => spec_zeroes sz) (bcast_bty sx (spec_bty y))
      else zip_dense fmul x y
  | _, Full sy fy =>
      if is_zero fy then res_map (fun sz => spec_zeroes sz) (bcast_bty (spec_bty x) sy)
      else zip_dense fmul x y
  | _, _ => zip_dense fmul x y
  end.

(** [evaluate_shape] of Add, Sub, Mul, Div: binary.rs:253,385,539,622. *)
Definition bcast_post (l r : bty) : res err bty := res_map_err EOutput (bcast_bty l r).

(** [Function for Add], binary.rs:202-255. *)
Definition add_fn (l r : fn) : fn :=
  let sp := both (f_spec l) (f_spec r) (fun x y => res_map_err EOutput (add_match x y)) in {|
  f_eval := eval_by_spec sp;
  f_spec := sp;
  f_shape := both_shape (f_shape l) (f_shape r) bcast_post
|}.

(** [Function for Sub], binary.rs:338-387. *)
Definition sub_fn (l r : fn) : fn :=
  let sp := both (f_spec l) (f_spec r) (fun x y => res_map_err EOutput (sub_match x y)) in {|
  f_eval := eval_by_spec sp;
  f_spec := sp;
  f_shape := both_shape (f_shape l) (f_shape r) bcast_post
|}.

(** [Function for Mul], binary.rs:474-541. *)
Definition mul_fn (l r : fn) : fn :=
  let sp := both (f_spec l) (f_spec r) (fun x y => res_map_err EOutput (mul_match x y)) in {|
  f_eval := eval_by_spec sp;
  f_spec := sp;
  f_shape := both_shape (f_shape l) (f_shape r) bcast_post
|}.

(** [Function for Div], binary.rs:593-624 ([evaluate_spec] is the default of aegir/src/lib.rs:265-270). *)
Definition div_fn (l r : fn) : fn :=
  let ev := both_eval (f_eval l) (f_eval r)
              (fun x y => res_map_err EOutput (zip_map_id fdiv x y)) in {|
  f_eval := ev;
  f_spec := default_spec ev;
  f_shape := both_shape (f_shape l) (f_shape r) bcast_post
|}.

(** [Function for Contract], linalg/mod.rs:40-70. *)
Definition contract_fn (axes : nat) (l r : fn) : fn :=
  let sp := both (f_spec l) (f_spec r)
              (fun x y => res_map_err EOutput (contract_spec axes x y)) in {|
  f_eval := eval_by_spec sp;
  f_spec := sp;
  f_shape := both_shape (f_shape l) (f_shape r)
               (fun x y => match contract_bty axes x y with Some t => Ok t | None => Stuck end)
|}.

(** [Function], aegir/src/lib.rs:233-286, for every node: selects the impl cited at each helper above. *)
Fixpoint interp (n : node F) : fn :=
  match n with
  | Var i => var_fn i
  | VarAdj i t => varadj_fn i t
  | Const v => const_spec_fn (into_spec v)
  | ConstSpec s => const_spec_fn s
  | ConstAdj m t => constadj_fn (interp m) t
  | Cached m k => cached_fn (interp m) k
  | Un u m => unary_fn u (interp m)
  | Sum m => sum_fn (interp m)
  | Power b e => power_fn (interp b) (interp e)
  | Add l r => add_fn (interp l) (interp r)
  | Sub l r => sub_fn (interp l) (interp r)
  | Mul l r => mul_fn (interp l) (interp r)
  | Div l r => div_fn (interp l) (interp r)
  | Contract axes l r => contract_fn axes (interp l) (interp r)
  end.

(** [Function::evaluate], aegir/src/lib.rs:251. *)
Definition evaluate (n : node F) (c : ctx F) : ctx F * res err (value F) := f_eval (interp n) c.
(** [Function::evaluate_spec], aegir/src/lib.rs:265. *)
Definition evaluate_spec (n : node F) (c : ctx F) : ctx F * res err (spec F) :=
  f_spec (interp n) c.
(** [Function::evaluate_shape], aegir/src/lib.rs:278. *)
Definition evaluate_shape (n : node F) (c : ctx F) : ctx F * res err shape :=
  let (c', r) := f_shape (interp n) c in (c', res_map bty_shape r).

(** [Differentiable::evaluate_adjoint], aegir/src/lib.rs:316-326 ([None]: not Differentiable). *)
Definition evaluate_adjoint (n : node F) (t : ident) (c : ctx F)
  : option (ctx F * res err (value F)) :=
  option_map (fun n' => evaluate n' c) (adjoint n t).

End Eval.
Arguments fn F : clear implicits.
