(** The assertions of the unit tests and doc tests in /repo, evaluated in the model.  These are
    tests of the model, not proofs about all inputs: where the model computes what the authors'
    tests expect, it agrees with the code at least there.  Every [Example] cites the asserted
    lines.  Library functions are parameters of the model; here they are tables with the values
    of std / special_fun at the arguments the tests use. *)
From Coq Require Import ZArith SpecFloat List Bool String Arith.
Import ListNotations.
From Verif Require Import Base Shapes Scalar Buffers Spec Contraction Node Eval Instances Dual
  Fmt Compile Syntax.
Local Open Scope Z_scope.

(** Binary64 constants: an integer, or [m * 2^e]. *)
Definition fl (z : Z) : f64 := f64_of_Z z.
Definition fe (m e : Z) : f64 := binary_normalize 53 1024 m e false.

(** [powf] at the arguments of the tests (exponents 0, 1, 2; 2^1.5; 2^0.5). *)
Definition t_pow (x y : f64) : f64 :=
  if SFeqb y (fl 0) then fl 1
  else if SFeqb y (fl 1) then x
  else if SFeqb y (fl 2) then SFmul 53 1024 x x
  else if SFeqb x (fl 2) && SFeqb y (fe 3 (-1)) then fe 6369051672525773 (-51)
  else if SFeqb x (fl 2) && SFeqb y (fe 1 (-1)) then fe 6369051672525773 (-52)
  else S754_nan.

(** [ln]: NaN below zero, minus infinity at zero, and the values at 1, 2, exp 2, exp 4, 3.76868. *)
Definition t_ln (x : f64) : f64 :=
  if SFltb x (fl 0) then S754_nan
  else if SFeqb x (fl 0) then S754_infinity true
  else if SFeqb x (fl 1) then fl 0
  else if SFeqb x (fl 2) then fe 6243314768165359 (-53)
  else if SFeqb x (fe 8319337573440942 (-50)) then fl 2
  else if SFeqb x (fe 7684006504512088 (-47)) then fl 4
  else if SFeqb x (fe 8486312921839320 (-51)) then fe 5975037348784609 (-52)
  else S754_nan.

(** [exp] at -1, ln 2, ln 4. *)
Definition t_exp (x : f64) : f64 :=
  if SFeqb x (fl (-1)) then fe 6627126856707896 (-54)
  else if SFeqb x (fe 6243314768165359 (-53)) then fl 2
  else if SFeqb x (fe 6243314768165359 (-52)) then fl 4
  else S754_nan.

(** The gamma function at 2, 3, 4, 6 and erf at 1. *)
Definition t_gamma (x : f64) : f64 :=
  if SFeqb x (fl 2) then fl 1 else if SFeqb x (fl 3) then fl 2
  else if SFeqb x (fl 4) then fl 6 else if SFeqb x (fl 6) then fl 120 else S754_nan.
Definition t_erf (x : f64) : f64 :=
  if SFeqb x (fl 1) then fe 7590373954226315 (-53) else S754_nan.

Definition t_lib (l : libfn) : f64 -> f64 :=
  match l with
  | Lln => t_ln | Lexp => t_exp | Lgamma => t_gamma | Lerf => t_erf
  | _ => fun _ => S754_nan
  end.

Local Instance T : Scalar f64 := f64_scalar t_pow t_lib.

(** [PartialEq] of buffers as used by [assert_eq!]: same type, elements equal with [==] of f64
    (so 0.0 equals -0.0 and NaN equals nothing). *)
Fixpoint arr_same (a b : arr f64) : bool :=
  match a, b with
  | AF x, AF y => SFeqb x y
  | AN l, AN m =>
      (fix all (l m : list (arr f64)) : bool :=
         match l, m with
         | [], [] => true
         | x :: l', y :: m' => arr_same x y && all l' m'
         | _, _ => false
         end) l m
  | _, _ => false
  end.
Fixpoint list_same (l m : list f64) : bool :=
  match l, m with
  | [], [] => true
  | x :: l', y :: m' => SFeqb x y && list_same l' m'
  | _, _ => false
  end.
Definition same (v w : value f64) : bool :=
  match v, w with
  | VScal x, VScal y => SFeqb x y
  | VTup a b, VTup c d => SFeqb a c && SFeqb b d
  | VVec l, VVec m => list_same l m
  | VArr ds a, VArr es b => dims_eqb ds es && arr_same a b
  | _, _ => false
  end.

(** [f.evaluate(c).unwrap() == v] *)
Definition gives (n : node f64) (c : ctx f64) (v : value f64) : bool :=
  match evaluate n c with (_, Ok w) => same w v | _ => false end.
(** [f.evaluate_dual(t, c).unwrap() == dual!(v, a)] *)
Definition dual_is (n : node f64) (t : ident) (c : ctx f64) (v a : value f64) : bool :=
  match evaluate_dual n t c with
  | Some (_, Ok d) => same (d_value d) v && same (d_adjoint d) a
  | _ => false
  end.
(** [f.adjoint(t).evaluate(c).unwrap() == v] *)
Definition adj_gives (n : node f64) (t : ident) (c : ctx f64) (v : value f64) : bool :=
  match adjoint n t with Some m => gives m c v | None => false end.
(** [(x - y).abs() < 1e-5] *)
Definition near (x y : f64) : bool :=
  SFltb (SFabs (SFsub 53 1024 x y)) (fe 5902958103587057 (-69)).
Definition scal_near (r : res err (value f64)) (y : f64) : bool :=
  match r with Ok (VScal x) => near x y | _ => false end.
(** [aegir::ids::{X, Y, Z}] and contexts [ctx!{X = .., Y = ..}]. *)
Definition X : ident := 0%nat.
Definition Y : ident := 1%nat.
Definition Zi : ident := 2%nat.
Definition ctx1 (v : value f64) : ctx f64 := fun i => match i with 0%nat => Some v | _ => None end.
Definition ctxy (v w : value f64) : ctx f64 :=
  fun i => match i with 0%nat => Some v | 1%nat => Some w | _ => None end.
Definition sc (z : Z) : value f64 := VScal (fl z).
Definition vec (l : list Z) : value f64 := VArr [List.length l] (AN (map (fun z => AF (fl z)) l)).
Definition mat (m : nat) (l : list (list Z)) : value f64 :=
  VArr [List.length l; m] (AN (map (fun r => AN (map (fun z => AF (fl z)) r)) l)).

(** * Shapes *)

(** buffers/shapes/mod.rs:47. *)
Example shapes_diagonal : is_diagonal [1; 1; 1]%nat = true.
Proof. reflexivity. Qed.
(** buffers/shapes/mod.rs:118-122. *)
Example shapes_indices : st_indices [5]%nat = [[0]; [1]; [2]; [3]; [4]]%nat.
Proof. reflexivity. Qed.
(** buffers/shapes/mod.rs:160-165. *)
Example shapes_split : shape_split (St [2; 5]%nat) = Some (St [2], St [5])%nat.
Proof. reflexivity. Qed.
(** buffers/shapes/mod.rs:186-191. *)
Example shapes_concat : shape_concat (St [2]%nat) (St [5]%nat) = Some (St [2; 5]%nat).
Proof. reflexivity. Qed.

(** * Buffers *)

(** buffers/mod.rs:65-66. *)
Example buffers_full :
  same (full (TA [3]%nat) (fl 1)) (vec [1; 1; 1]) && same (full (TA [2; 1]%nat) (fl 0)) (mat 1 [[0]; [0]])
  = true.
Proof. vm_compute. reflexivity. Qed.
(** buffers/mod.rs:92-106; [usize] entries as natural numbers. *)
Example buffers_build :
  Buffers.build (TA [3; 3]%nat) (fun ix => match ix with [r; c] => (r * 3 + c)%nat | _ => 99%nat end)
  = VArr [3; 3]%nat (AN [AN [AF 0; AF 1; AF 2]; AN [AF 3; AF 4; AF 5]; AN [AF 6; AF 7; AF 8]]%nat).
Proof. reflexivity. Qed.
(** buffers/mod.rs:124-141. *)
Example buffers_subset :
  build_subset (E := unit) (TA [3; 3]%nat) 0%nat
    (filter (fun ix => match ix with
                       | [r; c] => ((r =? 0)%nat || (r =? 2)%nat) && ((c =? 0)%nat || (c =? 2)%nat)
                       | _ => false
                       end) (st_indices [3; 3]%nat))
    (fun ix => match ix with [r; c] => (r + c)%nat | _ => 99%nat end)
  = Ok (VArr [3; 3]%nat (AN [AN [AF 0; AF 0; AF 2]; AN [AF 0; AF 0; AF 0]; AN [AF 2; AF 0; AF 4]]%nat)).
Proof. reflexivity. Qed.
(** buffers/mod.rs:166-167, 178, 189. *)
Example buffers_tuples :
  same (full TT (fl 0)) (VTup (fl 0) (fl 0)) && same (full TT (fl 1)) (VTup (fl 1) (fl 1))
  && same (zeroes TT) (full TT (fl 0)) && same (ones TT) (full TT (fl 1)) = true.
Proof. vm_compute. reflexivity. Qed.
(** buffers/mod.rs:210-213, 240-245. *)
Example buffers_diagonal :
  same (diagonal (TA [2; 2]%nat) (fl 5)) (mat 2 [[5; 0]; [0; 5]])
  && same (identity (TA [2; 2]%nat)) (mat 2 [[1; 0]; [0; 1]]) = true.
Proof. vm_compute. reflexivity. Qed.
(** buffers/mod.rs:277-280, 301-304. *)
Example buffers_get :
  map (fun ix => match get (E := unit) (mat 2 [[1; 0]; [0; 1]]) ix with
                 | Ok (Some x) => Some x | _ => None end) [[0; 0]; [0; 1]; [1; 0]; [1; 1]]%nat
  = [Some (fl 1); Some (fl 0); Some (fl 0); Some (fl 1)].
Proof. vm_compute. reflexivity. Qed.
(** buffers/mod.rs:314-320; the closure [|x| x as u8 * 2] is given as a table. *)
Example buffers_map :
  vmap (fun x : f64 => if SFeqb x (fl 0) then 0 else if SFeqb x (fl 1) then 2
                       else if SFeqb x (fl 2) then 4 else if SFeqb x (fl 3) then 6 else 255)
       (VVec [fl 0; fl 1; fl 2; fl 3]) = VVec [0; 2; 4; 6].
Proof. vm_compute. reflexivity. Qed.
(** buffers/mod.rs:341-348. *)
Example buffers_mutate :
  vmutate SFopp (VVec [fl 0; fl 1; fl 2; fl 3])
  = VVec [S754_zero true; fl (-1); fl (-2); fl (-3)].
Proof. vm_compute. reflexivity. Qed.
(** buffers/mod.rs:358-360, 374-377. *)
Example buffers_fold :
  let b := VVec [fl 0; fl 1; fl 2; fl 3] in
  vfold (fun a x => fadd a (fmul (fl 2) x)) (fl 0) b = fl 12
  /\ vsum b = fl 6 /\ vsum (vmap (fmul (fl 2)) b) = fl 12.
Proof. vm_compute. repeat split. Qed.
(** buffers/mod.rs:418-421. *)
Example buffers_zip_fold :
  zip_fold (fun a p => fadd a (fmul (fst p) (snd p))) (fl 0) (vec [1; 2; 3]) (vec [-1; 0; 1]) = Ok (fl 2).
Proof. vm_compute. reflexivity. Qed.
(** buffers/mod.rs:444-447. *)
Example buffers_zip_map :
  match zip_map fmul (vec [1; 2; 3]) (vec [-1; 0; 1]) with Ok v => same v (vec [-1; 0; 3]) | _ => false end
  = true.
Proof. vm_compute. reflexivity. Qed.
(** buffers/mod.rs:481-484. *)
Example buffers_zip_shape : zip_shape (sc 1) (TA [3]%nat) = Ok (vec [1; 1; 1]).
Proof. vm_compute. reflexivity. Qed.
(** buffers/mod.rs:533-536. *)
Example buffers_contract : contract 1 (vec [1; 2; 3]) (vec [-1; 0; 1]) = Ok (sc 2).
Proof. vm_compute. reflexivity. Qed.
(** buffers/mod.rs:554-557. *)
Example buffers_contract_spec :
  contract_spec 1 (Full (TA [3; 3]%nat) (fl 1)) (Full (TA [3; 3]%nat) (fl 2))
  = Ok (Full (TA [3; 3]%nat) (fl 6)).
Proof. vm_compute. reflexivity. Qed.
(** buffers/arrays/mod.rs:28-38. *)
Example arrays_ops :
  same (vmap (fun x => fmul x (fl 2)) (vec [1; 2])) (vec [2; 4]) = true
  /\ vfold (fun a x => fadd a (fmul x (fl 2))) (fl 0) (vec [1; 2]) = fl 6
  /\ vsum (vec [1; 2]) = fl 3
  /\ zip_fold (fun a p => fadd a (fmul (fst p) (snd p))) (fl 0) (vec [1; 2]) (vec [1; 2]) = Ok (fl 5).
Proof. vm_compute. repeat split. Qed.
(** buffers/arrays/contraction_ops.rs:219-249. *)
Example arrays_contract :
  contract 1 (sc 2) (sc 4) = Ok (sc 8)
  /\ contract 1 (vec [-1; 1]) (mat 2 [[1; 2]; [3; 4]]) = Ok (vec [2; 2])
  /\ contract 1 (mat 2 [[1; 2]; [3; 4]]) (vec [-1; 1]) = Ok (vec [1; 1])
  /\ contract 1 (mat 2 [[1; 2]; [3; 4]]) (mat 2 [[1; 2]; [3; 4]]) = Ok (mat 2 [[7; 10]; [15; 22]]).
Proof. vm_compute. repeat split. Qed.
(** buffers/spec.rs:19-21, 106-109, 138-143. *)
Example spec_ops :
  into_spec (vec [1; 2; 3; 4; 5]) = Raw (vec [1; 2; 3; 4; 5])
  /\ spec_map (fun x => fadd x (fl 5)) (Full (TA [20]%nat) (fl 0)) = Full (TA [20]%nat) (fl 5)
  /\ spec_zip_map fadd (Full (TA [10]%nat) (fl 0)) (Full (TA [10]%nat) (fl 1))
     = Ok (Full (TA [10]%nat) (fl 1)).
Proof. vm_compute. repeat split. Qed.
(** buffers/scalars.rs:130-133. *)
Example scalars_field :
  fadd (fl 1) (fl 2) = fl 3 /\ fsub (fl 1) (fl 2) = fl (-1) /\ fmul (fl 1) (fl 2) = fl 2
  /\ fdiv (fl 1) (fl 2) = fe 1 (-1).
Proof. vm_compute. repeat split. Qed.

(** * Duals, dual.rs:294-353 *)

Definition du (a b : Z) : dual f64 f64 := Dual (fl a) (fl b).
Definition du_same (d e : dual f64 f64) : bool :=
  SFeqb (d_value d) (d_value e) && SFeqb (d_adjoint d) (d_adjoint e).
(** dual.rs:294-298. *)
Example dual_neg_test :
  du_same (dual_neg fneg fneg (du 0 0)) (du 0 0) && du_same (dual_neg fneg fneg (du 2 0)) (du (-2) 0)
  && du_same (dual_neg fneg fneg (du (-4) 0)) (du 4 0) = true.
Proof. vm_compute. reflexivity. Qed.
(** dual.rs:301-317. *)
Example dual_add_test :
  forallb (fun p => match p with (a, b, c) => du_same (dual_add fadd fadd a b) c end)
    [(du 0 0, du 1 0, du 1 0); (du 5 0, du 1 0, du 6 0); (du 5 0, du (-2) 0, du 3 0);
     (du 0 1, du 1 0, du 1 1); (du 5 1, du 1 0, du 6 1); (du 5 1, du (-2) 0, du 3 1);
     (du 0 0, du 1 1, du 1 1); (du 5 0, du 1 1, du 6 1); (du 5 0, du (-2) 1, du 3 1);
     (du 0 1, du 1 1, du 1 2); (du 5 1, du 1 1, du 6 2); (du 5 1, du (-2) 1, du 3 2)] = true.
Proof. vm_compute. reflexivity. Qed.
(** dual.rs:320-336, 351-353. *)
Example dual_sub_test :
  forallb (fun p => match p with (a, b, c) => du_same (dual_sub fsub fsub a b) c end)
    [(du 0 0, du 1 0, du (-1) 0); (du 5 0, du 1 0, du 4 0); (du 5 0, du (-2) 0, du 7 0);
     (du 0 1, du 1 0, du (-1) 1); (du 5 1, du 1 0, du 4 1); (du 5 1, du (-2) 0, du 7 1);
     (du 0 0, du 1 1, du (-1) (-1)); (du 5 0, du 1 1, du 4 (-1)); (du 5 0, du (-2) 1, du 7 (-1));
     (du 0 1, du 1 1, du (-1) 0); (du 5 1, du 1 1, du 4 0); (du 5 1, du (-2) 1, du 7 0)] = true.
Proof. vm_compute. reflexivity. Qed.
(** dual.rs:339-350. *)
Example dual_mul_test :
  forallb (fun p => match p with (a, b, c) => du_same (dual_mul fmul fmul fadd a b) c end)
    [(du 0 0, du 1 0, du 0 0); (du 5 0, du 1 0, du 5 0); (du 5 0, du (-2) 0, du (-10) 0);
     (du 0 1, du 1 0, du 0 1); (du 5 1, du 1 0, du 5 1); (du 5 1, du (-2) 0, du (-10) (-2));
     (du 0 0, du 1 1, du 0 0); (du 5 0, du 1 1, du 5 5); (du 5 0, du (-2) 1, du (-10) 5)] = true.
Proof. vm_compute. reflexivity. Qed.

(** * Source nodes *)

(** lib.rs:247-249, 260-263, 304-307. *)
Example lib_docs :
  gives (Var X) (ctx1 (sc 1)) (sc 1) = true
  /\ option_map (fun m => snd (evaluate_spec m (ctx1 (vec [1; 2])))) (adjoint (F := f64) (Var X) X)
     = Some (Ok (Diagonal (TA [2; 2]%nat) (fl 1)))
  /\ adj_gives (Mul (Var X) (Const (sc 2))) X (ctx1 (sc 10)) (sc 2) = true.
Proof. vm_compute. repeat split. Qed.
(** meta/variable.rs:31-38, 272-277, 282-284, 293-295. *)
Example variable_tests :
  gives (Var X) (ctx1 (vec [1; 2])) (vec [1; 2])
  && adj_gives (Var X) X (ctx1 (vec [1; 2])) (mat 2 [[1; 0]; [0; 1]])
  && gives (Var X) (ctxy (sc 1) (sc 0)) (sc 1)
  && gives (Var X) (ctxy (vec [-10; 5]) (sc 0)) (vec [-10; 5])
  && gives (Var X) (ctxy (VTup (fl (-1)) (fl 50)) (sc 0)) (VTup (fl (-1)) (fl 50))
  && gives (Var X) (ctxy (VVec [fl 1; fl 2]) (sc 0)) (VVec [fl 1; fl 2])
  && adj_gives (Var X) Y (ctxy (sc 1) (sc 0)) (sc 0)
  && adj_gives (Var X) X (ctxy (sc 1) (sc 0)) (sc 1) = true.
Proof. vm_compute. reflexivity. Qed.
(** meta/constant.rs:32-39, 207-212. *)
Example constant_tests :
  gives (Const (vec [10; 10])) (ctx1 (vec [1; 2])) (vec [10; 10])
  && adj_gives (Const (vec [10; 10])) X (ctx1 (vec [1; 2])) (mat 2 [[0; 0]; [0; 0]])
  && gives (Const (sc 2)) (ctxy (sc 1) (sc 0)) (sc 2)
  && gives (Const (sc 2)) (ctxy (vec [-10; 5]) (sc 0)) (sc 2)
  && gives (Const (sc 2)) (ctxy (VTup (fl (-1)) (fl 50)) (sc 0)) (sc 2)
  && gives (Const (sc 2)) (ctxy (VVec [fl 1; fl 2]) (sc 0)) (sc 2) = true.
Proof. vm_compute. reflexivity. Qed.

(** * Operators *)

(** All the scalar doc tests of one unary operator: argument, value, gradient. *)
Definition un_docs (u : unop) (l : list (Z * Z * f64)) : bool :=
  forallb (fun p => match p with (x, v, a) => dual_is (Un u (Var X)) X (ctx1 (sc x)) (sc v) (VScal a) end) l.
(** unary.rs:22-24, 62-64, 99-101. *)
Example one_docs :
  un_docs SubOne [(1, 0, fl 1); (0, -1, fl 1); (-1, -2, fl 1)]
  && un_docs OneSub [(1, 0, fl (-1)); (0, 1, fl (-1)); (-1, 2, fl (-1))]
  && un_docs AddOne [(1, 2, fl 1); (0, 1, fl 1); (-1, 0, fl 1)] = true.
Proof. vm_compute. reflexivity. Qed.
(** unary.rs:139-142, 179-181, 288-289. *)
Example square_docs :
  un_docs Square [(-1, 1, fl (-2)); (0, 0, fl 0); (1, 1, fl 2); (2, 4, fl 4)]
  && un_docs Double [(-1, -2, fl 2); (0, 0, fl 2); (1, 2, fl 2)]
  && un_docs Negate [(1, -1, fl (-1)); (-1, 1, fl (-1))] = true.
Proof. vm_compute. reflexivity. Qed.
(** unary.rs:218-225. *)
Example sum_doc :
  dual_is (Sum (Var X)) X (ctx1 (vec [1; 2; 3])) (sc 6) (mat 3 [[1; 0; 0]; [0; 1; 0]; [0; 0; 1]]) = true.
Proof. vm_compute. reflexivity. Qed.
(** unary.rs:328-330. *)
Example dirac_doc :
  gives (Un Dirac (Var X)) (ctx1 (sc (-1))) (sc 0)
  && gives (Un Dirac (Var X)) (ctx1 (sc 0)) (VScal (S754_infinity false))
  && gives (Un Dirac (Var X)) (ctx1 (sc 1)) (sc 0) = true.
Proof. vm_compute. reflexivity. Qed.
(** unary.rs:357-359, 394-396. *)
Example sign_docs :
  un_docs Sign [(-1, -1, fl 0); (0, 0, S754_infinity false); (1, 1, fl 0)]
  && un_docs Abs [(-1, 1, fl (-1)); (0, 0, fl 0); (1, 1, fl 1)] = true.
Proof. vm_compute. reflexivity. Qed.
(** logarithmic.rs:20-21, 65, 105-106. *)
Example log_docs :
  scal_near (snd (evaluate (Un Ln (Var X)) (ctx1 (VScal (fe 8319337573440942 (-50)))))) (fl 2)
  && scal_near (snd (evaluate (Un Ln (Var X)) (ctx1 (VScal (fe 7684006504512088 (-47)))))) (fl 4)
  && scal_near (snd (evaluate (Un XLnX (Var X)) (ctx1 (VScal (fe 8486312921839320 (-51)))))) (fl 5)
  && scal_near (snd (evaluate (Un Exp (Var X)) (ctx1 (VScal (fe 6243314768165359 (-53)))))) (fl 2)
  && scal_near (snd (evaluate (Un Exp (Var X)) (ctx1 (VScal (fe 6243314768165359 (-52)))))) (fl 4) = true.
Proof. vm_compute. reflexivity. Qed.
(** sigmoid.rs:13-16, 66-69. *)
Example sigmoid_docs :
  forallb (fun p => match p with (u, x, v, a) =>
     match evaluate_dual (Un u (Var X)) X (ctx1 (VScal x)) with
     | Some (_, Ok d) => match d_value d, d_adjoint d with
                         | VScal r, VScal s => near r v && near s a
                         | _, _ => false
                         end
     | _ => false
     end end)
    [(Rabbit, fe 1 (-1), fe 1 (-2), fl 0);
     (Sigmoid, fl 1, fe 6584803087170950 (-53), fe 7083621781898506 (-55))] = true.
Proof. vm_compute. reflexivity. Qed.
(** special.rs:15-17, 107-108, 131-134, 160-163. *)
Example special_docs :
  gives (Un Gamma (Var X)) (ctx1 (sc 2)) (sc 1) && gives (Un Gamma (Var X)) (ctx1 (sc 3)) (sc 2)
  && gives (Un Gamma (Var X)) (ctx1 (sc 4)) (sc 6)
  && gives (factorial (Var X)) (ctx1 (sc 1)) (sc 1) && gives (factorial (Var X)) (ctx1 (sc 5)) (sc 120)
  && match evaluate (erfc (Var X)) (ctx1 (sc 1)) with
     | (_, Ok (VScal y)) => gives (Un Erf (Var X)) (ctx1 (sc 1)) (VScal (fsub (fl 1) y))
     | _ => false
     end = true.
Proof. vm_compute. reflexivity. Qed.

Definition y2 : node f64 := Power (Var Y) (Const (sc 2)).
(** binary.rs:40-43. *)
Example power_docs :
  forallb (fun p => match p with (x, v, a) =>
             dual_is (Power (Var X) (Const (sc 2))) X (ctx1 (sc x)) (sc v) (sc a) end)
          [(-1, 1, -2); (0, 0, 0); (1, 1, 2); (2, 4, 4)] = true.
Proof. vm_compute. reflexivity. Qed.
(** binary.rs:51-61, with the absolute value that the tests leave out. *)
Example power_xy_docs :
  let c := ctxy (sc 2) (VScal (fe 3 (-1))) in
  let at_ t := match adjoint (F := f64) (Power (Var X) (Var Y)) t with
               | Some m => snd (evaluate m c) | None => Stuck end in
  scal_near (snd (evaluate (Power (Var X) (Var Y)) c)) (t_pow (fl 2) (fe 3 (-1)))
  && scal_near (at_ X) (fmul (fe 3 (-1)) (t_pow (fl 2) (fe 1 (-1))))
  && scal_near (at_ Y) (fmul (t_pow (fl 2) (fe 3 (-1))) (t_ln (fl 2))) = true.
Proof. vm_compute. reflexivity. Qed.
(** binary.rs:184-195. *)
Example add_docs :
  let c := ctxy (sc 1) (sc 2) in
  dual_is (Add (Var X) (Var Y)) X c (sc 3) (sc 1) && dual_is (Add (Var X) (Var Y)) Y c (sc 3) (sc 1)
  && dual_is (Add (Var X) y2) X c (sc 5) (sc 1) && dual_is (Add (Var X) y2) Y c (sc 5) (sc 4) = true.
Proof. vm_compute. reflexivity. Qed.
(** binary.rs:319-331. *)
Example sub_docs :
  let c := ctxy (sc 1) (sc 2) in
  dual_is (Sub (Var X) (Var Y)) X c (sc (-1)) (sc 1) && dual_is (Sub (Var X) (Var Y)) Y c (sc (-1)) (sc (-1))
  && dual_is (Sub (Var X) y2) X c (sc (-3)) (sc 1) && dual_is (Sub (Var X) y2) Y c (sc (-3)) (sc (-4)) = true.
Proof. vm_compute. reflexivity. Qed.
(** binary.rs:455-467. *)
Example mul_docs :
  let c := ctxy (sc 3) (sc 2) in
  dual_is (Mul (Var X) (Var Y)) X c (sc 6) (sc 2) && dual_is (Mul (Var X) (Var Y)) Y c (sc 6) (sc 3)
  && dual_is (Mul (Var X) y2) X c (sc 12) (sc 4) && dual_is (Mul (Var X) y2) Y c (sc 12) (sc 12) = true.
Proof. vm_compute. reflexivity. Qed.
(** linalg/mod.rs:22-28, 135-142. *)
Example contract_docs :
  gives (Contract 1 (Var X) (Var Y)) (ctxy (vec [1; 2]) (vec [-1; 1])) (sc 1)
  && dual_is (Contract 1 (Var X) (Var Y)) X (ctxy (vec [1; 2; 3]) (vec [-1; 0; 2])) (sc 5) (vec [-1; 0; 2])
  && dual_is (Contract 1 (Var X) (Var Y)) Y (ctxy (vec [1; 2; 3]) (vec [-1; 0; 2])) (sc 5) (vec [1; 2; 3])
  = true.
Proof. vm_compute. reflexivity. Qed.

(** * Text and the [aegir!] macro *)

Local Open Scope string_scope.
(** fmt.rs:64-66. *)
Example fmt_doc :
  option_map expr_display
    (to_expr (F := f64) (fun i => match i with 0%nat => "x" | 1%nat => "y" | _ => "z" end) (fun _ => "?")
       (Mul (Add (Var X) (Var Y)) (Var Zi))) = Some "(x + y) ∘ z".
Proof. reflexivity. Qed.

(** The node built by [aegir!] from tokens, with [a], [b], [c] bound to the variables A, B, C and
    the literals 10 / 10.0 of the tests. *)
Definition compiled (ts : list tok) : option (node f64) :=
  match aegir_macro ts with
  | Ok ce => Compile.build (fun p => if String.eqb p "a" then Some (Var 0%nat)
                             else if String.eqb p "b" then Some (Var 1%nat)
                             else if String.eqb p "c" then Some (Var 2%nat) else None)
                   (fun _ => Some (fl 10)) ce
  | _ => None
  end.
(** aegir_compile/tests/tests.rs:12-21: the literals become constants of type i64 and f64. *)
Example compile_literals :
  aegir_macro [XLit (LInt "10")] = Ok (CConst (LInt "10"))
  /\ aegir_macro [XLit (LFloat "10.0")] = Ok (CConst (LFloat "10.0"))
  /\ compiled [XLit (LFloat "10.0")] = Some (Const (sc 10)).
Proof. vm_compute. repeat split. Qed.
(** aegir_compile/tests/tests.rs:36-60. *)
Example compile_binary :
  let a := XPath "a" in let b := XPath "b" in
  compiled [a; XOp BAdd; b] = Some (Add (Var 0%nat) (Var 1%nat))
  /\ compiled [a; XOp BSub; b] = Some (Sub (Var 0%nat) (Var 1%nat))
  /\ compiled [a; XOp BMul; b] = Some (Mul (Var 0%nat) (Var 1%nat))
  /\ compiled [a; XOp BXor; b] = Some (Power (Var 0%nat) (Var 1%nat)).
Proof. vm_compute. repeat split. Qed.
(** aegir_compile/tests/tests.rs:63-75. *)
Example compile_chaining :
  let a := XPath "a" in let b := XPath "b" in let c := XPath "c" in
  compiled [a; XOp BAdd; b; XOp BMul; c] = Some (Add (Var 0%nat) (Mul (Var 1%nat) (Var 2%nat)))
  /\ compiled [a; XOp BMul; b; XOp BAdd; c] = Some (Add (Mul (Var 0%nat) (Var 1%nat)) (Var 2%nat)).
Proof. vm_compute. repeat split. Qed.
(** README.md: [sse] written with methods, [(a - b).squared()], and with [aegir!((a - b) ^ 2)]. *)
Example compile_readme :
  compiled [XParen [XPath "a"; XOp BSub; XPath "b"]; XOp BXor; XLit (LInt "2")]
  = Some (Un Square (Sub (Var 0%nat) (Var 1%nat))).
Proof. vm_compute. reflexivity. Qed.
