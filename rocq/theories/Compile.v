(** Model of the [aegir!] macro (aegir_compile/src/lib.rs).  Rust expressions (crate syn) are
    represented as far as the macro looks at them.  No proofs in this file. *)
From Coq Require Import List Arith Bool String.
Import ListNotations.
From Verif Require Import Base Shapes Scalar Buffers Spec Node.
Local Open Scope string_scope.

(** Literals with their text ([syn::Lit], aegir_compile/src/lib.rs:28-41,75-87); [LOther] is every other kind. *)
Inductive lit := LInt (text : string) | LFloat (text : string) | LOther (text : string).

(** Binary operators ([syn::BinOp], aegir_compile/src/lib.rs:18-26); [BOther] is every operator without an arm. *)
Inductive binop := BAdd | BSub | BMul | BDiv | BXor | BOther.

(** Prefix operators [-], [*], [!] ([syn::UnOp], folded at aegir_compile/src/lib.rs:125) and [&]
    ([syn::ExprReference], line 117). *)
Inductive prefix := PNeg | PDeref | PNot | PRef.

(** Expressions ([syn::Expr], aegir_compile/src/lib.rs:12-130).  [ROther] is every other kind of expression with all
    expressions nested in it; macros and verbatim tokens have none (aegir_compile/src/lib.rs:112,129). *)
Inductive rexpr :=
| RBin (op : binop) (l r : rexpr)
| RLit (l : lit)
| RParen (e : rexpr)
| RPath (p : string)
| RMethod (recv : rexpr) (name : string) (args : list rexpr)
| RPrefix (p : prefix) (e : rexpr)
| ROther (children : list rexpr).

(** Converted expressions: [CConst] is the block [{ aegir::meta::Constant::<T>(text) }] of
    aegir_compile/src/lib.rs:76-85. *)
Inductive cexpr :=
| CConst (l : lit)
| CLit (l : lit)
| CParen (e : cexpr)
| CPath (p : string)
| CMethod (recv : cexpr) (name : string) (args : list cexpr)
| CPrefix (p : prefix) (e : cexpr)
| COther (children : list cexpr).

(** The method of an operator, aegir_compile/src/lib.rs:18-26; [None] is [unimplemented!()]. *)
Definition method_of (op : binop) : option string :=
  match op with
  | BAdd => Some "add" | BSub => Some "sub" | BMul => Some "mul" | BXor => Some "pow"
  | BDiv | BOther => None
  end.

(** [is_two], aegir_compile/src/lib.rs:28-43: equality of literals in syn compares their text. *)
Definition is_two (l : lit) : bool :=
  match l with LFloat t => String.eqb t "2.0" | LInt t => String.eqb t "2" | LOther _ => false end.

(** Folding a list of expressions ([fold_expr_method_call] and the other folds of syn, called at
    aegir_compile/src/lib.rs:88-130): all elements, or a panic. *)
Fixpoint sequence {E A} (l : list (res E A)) : res E (list A) :=
  match l with
  | [] => Ok []
  | r :: l' => res_bind r (fun a => res_map (cons a) (sequence l'))
  end.

(** [fold_expr], aegir_compile/src/lib.rs:11-132. *)
Fixpoint fold_expr (e : rexpr) : res unit cexpr :=
  match e with
  | RBin op l r =>
      match method_of op with
      | None => Panic
      | Some m =>
          match r with
          | RLit x =>
              if String.eqb m "pow" && is_two x
              then res_map (fun l' => CMethod l' "squared" []) (fold_expr l)
              else res_bind (fold_expr r) (fun r' => res_map (fun l' => CMethod l' m [r']) (fold_expr l))
          | _ => res_bind (fold_expr r) (fun r' => res_map (fun l' => CMethod l' m [r']) (fold_expr l))
          end
      end
  | RLit l => match l with LOther _ => Ok (CLit l) | _ => Ok (CConst l) end
  | RParen e => res_map CParen (fold_expr e)
  | RPath p => Ok (CPath p)
  | RMethod r m args =>
      res_bind (fold_expr r) (fun r' => res_map (CMethod r' m) (sequence (map fold_expr args)))
  | RPrefix p e => res_map (CPrefix p) (fold_expr e)
  | ROther cs => res_map COther (sequence (map fold_expr cs))
  end.

Section Build.
Context {F : Type}.
(** Nodes bound to the paths in scope, and the values of the literals: [num l] is [None] where
    [Constant::<T>(l)] does not have the buffer type of the tree. *)
Variable env : string -> option (node F).
Variable num : lit -> option F.

(** The methods of [trait Node] that build arithmetic nodes, aegir/src/lib.rs:141-224.
    [cached] (131-139) is left out. *)
Definition apply_method (name : string) (r : node F) (args : list (node F)) : option (node F) :=
  match args with
  | [] =>
      if String.eqb name "squared" then Some (Un Square r)
      else if String.eqb name "abs" then Some (Un Abs r)
      else if String.eqb name "neg" then Some (Un Negate r)
      else if String.eqb name "ln" then Some (Un Ln r)
      else if String.eqb name "sum" then Some (Sum r)
      else if String.eqb name "sigmoid" then Some (Un Sigmoid r)
      else None
  | [a] =>
      if String.eqb name "add" then Some (Add r a)
      else if String.eqb name "sub" then Some (Sub r a)
      else if String.eqb name "mul" then Some (Mul r a)
      else if String.eqb name "div" then Some (Div r a)
      else if String.eqb name "pow" then Some (Power r a)
      else if String.eqb name "dot" then Some (Contract 1 r a)
      else None
  | _ => None
  end.

(** All elements of a list of options: the arguments of a call, aegir_compile/src/lib.rs:58-70. *)
Fixpoint all_some {A} (l : list (option A)) : option (list A) :=
  match l with
  | [] => Some []
  | Some a :: l' => option_map (cons a) (all_some l')
  | None :: _ => None
  end.

(** The node built by running the converted expression ([aegir], aegir_compile/src/lib.rs:135-142); [None]: does not
    compile or is not a node.  No type of /repo that is a node implements the traits of the prefix
    operators; left out: references to nodes, which are not nodes but can be dereferenced. *)
Fixpoint build (e : cexpr) : option (node F) :=
  match e with
  | CConst l => option_map (fun x => Const (VScal x)) (num l)
  | CLit _ => None
  | CParen e => build e
  | CPath p => env p
  | CMethod r m args =>
      match build r, all_some (map build args) with
      | Some n, Some ns => apply_method m n ns
      | _, _ => None
      end
  | CPrefix _ _ => None
  | COther _ => None
  end.

End Build.
