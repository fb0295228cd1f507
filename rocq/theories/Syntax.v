(** Model of what stands around the conversion in [aegir!]: reading the tokens as an expression
    (aegir_compile/src/lib.rs:136; the reader itself is syn's, an external crate) and calling the converter
    (137-141).  No proofs in this file. *)
From Coq Require Import List Arith Bool String.
Import ListNotations.
From Verif Require Import Base Compile.

(** Tokens of the macro's argument (aegir_compile/src/lib.rs:135), as far as arithmetic needs them: paths, literals,
    operators, dots, commas, [!], [&], parenthesised groups and the blocks
    [{ aegir::meta::Constant::<T>(l) }] which the macro itself writes (aegir_compile/src/lib.rs:76-85).
    As a token, [BOther] stands for [%]. *)
Inductive tok :=
| XPath (p : string)
| XLit (l : lit)
| XOp (op : binop)
| XDot
| XComma
| XBang
| XAmp
| XBlock (l : lit)
| XParen (ts : list tok).

(** The prefix operator of a token ([unary_expr] of syn, called at aegir_compile/src/lib.rs:136).
    Simplified: [&] only stands before an operand, [&mut] is left out. *)
Definition prefix_of (t : tok) : option prefix :=
  match t with
  | XOp BSub => Some PNeg
  | XOp BMul => Some PDeref
  | XBang => Some PNot
  | XAmp => Some PRef
  | _ => None
  end.

(** The block around a constant, aegir_compile/src/lib.rs:76-85, as an expression: a block with a call
    of the path [aegir::meta::Constant] in it. *)
Definition block (l : lit) : rexpr := ROther [ROther [RPath "aegir::meta::Constant"; RLit l]].

(** [syn::expr::Precedence] (external, used by aegir_compile/src/lib.rs:136): the position of BitXor,
    Arithmetic and Term in its order. *)
Definition prec (op : binop) : nat :=
  match op with BXor => 7 | BAdd | BSub => 10 | BMul | BDiv | BOther => 11 end.

(** syn's reader for expressions (external, called at aegir_compile/src/lib.rs:136), restricted to the tokens
    above; [None] is "not an expression of this fragment", which covers compile errors and syntax
    outside of it (calls of paths, fields, other blocks).  Simplified: the inner loop of
    syn's [parse_expr], which reads the right operand as far as operators bind tighter, is a recursive
    call with the next precedence.  [fuel] bounds the depth of calls; [fuel_of] is always enough. *)
Fixpoint p_expr (fuel : nat) (ts : list tok) {struct fuel} : option (rexpr * list tok) :=
  match fuel with
  | 0 => None
  | S k => match p_unary k ts with Some (l, r) => p_ops k l 0 r | None => None end
  end
with p_unary (fuel : nat) (ts : list tok) {struct fuel} : option (rexpr * list tok) :=
  match fuel with
  | 0 => None
  | S k =>
      match ts with
      | XPath p :: r => p_trailer k (RPath p) r
      | XLit l :: r => p_trailer k (RLit l) r
      | XBlock l :: r => p_trailer k (block l) r
      | XParen g :: r => match p_expr k g with Some (e, []) => p_trailer k (RParen e) r | _ => None end
      | t :: r =>
          match prefix_of t with
          | Some p => match p_unary k r with Some (e, r1) => Some (RPrefix p e, r1) | None => None end
          | None => None
          end
      | [] => None
      end
  end
with p_trailer (fuel : nat) (e : rexpr) (ts : list tok) {struct fuel} : option (rexpr * list tok) :=
  match fuel with
  | 0 => None
  | S k =>
      match ts with
      | XDot :: XPath m :: XParen g :: r =>
          match p_args k g with Some args => p_trailer k (RMethod e m args) r | None => None end
      | XDot :: _ | XParen _ :: _ => None
      | _ => Some (e, ts)
      end
  end
with p_args (fuel : nat) (ts : list tok) {struct fuel} : option (list rexpr) :=
  match fuel with
  | 0 => None
  | S k =>
      match ts with
      | [] => Some []
      | _ =>
          match p_expr k ts with
          | Some (e, []) => Some [e]
          | Some (e, XComma :: r) => option_map (cons e) (p_args k r)
          | _ => None
          end
      end
  end
with p_ops (fuel : nat) (lhs : rexpr) (base : nat) (ts : list tok) {struct fuel} : option (rexpr * list tok) :=
  match fuel with
  | 0 => None
  | S k =>
      match ts with
      | XOp op :: r =>
          if base <=? prec op then
            match p_unary k r with
            | Some (u, r1) =>
                match p_ops k u (S (prec op)) r1 with
                | Some (rhs, r2) => p_ops k (RBin op lhs rhs) base r2
                | None => None
                end
            | None => None
            end
          else Some (lhs, ts)
      | _ => Some (lhs, ts)
      end
  end.

(** Number of tokens (a measure for the reader called at aegir_compile/src/lib.rs:136; no counterpart
    in /repo). *)
Fixpoint tok_size (t : tok) : nat :=
  match t with XParen g => S (list_sum (map tok_size g)) | _ => 1 end.
Definition fuel_of (ts : list tok) : nat := 4 * list_sum (map tok_size ts) + 4.

(** [parse_macro_input!(tokens as Expr)], aegir_compile/src/lib.rs:136: all tokens have to be read. *)
Definition parse_tokens (ts : list tok) : option rexpr :=
  match p_expr (fuel_of ts) ts with Some (e, []) => Some e | _ => None end.

(** [aegir], aegir_compile/src/lib.rs:134-142; [Err] is the compile error of the reader. *)
Definition aegir_macro (ts : list tok) : res unit cexpr :=
  match parse_tokens ts with Some e => fold_expr e | None => Err tt end.

(** Printing the converted expression ([quote!(#converted)], aegir_compile/src/lib.rs:141, by the printer of syn,
    which adds no parentheses).  [None]: expressions outside of the fragment. *)
Definition print_prefix (p : prefix) : tok :=
  match p with PNeg => XOp BSub | PDeref => XOp BMul | PNot => XBang | PRef => XAmp end.
(** Arguments separated by commas, without one at the end ([Punctuated::push_value],
    aegir_compile/src/lib.rs:59-61; printed at 141).  Simplified: a comma at the end of the arguments
    in the source is dropped, which changes nothing for the reader. *)
Fixpoint print_args (l : list (option (list tok))) : option (list tok) :=
  match l with
  | [] => Some []
  | [a] => a
  | Some a :: l' => option_map (fun r => a ++ XComma :: r) (print_args l')
  | None :: _ => None
  end.
(** The tokens of an expression, aegir_compile/src/lib.rs:141. *)
Fixpoint print (c : cexpr) : option (list tok) :=
  match c with
  | CConst l => Some [XBlock l]
  | CLit l => Some [XLit l]
  | CParen e => option_map (fun ts => [XParen ts]) (print e)
  | CPath p => Some [XPath p]
  | CMethod r m args =>
      match print r, print_args (map print args) with
      | Some ts, Some ta => Some (ts ++ [XDot; XPath m; XParen ta])
      | _, _ => None
      end
  | CPrefix p e => option_map (cons (print_prefix p)) (print e)
  | COther _ => None
  end.

(** The converted expression as an expression: both are [syn::Expr] in aegir_compile/src/lib.rs:11,139. *)
Fixpoint as_expr (c : cexpr) : rexpr :=
  match c with
  | CConst l => block l
  | CLit l => RLit l
  | CParen e => RParen (as_expr e)
  | CPath p => RPath p
  | CMethod r m args => RMethod (as_expr r) m (map as_expr args)
  | CPrefix p e => RPrefix p (as_expr e)
  | COther cs => ROther (map as_expr cs)
  end.
