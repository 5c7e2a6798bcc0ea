(** * The source AST: [/repo/chandeliers-syn/src/ast.rs].

    The grammar has one Rust type per precedence level (ast.rs:538-870), each a
    non-empty punctuated list of the level below; a one-element list is
    translated exactly as its element (translate/mod.rs:1014-1024, 1076-1083).
    Simplification: all levels are merged in one inductive type, in which the
    one-element chains need not appear.  Every source expression is represented;
    the type also contains trees that the parser cannot produce (a sum under a
    product without parentheses, say), for which the theorems hold as well.
    Tokens and positions are erased. *)
From Coq Require Import String List ZArith Bool.
From Verif Require Import Model.Base Model.Scalar Model.Ast Model.Options.
Import ListNotations.

(** The literals that [syn::Lit] distinguishes. Integer literals are
    unbounded; only those that are an operand of [merge] can be negative, otherwise
    the sign is an operator (see Model/Parse.v). *)
Inductive slit : Type :=
| SLInt (z : Z)
| SLFloat (f : f64)
| SLBool (b : bool)
| SLOther.            (* strings, characters, bytes *)

Inductive sexpr : Type :=
| XLit (l : slit)                                    (* ast.rs:538 *)
| XVar (x : ident)                                   (* ast.rs:632 *)
| XParen (l : list sexpr) (trailing : bool)          (* ast.rs:679 *)
| XCall (f : ident) (l : list sexpr) (trailing : bool)   (* ast.rs:654 *)
| XNeg (e : sexpr)                                   (* ast.rs:725 *)
| XNot (e : sexpr)                                   (* ast.rs:744 *)
| XPre (e : sexpr)                                   (* ast.rs:706 *)
| XIf (c y n : sexpr)                                (* ast.rs:831 *)
| XMerge (clk on off : sexpr)                        (* ast.rs:856 *)
| XBin (e : sexpr) (l : list (binop * sexpr))        (* Or, And, Add, Mul: ast.rs:813, 805, 773, 765 *)
| XCmp (e : sexpr) (l : list (cmpop * sexpr))        (* ast.rs:797 *)
| XClock (e : sexpr) (l : list (bool * sexpr))       (* ast.rs:757; true: when, false: whenot *)
| XFby (e : sexpr) (l : list sexpr)                  (* ast.rs:789 *)
| XThen (e : sexpr) (l : list sexpr).                (* ast.rs:781 *)

(** ast.rs:360-384 [TargetExpr] *)
Inductive starget : Type :=
| TVar (x : ident)
| TTuple (l : list starget) (trailing : bool).

(** ast.rs:895-940 [Statement] *)
Inductive sstmt : Type :=
| XDef (target : starget) (source : sexpr)
| XAssert (e : sexpr).

(** ast.rs:285-320 [ArgsTys]: groups of names sharing a type and a clock. *)
Definition sdecls : Type := list (list ident * (base * clock)).

(** ast.rs:987-1016 [Node] *)
Record snode : Type := mkSNode {
  s_name : ident;
  s_inputs : sdecls;
  s_outputs : sdecls;
  s_locals : sdecls;
  s_defs : list sstmt
}.

(** ast.rs:1031-1105, 1225 [Decl].  The type of an [extern const] carries a
    clock in the grammar, which the translation drops. *)
Inductive sdecl : Type :=
| XConst (x : ident) (t : base) (value : sexpr)
| XNode (nd : snode)
| XExtConst (x : ident) (t : base)
| XExtNode (x : ident) (inputs outputs : sdecls).

(** ast.rs:1240-1256 [AttrDecl], [Prog]: attributes outermost first. *)
Definition sattrdecl : Type := list attribute * sdecl.
Definition sprog : Type := list sattrdecl.
