(** * The analysis AST: [/repo/chandeliers-san/src/ast/mod.rs].
    Source positions ([Sp<_>]) are erased. *)
From Coq Require Import String List ZArith Bool.
From Verif Require Import Model.Base Model.Scalar Model.Value Model.Options.
Import ListNotations.

(** ast/mod.rs:165-174 [ty::Base] *)
Inductive base : Type := BInt | BFloat | BBool | BOther (n : ident).

(** ast/mod.rs:240-248 [ty::Tuple] *)
Inductive ty : Type :=
| TSingle (b : base)
| TMult (l : list ty).

(** ast/mod.rs:179-191 [ty::Clock] *)
Inductive clock : Type :=
| CExplicit (activation : bool) (id : ident)
| CImplicit
| CAdaptative.

(** ast/mod.rs:765-770 [decl::TyVar]: name, base type, clock, stored depth
    (the depth is filled by the positivity pass). *)
Record tyvar : Type := mkVar {
  v_name : ident;
  v_base : base;
  v_clk : clock;
  v_depth : nat
}.

(** ast/mod.rs:514-521 [expr::Lit] *)
Inductive lit : Type := LInt (z : Z) | LFloat (f : f64) | LBool (b : bool).

(** ast/mod.rs:536-640 [expr::Expr].
    [EVar x d] is [Reference(Var(Past{var: x, depth: d}))]. *)
Inductive expr : Type :=
| ELit (l : lit)
| EVar (x : ident) (depth : nat)
| EGlobal (x : ident)
| ETuple (l : list expr)
| EPre (e : expr)                         (* DummyPre *)
| EParen (e : expr)                       (* DummyParen *)
| EBin (op : binop) (l r : expr)
| EUn (op : unop) (e : expr)
| ECmp (op : cmpop) (l r : expr)
| EClock (pos : bool) (inner activate : expr)   (* pos: when; otherwise whenot *)
| ELater (delay : nat) (before after : expr)
| EFetch (id : nat) (init : option expr) (next : expr)
| EFlip (id : nat) (initial continued : expr)
| EIf (c y n : expr)
| EMerge (switch on off : expr)
| ESub (delay : nat) (id : nat) (args : expr).

(** ast/mod.rs:695-700 [stmt::VarTuple] *)
Inductive vartuple : Type :=
| VTSingle (x : ident)
| VTMult (l : list vartuple).

(** ast/mod.rs:726-752 [stmt::Statement] *)
Inductive stmt : Type :=
| SLet (target : vartuple) (source : expr)
| SAssert (e : expr)
| SInit (id : nat) (value : option expr) (clk : option expr)
| SUpdate (id : nat) (value : expr).

(** ast/mod.rs:822-845 [decl::Node].  [n_blocks] keeps only the names of the
    called nodes (generic arguments do not matter at run time); [n_regs] is the
    type recorded for each register by the typechecker; [n_flips] is the number
    of flips.  Options are kept in [decl]. *)
Record node : Type := mkNode {
  n_name : ident;
  n_inputs : list tyvar;
  n_outputs : list tyvar;
  n_locals : list tyvar;
  n_blocks : list ident;
  n_stmts : list stmt;
  n_regs : list (option ty);
  n_flips : nat
}.

(** ast/mod.rs:757-904 [decl::Decl] *)
Inductive decl : Type :=
| DConst (o : const_opts) (x : ident) (t : base) (value : expr)
| DNode (o : node_opts) (nd : node)
| DExtConst (o : ext_const_opts) (x : ident) (t : base)
| DExtNode (o : ext_node_opts) (x : ident) (inputs outputs : list tyvar).
