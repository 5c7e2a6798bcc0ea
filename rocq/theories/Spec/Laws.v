(** * Equational reasoning inside nodes (default mode). *)
From Coq Require Import String List ZArith Bool Relations.
From Verif Require Import Model.Base Model.Scalar Model.Value Model.Ast Model.Interp Model.Surface
  Spec.StepSpec Spec.SurfaceSem Spec.ProgramSem Spec.SettledSem Spec.SourceCausal.
Import ListNotations.

(** Whatever the variables are and the nodes do, [e'] has the values that [e]
    has, and evaluates nothing without a value if [e] does not. *)
Definition refines (mode : ovf) (glob : ident -> option scalar) (e e' : sexpr) : Prop :=
  forall locals rho (F : ident -> list val -> val -> Prop) (N : ident -> val -> Prop) t,
    (forall v, sem mode glob locals rho F N e t v -> sem mode glob locals rho F N e' t v) /\
    (settled mode glob locals rho F N e t -> settled mode glob locals rho F N e' t).

(** One subexpression is changed, by [R]. *)
Inductive within (R : sexpr -> sexpr -> Prop) : sexpr -> sexpr -> Prop :=
| wi_here : forall e e', R e e' -> within R e e'
| wi_paren : forall e e' l r b, within R e e' -> within R (XParen (l ++ e :: r) b) (XParen (l ++ e' :: r) b)
| wi_call : forall f e e' l r b, within R e e' -> within R (XCall f (l ++ e :: r) b) (XCall f (l ++ e' :: r) b)
| wi_neg : forall e e', within R e e' -> within R (XNeg e) (XNeg e')
| wi_not : forall e e', within R e e' -> within R (XNot e) (XNot e')
| wi_pre : forall e e', within R e e' -> within R (XPre e) (XPre e')
| wi_if1 : forall e e' a b, within R e e' -> within R (XIf e a b) (XIf e' a b)
| wi_if2 : forall e e' a b, within R e e' -> within R (XIf a e b) (XIf a e' b)
| wi_if3 : forall e e' a b, within R e e' -> within R (XIf a b e) (XIf a b e')
| wi_merge1 : forall e e' a b, within R e e' -> within R (XMerge e a b) (XMerge e' a b)
| wi_merge2 : forall e e' a b, within R e e' -> within R (XMerge a e b) (XMerge a e' b)
| wi_merge3 : forall e e' a b, within R e e' -> within R (XMerge a b e) (XMerge a b e')
| wi_bin1 : forall e e' l, within R e e' -> within R (XBin e l) (XBin e' l)
| wi_bin2 : forall e e' a op l r, within R e e' -> within R (XBin a (l ++ (op, e) :: r)) (XBin a (l ++ (op, e') :: r))
| wi_cmp1 : forall e e' l, within R e e' -> within R (XCmp e l) (XCmp e' l)
| wi_cmp2 : forall e e' a op, within R e e' -> within R (XCmp a [(op, e)]) (XCmp a [(op, e')])
| wi_clock1 : forall e e' l, within R e e' -> within R (XClock e l) (XClock e' l)
| wi_clock2 : forall e e' a op l r, within R e e' -> within R (XClock a (l ++ (op, e) :: r)) (XClock a (l ++ (op, e') :: r))
| wi_fby : forall e e' a l a' l' s r, within R e e' -> a :: l = s ++ e :: r -> a' :: l' = s ++ e' :: r -> within R (XFby a l) (XFby a' l')
| wi_then : forall e e' a l a' l' s r, within R e e' -> a :: l = s ++ e :: r -> a' :: l' = s ++ e' :: r -> within R (XThen a l) (XThen a' l').

(** Any number of changes, in the right-hand sides of the nodes. *)
Inductive rewritten (R : sexpr -> sexpr -> Prop) : sstmt -> sstmt -> Prop :=
| rw_def : forall t e e', clos_refl_trans _ (within R) e e' -> rewritten R (XDef t e) (XDef t e')
| rw_assert : forall e e', clos_refl_trans _ (within R) e e' -> rewritten R (XAssert e) (XAssert e').
Inductive rewritten_decl (R : sexpr -> sexpr -> Prop) : sattrdecl -> sattrdecl -> Prop :=
| rd_same : forall d, rewritten_decl R d d
| rd_node : forall a f i o v l l', Forall2 (rewritten R) l l' ->
    rewritten_decl R (a, XNode (mkSNode f i o v l)) (a, XNode (mkSNode f i o v l')).

Definition commutes (op : binop) : Prop := In op [Add; Mul; BitAnd; BitOr; BitXor].
Definition mirror (op : cmpop) : cmpop := match op with Le => Ge | Ge => Le | Lt => Gt | Gt => Lt | Eq => Eq | Ne => Ne end.

(** Some laws of the language. *)
Inductive law : sexpr -> sexpr -> Prop :=
| law_paren : forall e, law (XParen [e] false) e
| law_fby : forall a b, law (XFby a [b]) (XThen a [XPre b])
| law_fby_right : forall a b l, law (XFby a (b :: l)) (XFby a [XFby b l])
| law_pre_lit : forall l, law (XPre (XLit l)) (XLit l)
| law_pre_paren : forall l b, law (XPre (XParen l b)) (XParen (map XPre l) b)
| law_pre_neg : forall e, law (XPre (XNeg e)) (XNeg (XPre e))
| law_pre_not : forall e, law (XPre (XNot e)) (XNot (XPre e))
| law_pre_if : forall a b c, law (XPre (XIf a b c)) (XIf (XPre a) (XPre b) (XPre c))
| law_pre_merge : forall a b c, law (XPre (XMerge a b c)) (XMerge (XPre a) (XPre b) (XPre c))
| law_pre_bin : forall e l, law (XPre (XBin e l)) (XBin (XPre e) (map (fun p => (fst p, XPre (snd p))) l))
| law_pre_cmp : forall e l, law (XPre (XCmp e l)) (XCmp (XPre e) (map (fun p => (fst p, XPre (snd p))) l))
| law_pre_clock : forall e l, law (XPre (XClock e l)) (XClock (XPre e) (map (fun p => (fst p, XPre (snd p))) l))
| law_comm : forall op a b, commutes op -> law (XBin a [(op, b)]) (XBin b [(op, a)])
| law_mirror : forall op a b, law (XCmp a [(op, b)]) (XCmp b [(mirror op, a)]).

(** Statements that define several variables, or one by one. *)
Inductive split_stmts : list sstmt -> list sstmt -> Prop :=
| sp_nil : split_stmts [] []
| sp_keep : forall i l l', split_stmts l l' -> split_stmts (i :: l) (i :: l')
| sp_split : forall ts es b b' l l', length ts = length es -> 2 <= length ts -> split_stmts l l' ->
    split_stmts (XDef (TTuple ts b) (XParen es b') :: l) (map (fun p => XDef (fst p) (snd p)) (combine ts es) ++ l').
Inductive split_decl : sattrdecl -> sattrdecl -> Prop :=
| sd_same : forall d, split_decl d d
| sd_node : forall a f i o v l l', split_stmts l l' ->
    split_decl (a, XNode (mkSNode f i o v l)) (a, XNode (mkSNode f i o v l')).
