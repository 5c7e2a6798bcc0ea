(** * Causality: [/repo/chandeliers-san/src/causality/depends.rs] and
    [/repo/chandeliers-san/src/causality/mod.rs]. *)
From Coq Require Import String List ZArith Bool Arith.
From Verif Require Import Model.Base Model.Scalar Model.Value Model.Ast Model.Graph.
Import ListNotations.

(** depends.rs:51-64 [Reference]. The spans inside are [Transparent]: they do
    not take part in comparisons (err/src/transparent.rs). *)
Inductive reference : Type :=
| RFun (x : ident)
| RLocal (x : ident)
| RGlobal (x : ident)
| RUpdateReg (id : nat)
| RInitReg (id : nat).

Definition reference_eqb (a b : reference) : bool :=
  match a, b with
  | RFun x, RFun y | RLocal x, RLocal y | RGlobal x, RGlobal y => String.eqb x y
  | RUpdateReg i, RUpdateReg j | RInitReg i, RInitReg j => i =? j
  | _, _ => false
  end.

(** depends.rs:337-367 [requires] of [Expr], with 389-393 [Reference] and
    398-408 [Past]. *)
Fixpoint expr_requires (e : expr) : list reference :=
  match e with
  | ELit _ => []
  | EVar x 0 => [RLocal x]
  | EVar _ (S _) => []
  | EGlobal x => [RGlobal x]
  | ETuple l => flat_map expr_requires l
  | EPre e => expr_requires e
  | EParen e => expr_requires e
  | EBin _ a b => expr_requires a ++ expr_requires b
  | ECmp _ a b => expr_requires a ++ expr_requires b
  | EUn _ a => expr_requires a
  | ELater _ a b => expr_requires a ++ expr_requires b
  | EIf c y n => expr_requires c ++ expr_requires y ++ expr_requires n
  | ESub _ _ a => expr_requires a
  | EClock _ a b => expr_requires a ++ expr_requires b
  | EMerge c a b => expr_requires c ++ expr_requires a ++ expr_requires b
  | EFlip _ a b => expr_requires a ++ expr_requires b
  | EFetch id _ _ => [RInitReg id]
  end.

(** depends.rs:411-420 *)
Fixpoint target_vars (t : vartuple) : list ident :=
  match t with
  | VTSingle x => [x]
  | VTMult l => flat_map target_vars l
  end.

(** depends.rs:311-331 *)
Definition stmt_provides (s : stmt) : list reference :=
  match s with
  | SLet t _ => map RLocal (target_vars t)
  | SAssert _ => []
  | SUpdate _ _ => []
  | SInit id _ _ => [RInitReg id]
  end.

Definition stmt_requires (s : stmt) : list reference :=
  match s with
  | SLet _ e => expr_requires e
  | SAssert e => expr_requires e
  | SUpdate id e => RUpdateReg id :: expr_requires e
  | SInit _ v _ => match v with Some e => expr_requires e | None => [] end
  end.

(** mod.rs:59-110 [Causality for Node] *)
Definition node_causality (nd : node) : node + sched_error :=
  match schedule stmt reference reference_eqb stmt_provides stmt_requires
          (map (fun x => RLocal (v_name x)) (n_inputs nd)) (n_stmts nd)
          (map (fun x => RLocal (v_name x)) (n_locals nd ++ n_outputs nd)) with
  | inr e => inr e
  | inl stmts =>
      inl (mkNode (n_name nd) (n_inputs nd) (n_outputs nd) (n_locals nd) (n_blocks nd) stmts
             (n_regs nd) (n_flips nd))
  end.

(** depends.rs:201-289: dependencies of declarations *)
Definition decl_provides (d : decl) : list reference :=
  match d with
  | DConst _ x _ _ => [RGlobal x]
  | DNode _ nd => [RFun (n_name nd)]
  | DExtConst _ x _ => [RGlobal x]
  | DExtNode _ x _ _ => [RFun x]
  end.

Definition decl_requires (d : decl) : list reference :=
  match d with
  | DConst _ _ _ e => expr_requires e
  | DNode _ nd => map RFun (n_blocks nd) ++ flat_map stmt_requires (n_stmts nd)
  | DExtConst _ _ _ => []
  | DExtNode _ _ _ _ => []
  end.

(** mod.rs:29-57 *)
Definition decl_causality (d : decl) : decl + sched_error :=
  match d with
  | DNode g nd => match node_causality nd with inl nd => inl (DNode g nd) | inr e => inr e end
  | _ => inl d
  end.

Fixpoint decls_causality (l : list decl) : list decl + sched_error :=
  match l with
  | [] => inl []
  | d :: l =>
      match decl_causality d with
      | inr e => inr e
      | inl d => match decls_causality l with inr e => inr e | inl l => inl (d :: l) end
      end
  end.

Definition prog_causality (l : list decl) : list decl + sched_error :=
  match decls_causality l with
  | inr e => inr e
  | inl l => schedule decl reference reference_eqb decl_provides decl_requires [] l []
  end.
