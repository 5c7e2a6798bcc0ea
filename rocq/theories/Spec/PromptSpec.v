(** * Nodes that [#[universal_pre]] does not change. *)
From Coq Require Import String List ZArith Bool Arith.
From Verif Require Import Model.Base Model.Scalar Model.Value Model.Ast Model.Interp Model.Options Model.Surface
  Spec.SurfaceSem Spec.ProgramSem Spec.ClockSpec.
Import ListNotations.

(** [prompt k e]: there is no [when] in [e], and from instant [k] on [e] never
    looks before instant 0, nor do the operands that count instants: those of
    [fby], the left one of [->] and the arguments of the calls have to be
    defined from instant 0 on.  A chain of [->] has at most two operands. *)
Fixpoint prompt (k : nat) (e : sexpr) : bool :=
  match e with
  | XLit _ | XVar _ => true
  | XParen l _ => forallb (prompt k) l
  | XCall _ l _ => forallb (prompt 0) l
  | XNeg e | XNot e => prompt k e
  | XPre e => match k with 0 => false | S k => prompt k e end
  | XIf a b c | XMerge a b c => prompt k a && prompt k b && prompt k c
  | XBin e l => prompt k e && forallb (fun p => prompt k (snd p)) l
  | XCmp e l => prompt k e && forallb (fun p => prompt k (snd p)) l
  | XClock e [] => prompt k e
  | XClock _ _ => false
  | XFby e [] | XThen e [] => prompt k e
  | XFby e l => prompt 0 e && forallb (prompt 0) l
  | XThen e [a] => prompt 0 e && prompt (Nat.max 1 k) a
  | XThen _ _ => false
  end.

(** Everything is on the clock of the node, which looks at no undefined value
    and does not compare floating point numbers. *)
Definition prompt_node (floats : bool) (sn : snode) : Prop :=
  (forall x c, In (x, c) (declared_clocks (s_inputs sn ++ s_outputs sn ++ s_locals sn)) -> c = CImplicit) /\
  (forall i, In i (s_defs sn) -> prompt 0 (stmt_expr i) = true /\ tame floats (stmt_expr i) = true).

(** The same declarations, with other attributes. *)
Definition same_declarations (p q : sprog) : Prop := map snd p = map snd q.
