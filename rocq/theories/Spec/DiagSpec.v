(** * Vocabulary for the statements about diagnostics. *)
From Coq Require Import String List ZArith Bool Arith.
From Verif Require Import Model.Base Model.Scalar Model.Ast Model.Options Model.Surface.
Import ListNotations.

(** [e] contains neither [->] nor [fby]. *)
Fixpoint arrow_free (e : sexpr) : bool :=
  match e with
  | XLit _ | XVar _ => true
  | XParen l _ | XCall _ l _ => forallb arrow_free l
  | XNeg e | XNot e | XPre e => arrow_free e
  | XIf a b c | XMerge a b c => arrow_free a && arrow_free b && arrow_free c
  | XBin e l => arrow_free e && forallb (fun p => arrow_free (snd p)) l
  | XCmp e l => arrow_free e && forallb (fun p => arrow_free (snd p)) l
  | XClock e l => arrow_free e && forallb (fun p => arrow_free (snd p)) l
  | XFby e l | XThen e l => match l with [] => arrow_free e | _ => false end
  end.
Definition sstmt_expr (i : sstmt) : sexpr := match i with XDef _ e | XAssert e => e end.

(** A node with [#[universal_pre]]. *)
Definition marked_universal (a : list attribute) : Prop := In "universal_pre"%string (map a_action a).

(** No node of the default mode uses [->] or [fby]. *)
Definition arrows_universal (p : sprog) : Prop :=
  forall a sn, In (a, XNode sn) p ->
    marked_universal a \/ (forall i, In i (s_defs sn) -> arrow_free (sstmt_expr i) = true).
