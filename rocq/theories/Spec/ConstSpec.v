(** * Vocabulary for the statements about constants. *)
From Coq Require Import String List ZArith Bool.
From Verif Require Import Model.Base Model.Scalar Model.Ast Model.Surface Spec.TypeSpec Spec.SafetySpec.
Import ListNotations.

(** The constants of the code around the program exist, with the declared types. *)
Definition externs_ok (p : sprog) (ext : ident -> option scalar) : Prop :=
  forall a x t, In (a, XExtConst x t) p -> exists s, ext x = Some s /\ forall theta, sty_of s = kind_of theta t.

(** The names in an expression. *)
Fixpoint names (e : sexpr) : list ident :=
  match e with
  | XLit _ => []
  | XVar x => [x]
  | XParen l _ | XCall _ l _ => flat_map names l
  | XNeg e | XNot e | XPre e => names e
  | XIf a b c | XMerge a b c => names a ++ names b ++ names c
  | XBin e l => names e ++ flat_map (fun p => names (snd p)) l
  | XCmp e l => names e ++ flat_map (fun p => names (snd p)) l
  | XClock e l => names e ++ flat_map (fun p => names (snd p)) l
  | XFby e l | XThen e l => names e ++ flat_map names l
  end.

(** No floating-point literal in the expression. *)
Fixpoint float_free (e : sexpr) : bool :=
  match e with
  | XLit (SLFloat _) => false
  | XLit _ | XVar _ => true
  | XParen l _ | XCall _ l _ => forallb float_free l
  | XNeg e | XNot e | XPre e => float_free e
  | XIf a b c | XMerge a b c => float_free a && float_free b && float_free c
  | XBin e l => float_free e && forallb (fun p => float_free (snd p)) l
  | XCmp e l => float_free e && forallb (fun p => float_free (snd p)) l
  | XClock e l => float_free e && forallb (fun p => float_free (snd p)) l
  | XFby e l | XThen e l => float_free e && forallb float_free l
  end.
