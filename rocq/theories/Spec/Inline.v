(** * Replacing a local variable by its definition. *)
From Coq Require Import String List ZArith Bool.
From Verif Require Import Model.Base Model.Scalar Model.Ast Model.Surface
  Spec.ProgramSem Spec.SourceCausal Spec.ConstSpec.
Import ListNotations.

(** [d] instead of the variable [z]. *)
Fixpoint inline (z : ident) (d : sexpr) (e : sexpr) : sexpr :=
  match e with
  | XLit l => XLit l
  | XVar x => if String.eqb x z then d else XVar x
  | XParen l b => XParen (map (inline z d) l) b
  | XCall f l b => XCall f (map (inline z d) l) b
  | XNeg e => XNeg (inline z d e)
  | XNot e => XNot (inline z d e)
  | XPre e => XPre (inline z d e)
  | XIf a b c => XIf (inline z d a) (inline z d b) (inline z d c)
  | XMerge a b c => XMerge (inline z d a) (inline z d b) (inline z d c)
  | XBin e l => XBin (inline z d e) (map (fun p => (fst p, inline z d (snd p))) l)
  | XCmp e l => XCmp (inline z d e) (map (fun p => (fst p, inline z d (snd p))) l)
  | XClock e l => XClock (inline z d e) (map (fun p => (fst p, inline z d (snd p))) l)
  | XFby e l => XFby (inline z d e) (map (inline z d) l)
  | XThen e l => XThen (inline z d e) (map (inline z d) l)
  end.
Definition inline_stmt (z : ident) (d : sexpr) (i : sstmt) : sstmt :=
  match i with
  | XDef t e => XDef t (inline z d e)
  | XAssert e => XAssert (inline z d e)
  end.

(** Only the present value of [z] is used: it is neither under [pre] nor on the
    right of [fby]. *)
Fixpoint undelayed (z : ident) (e : sexpr) : Prop :=
  match e with
  | XLit _ | XVar _ => True
  | XParen l _ | XCall _ l _ => (fix all l := match l with [] => True | e :: l => undelayed z e /\ all l end) l
  | XNeg e | XNot e => undelayed z e
  | XPre e => ~ In z (names e)
  | XIf a b c | XMerge a b c => undelayed z a /\ undelayed z b /\ undelayed z c
  | XBin e l => undelayed z e /\ (fix all l := match l with [] => True | (_, e) :: l => undelayed z e /\ all l end) l
  | XCmp e l => undelayed z e /\ (fix all l := match l with [] => True | (_, e) :: l => undelayed z e /\ all l end) l
  | XClock e l => undelayed z e /\ (fix all l := match l with [] => True | (_, e) :: l => undelayed z e /\ all l end) l
  | XFby e l => undelayed z e /\ ~ In z (flat_map names l)
  | XThen e l => undelayed z e /\ (fix all l := match l with [] => True | e :: l => undelayed z e /\ all l end) l
  end.

(** The local variable [z] of a node, defined by [z = d], is replaced by [(d)]
    where it is used, and no longer declared. *)
Inductive inlined : snode -> snode -> Prop :=
| inlined_intro : forall f i o v v' z d before after,
    In z (declared v) -> ~ In z (names d) ->
    declared v' = filter (fun x => negb (String.eqb x z)) (declared v) ->
    (forall s, In s (before ++ after) -> undelayed z (right_side s)) ->
    inlined (mkSNode f i o v (before ++ XDef (TVar z) d :: after))
            (mkSNode f i o v' (map (inline_stmt z (XParen [d] false)) (before ++ after))).
