(** * Claims about diagnostics (C21, C22, C34). *)
From Coq Require Import String List ZArith Bool Arith Lia.
From Verif Require Import Model.Base Model.Scalar Model.Value Model.Ast Model.Errors Model.Options Model.Interp
  Model.Surface Model.Translate Model.Typecheck Model.Pipeline
  Spec.StepSpec Spec.DiagSpec Spec.RangeSpec Spec.CrashSpec Proofs.FairPipeline Proofs.NoCrash Properties.Steps Properties.Translation.
Import ListNotations.
Local Open Scope list_scope.
Local Open Scope string_scope.

(** ** C22 *)
(** A program for which there is no code has a recorded error. *)
Theorem c22_rejection_reports : forall p es ws, pipeline p = Out None es ws -> es <> [].
Proof. exact rejection_reports. Qed.
Print Assumptions c22_rejection_reports.

Theorem c22_rejection_shown : forall p shown, compile p = Expanded None shown -> shown <> [].
Proof. exact rejection_shown. Qed.
Print Assumptions c22_rejection_shown.

Definition bad_type_src : sprog :=
  [([], XNode (mkSNode "f" [on_ ["x"] BInt] [on_ ["y"] BBool] [] [def_ "y" (x_ "x")]))].
Example c22_rejection_ex : pipeline bad_type_src = Out None [ETypeMismatch] [].
Proof. vm_compute. reflexivity. Qed.

(** A program for which there is code has recorded errors of one kind at most:
    operands of [->] or [fby] with too slow a clock. *)
Theorem c22_only_clock_errors : forall p l es ws, pipeline p = Out (Some l) es ws -> forall e, In e es -> e = EClkTooSlow.
Proof. exact only_clock_errors. Qed.
Print Assumptions c22_only_clock_errors.

(** And none at all if the operators [->] and [fby] are used in nodes with
    [#[universal_pre]] only. *)
Theorem c22_no_error_partial : forall p l es ws, arrows_universal p -> pipeline p = Out (Some l) es ws -> es = [].
Proof. exact universal_no_error. Qed.
Print Assumptions c22_no_error_partial.

Definition universal_src : sprog :=
  [([attr_ "universal_pre"], XNode (mkSNode "f" [on_ ["b"] BBool] [on_ ["y"] BInt] [(["v"], (BInt, CExplicit true "b"))]
      [def_ "v" (XFby (XClock (i_ 4) [(true, x_ "b")]) [XBin (x_ "v") [(Add, XClock (i_ 1) [(true, x_ "b")])]]);
       def_ "y" (XMerge (x_ "b") (x_ "v") (XClock (i_ 0) [(false, x_ "b")]))]));
   ([], XNode (mkSNode "g" [on_ ["x"] BInt] [on_ ["y"] BInt] [] [def_ "y" (x_ "x")]))].
Example c22_no_error_ex : arrows_universal universal_src /\ exists l, pipeline universal_src = Out (Some l) [] [].
Proof.
  split; [|eexists; vm_compute; reflexivity].
  intros a sn [I|[I|[]]]; inversion I; subst; [left|right].
  - cbn. auto.
  - intros i [E|[]]. subst. reflexivity.
Qed.

(** The claim in full is false: this program is compiled, with an error
    recorded and never shown.
<<
node foo(b : bool) returns (y : int); var v : int when b;
let v = 4 when b; y = 0 -> v; tel
>> *)
Definition slow_then : sprog :=
  [([], XNode (mkSNode "foo" [on_ ["b"] BBool] [on_ ["y"] BInt] [(["v"], (BInt, CExplicit true "b"))]
      [def_ "v" (XClock (i_ 4) [(true, x_ "b")]);
       def_ "y" (XThen (i_ 0) [x_ "v"])]))].
Theorem c22_refuted : exists p l es, pipeline p = Out (Some l) es [] /\ es <> [] /\ compile p = Expanded (Some l) [].
Proof. exists slow_then. eexists. exists [EClkTooSlow]. split; [vm_compute; reflexivity|]. split; [discriminate|vm_compute; reflexivity]. Qed.
Print Assumptions c22_refuted.

(** ** C21, refuted: the same program is a default-mode node that applies [->]
    to a variable on the clock [when b]; it compiles, and its output, on the
    implicit clock, is absent. *)
Theorem c21_refuted : exists l,
  compile slow_then = Expanded (Some l) [] /\
  (exists sn, In ([], XNode sn) slow_then /\ In (["v"], (BInt, CExplicit true "b")) (s_locals sn) /\
     In (XDef (TVar "y") (XThen (XLit (SLInt 0)) [XVar "v"])) (s_defs sn)) /\
  run0 (nodes_of l) "foo" (map vbool [true; true; false]) = Ok [vint 0; vint 4; VS Nil].
Proof.
  eexists. split; [vm_compute; reflexivity|]. split; [|vm_compute; reflexivity].
  eexists. split; [left; reflexivity|]. split; [left; reflexivity|right; left; reflexivity].
Qed.
Print Assumptions c21_refuted.

(** ** C34, refuted: four kinds of programs on which the compiler aborts. *)
Definition calling (f : list attribute * sdecl) : sprog :=
  [f; ([], XNode (mkSNode "main" [on_ ["x"] BInt] [on_ ["y"] BInt] [] [def_ "y" (XCall "f" [x_ "x"] false)]))].
Definition zero_node (t : base) : sdecl := XNode (mkSNode "f" [on_ ["x"] t] [on_ ["y"] BInt] [] [def_ "y" (i_ 0)]).

(** A call of a node that was already refused: its type variable is not
    declared, *)
Theorem c34_undeclared_generic_refuted :
  compile [([], zero_node (BOther "T"))] = Expanded None [EUndeclaredGeneric] /\
  compile (calling ([], zero_node (BOther "T"))) = Crashed.
Proof. split; vm_compute; reflexivity. Qed.
Print Assumptions c34_undeclared_generic_refuted.

(** or is not the type of an input. *)
Theorem c34_unused_generic_refuted :
  compile [([mkAttr "generic" ["T"] []], zero_node BInt)] = Expanded None [EUnusedGeneric] /\
  compile (calling ([mkAttr "generic" ["T"] []], zero_node BInt)) = Crashed.
Proof. split; vm_compute; reflexivity. Qed.
Print Assumptions c34_unused_generic_refuted.

(** A call of a node whose type variable is declared by two attributes, which
    is accepted without the call. *)
Theorem c34_duplicate_generic_refuted :
  (exists l, compile [([mkAttr "generic" ["T"] []; mkAttr "generic" ["T"] []], zero_node (BOther "T"))] = Expanded (Some l) []) /\
  compile (calling ([mkAttr "generic" ["T"] []; mkAttr "generic" ["T"] []], zero_node (BOther "T"))) = Crashed.
Proof. split; [eexists|]; vm_compute; reflexivity. Qed.
Print Assumptions c34_duplicate_generic_refuted.

(** An integer literal above the largest 64-bit integer, and a number of steps
    that is not a machine word. *)
Theorem c34_large_literal_refuted :
  compile [([], XConst "K" BInt (i_ (2 ^ 63)))] = Crashed /\
  compile [([mkAttr "main" [] [ALInt (2 ^ 64)]], XNode (mkSNode "f" [] [] [] []))] = Crashed /\
  compile [([mkAttr "main" [] [ALInt (- 1)]], XNode (mkSNode "f" [] [] [] []))] = Crashed.
Proof. repeat split; vm_compute; reflexivity. Qed.
Print Assumptions c34_large_literal_refuted.

(** The full claim is that no program makes the compiler crash, which the
    theorems above refute.  There are no other ways: a program whose numbers are
    small and in which every node that is called has distinct type parameters,
    which are the abstract types of its inputs, is compiled or refused with an
    error. *)
Theorem c34_safe_partial : forall p, precautions p -> compile p <> Crashed.
Proof. exact no_crash. Qed.
Print Assumptions c34_safe_partial.

(** It applies to programs with generic nodes, accepted or refused. *)
Definition careful (call : sexpr) : sprog :=
  [([mkAttr "generic" ["T"; "U"] []],
    XNode (mkSNode "swap" [on_ ["x"] (BOther "T"); on_ ["y"] (BOther "U")] [on_ ["b"] (BOther "U"); on_ ["a"] (BOther "T")] []
      [def_ "a" (x_ "x"); def_ "b" (x_ "y")]));
   ([mkAttr "test" [] [ALInt 10]],
    XNode (mkSNode "t" [] [] [on_ ["i"] BInt; on_ ["j"] BBool] [XDef (TTuple [TVar "j"; TVar "i"] false) call]))].
Example c34_careful : forall call, callees call = ["swap"] -> (forall z, In z (literals call) -> (0 <= z <= 9)%Z) -> precautions (careful call).
Proof.
  intros call C L. split.
  - intros a [<-|[<-|[]]] e z J Z; cbn in J; repeat destruct J as [<-|J]; try destruct J; try destruct Z. apply L in Z. lia.
  - intros a [<-|[<-|[]]] x n J A T; cbn in J; destruct J as [<-|[]]; cbn in T; [discriminate|]. inversion T. lia.
  - intros a f b e [<-|[<-|[]]] F Jb Je Jf; cbn in F; inversion F; subst f.
    + split; [repeat constructor; cbn; intuition discriminate|]. intros t. cbn. split; [intros [A|[A|[]]]; inversion A; auto|intros [<-|[<-|[]]]; auto].
    + exfalso. destruct Jb as [<-|[<-|[]]]; cbn in Je; repeat destruct Je as [<-|Je]; try destruct Je; try (destruct Jf; fail).
      rewrite C in Jf. destruct Jf as [A|[]]. discriminate.
Qed.
Example c34_careful_ex :
  (exists l, compile (careful (XCall "swap" [i_ 3; XLit (SLBool true)] false)) = Expanded (Some l) []) /\
  (forall b, precautions (careful (XCall "swap" [i_ 3; XLit (SLBool true)] b))) /\
  compile (careful (XCall "swap" [i_ 3; i_ 4] false)) = Expanded None [ETypeMismatch] /\
  precautions (careful (XCall "swap" [i_ 3; i_ 4] false)).
Proof.
  split; [eexists; vm_compute; reflexivity|]. split; [intros b; apply c34_careful; [reflexivity|cbn; intros; lia]|].
  split; [vm_compute; reflexivity|]. apply c34_careful; [reflexivity|cbn; intros; lia].
Qed.
