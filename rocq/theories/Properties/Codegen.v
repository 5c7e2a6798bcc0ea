(** * Claims about code generation (C43). *)
From Coq Require Import String Ascii List ZArith Bool Arith Lia.
From Coq Require Import Floats.SpecFloat.
From Verif Require Import Model.Base Model.Scalar Model.Value Model.Ast Model.Errors Model.Options
  Model.Surface Model.Translate Model.Pipeline Model.Names Model.Codegen
  Spec.CrashSpec Spec.CodegenSpec Proofs.Codegen Properties.Translation.
Import ListNotations.
Local Open Scope list_scope.
Local Open Scope string_scope.

(** Full claim: rendering the code never makes the macro abort,
    [forall uid p, expand uid p = compile p]. Missing: names that are not made of
    letters, digits and underscores, the name [_], and float literals that are too
    large; [c43_rendering_refuted] shows that these do abort. *)
Theorem c43_rendering_partial : forall uid p, plain_words p -> expand uid p = compile p.
Proof. exact expansion_same. Qed.
Print Assumptions c43_rendering_partial.

(** With the precautions of [c34_safe_partial] the macro does not abort at all. *)
Theorem c43_expansion_partial : forall uid p, precautions p -> plain_words p -> expand uid p <> Crashed.
Proof. exact expansion_safe. Qed.
Print Assumptions c43_expansion_partial.

(** No identifier that is created as is, rather than as a raw identifier, is a
    keyword of Rust, whatever the names of the variables, nodes and constants. *)
Theorem c43_keywords_partial : forall uid p l ws, compile p = Expanded (Some l) ws ->
  (forall a x, In a p -> In x (decl_types (snd a)) -> ~ In x rust_keywords) ->
  forall d s, In d l -> In (Plain s) (requests uid d) -> ~ In s rust_keywords.
Proof. exact no_keywords. Qed.
Print Assumptions c43_keywords_partial.

(** ** Examples *)
(** Keywords of Rust are fine as names of nodes, constants and variables. *)
Definition words (c f x y : string) (k : slit) : sprog :=
  [([mkAttr "export" [] []], XConst c BFloat (XLit k));
   ([mkAttr "trace" [] []; mkAttr "rustc_allow" ["unused"] []],
    XNode (mkSNode f [on_ [x] BFloat] [on_ [y] BFloat] [] [def_ y (XBin (XFby (x_ c) [x_ x]) [(Add, x_ x)])]))].
Definition one : f64 := S754_finite false 4503599627370496 (-52).
Ltac decide_in := cbn; repeat first [left; reflexivity|right].
Ltac ordinary_tac := eexists _, _; split; [reflexivity|]; split; [decide_in|]; split;
  [let J := fresh in intros ? J; cbn in J; repeat destruct J as [<-|J]; try destruct J; first [left; decide_in; fail|right; decide_in]|
   let J := fresh in intros J; cbn in J; repeat destruct J as [J|J]; try discriminate J; destruct J].
Example c43_words : plain_words (words "match" "fn" "loop" "yield" (SLFloat one)).
Proof.
  split.
  - intros a x [<-|[<-|[]]] J; cbn in J; repeat destruct J as [<-|J]; try destruct J; ordinary_tac.
  - intros a e f [<-|[<-|[]]] Je Jf; cbn in Je; repeat destruct Je as [<-|Je]; try destruct Je; cbn in Jf; repeat destruct Jf as [<-|Jf]; try destruct Jf; exact I.
Qed.
Example c43_words_precautions : precautions (words "match" "fn" "loop" "yield" (SLFloat one)).
Proof.
  split.
  - intros a [<-|[<-|[]]] e z J Z; cbn in J; repeat destruct J as [<-|J]; try destruct J; destruct Z.
  - intros a [<-|[<-|[]]] x n J A T; cbn in J; repeat destruct J as [<-|J]; try destruct J; discriminate T.
  - intros a f b e [<-|[<-|[]]] F Jb Je Jf; cbn in F; inversion F; subst f. exfalso.
    destruct Jb as [<-|[<-|[]]]; cbn in Je; repeat destruct Je as [<-|Je]; try destruct Je; destruct Jf.
Qed.
Example c43_words_ex : exists l, expand 0 (words "match" "fn" "loop" "yield" (SLFloat one)) = Expanded (Some l) [] /\
  (exists d, In d l /\ In (Plain "loop__lus_local") (requests 0 d) /\ In (Raw "loop") (requests 0 d) /\
    In (Plain "match__lus_0_global") (requests 0 d)) /\
  (forall a x, In a (words "match" "fn" "loop" "yield" (SLFloat one)) -> In x (decl_types (snd a)) -> ~ In x rust_keywords).
Proof.
  eexists. split; [vm_compute; reflexivity|]. split.
  - eexists. split; [cbn; right; left; reflexivity|]. vm_compute. repeat split; tauto.
  - intros a x [<-|[<-|[]]] [].
Qed.

(** ** Refutations *)
(** Programs that are accepted by the analyses, and abort the rendering: a constant
    or a node named [_], a raw identifier, and a literal too large for a float. *)
Theorem c43_rendering_refuted : forall uid,
  (exists l, compile (words "_" "f" "x" "y" (SLFloat one)) = Expanded (Some l) []) /\ expand uid (words "_" "f" "x" "y" (SLFloat one)) = Crashed /\
  (exists l, compile (words "k" "_" "x" "y" (SLFloat one)) = Expanded (Some l) []) /\ expand uid (words "k" "_" "x" "y" (SLFloat one)) = Crashed /\
  (exists l, compile (words "k" "f" "r#x" "y" (SLFloat one)) = Expanded (Some l) []) /\ expand uid (words "k" "f" "r#x" "y" (SLFloat one)) = Crashed /\
  (exists l, compile (words "k" "f" "x" "y" (SLFloat (S754_infinity false))) = Expanded (Some l) []) /\
    expand uid (words "k" "f" "x" "y" (SLFloat (S754_infinity false))) = Crashed.
Proof.
  intros uid. repeat split; try (eexists; vm_compute; reflexivity).
  - eapply expansion_aborts; [vm_compute; reflexivity|right; left; reflexivity|]. left. exists (Raw "_"). split; [left|]; reflexivity.
  - eapply expansion_aborts; [vm_compute; reflexivity|right; left; reflexivity|]. left. exists (Plain "r#x__lus_local"). split; [cbn; auto|reflexivity].
  - eapply expansion_aborts; [vm_compute; reflexivity|left; reflexivity|]. right. reflexivity.
Qed.
Print Assumptions c43_rendering_refuted.

(** A type parameter named by a keyword is declared as a raw identifier and used as
    the keyword. *)
Definition keyword_type : sprog :=
  [([mkAttr "generic" ["fn"] []], XNode (mkSNode "f" [on_ ["x"] (BOther "fn")] [on_ ["y"] (BOther "fn")] [] [def_ "y" (x_ "x")]))].
Theorem c43_keywords_refuted : forall uid, exists l d, expand uid keyword_type = Expanded (Some l) [] /\ In d l /\
  In (Raw "fn") (requests uid d) /\ In (Plain "fn") (requests uid d) /\ In "fn" rust_keywords.
Proof.
  intros uid. rewrite expansion_same.
  - eexists _, _. split; [vm_compute; reflexivity|]. split; [left; reflexivity|]. split; [cbn; tauto|]. split; cbn; tauto.
  - split.
    + intros a x [<-|[]] J; cbn in J; repeat destruct J as [<-|J]; try destruct J; ordinary_tac.
    + intros a e f [<-|[]] Je Jf; cbn in Je; repeat destruct Je as [<-|Je]; try destruct Je; destruct Jf.
Qed.
Print Assumptions c43_keywords_refuted.
