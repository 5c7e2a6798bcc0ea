(** * Claims about the macro as a function of its tokens (C50). *)
From Coq Require Import String Ascii List ZArith Bool Arith Lia.
From Coq Require Import Floats.SpecFloat.
From Verif Require Import Model.Base Model.Scalar Model.Ast Model.Errors Model.Options Model.Surface Model.Parse Model.Pipeline Model.Codegen Model.Macro
  Spec.CrashSpec Spec.CodegenSpec Spec.GrammarSpec Spec.TokenSpec Spec.Static Proofs.ParseWrite Proofs.Macro Properties.Codegen.
Import ListNotations.
Local Open Scope string_scope.
Local Open Scope list_scope.

(** Code is only generated for texts of well-formed programs. *)
Theorem c50_code : forall uid ts l ws, macro uid ts = Outcome (Expanded (Some l) ws) ->
  exists p, tidy_prog p /\ spells (prog_words p) ts /\ well_formed p /\ result (pipeline p) = Some l.
Proof. exact macro_code. Qed.
Print Assumptions c50_code.

(** With ordinary names and literals, it is for all of them. *)
Theorem c50_accepts : forall uid ts p, tidy_prog p -> spells (prog_words p) ts -> plain_tokens ts ->
  ((exists l ws, macro uid ts = Outcome (Expanded (Some l) ws)) <-> well_formed p).
Proof. exact macro_accepts. Qed.
Print Assumptions c50_accepts.

(** There is a syntax error exactly on what is the text of no program. *)
Theorem c50_refused : forall uid ts, macro uid ts = SyntaxError <-> ~ (exists p, tidy_prog p /\ spells (prog_words p) ts).
Proof. exact macro_refused. Qed.
Print Assumptions c50_refused.

(** The macro does not abort on ordinary tokens, if the numbers of steps asked
    fit in a [usize] and the types of generic nodes are determined by their inputs. *)
Theorem c50_safe : forall uid ts, plain_tokens ts ->
  (forall p, tidy_prog p -> spells (prog_words p) ts ->
     (forall a, In a p -> small_counts (fst a)) /\
     (forall a f b e, In a p -> callable (snd a) = Some f -> In b p -> In e (expressions (snd b)) -> In f (callees e) -> determined a)) ->
  macro uid ts <> Outcome Crashed.
Proof. exact macro_safe. Qed.
Print Assumptions c50_safe.

(** Spaces only matter between punctuation characters. *)
Theorem c50_spaces : forall uid ts us, respaced ts us -> macro uid ts = macro uid us.
Proof. exact macro_spaces. Qed.
Print Assumptions c50_spaces.

(** The invocations of a crate do not influence each other: whatever the other
    ones contain and wherever they are, each one has the outcome that it would
    have alone. *)
Theorem c50_crate : forall l uid, macros uid l = map (macro 0) l.
Proof. exact macros_map. Qed.
Print Assumptions c50_crate.

(** ** Examples *)
(** [#[export] node f(x : int) returns (y : ty); let y = 0 fby x + 1; tel] *)
Definition c50_node (op : tok) (ty : string) : list tok :=
  [TPunct "#" false; TGroup DBracket [TIdent "export"]; TIdent "node"; TIdent "f"; TGroup DParen [TIdent "x"; TPunct ":" false; TIdent "int"]; TIdent "returns";
   TGroup DParen [TIdent "y"; TPunct ":" false; TIdent ty]; TPunct ";" false; TIdent "let";
   TIdent "y"; TPunct "=" false; TLit (KInt 0); TIdent "fby"; TIdent "x"; op; TLit (KInt 1); TPunct ";" false; TIdent "tel"].
Definition c50_plus : tok := TPunct "+" false.
Definition c50_prog (ty : base) : sprog :=
  [([mkAttr "export" [] []], XNode (mkSNode "f" [(["x"], (BInt, CImplicit))] [(["y"], (ty, CImplicit))] []
     [XDef (TVar "y") (XFby (XLit (SLInt 0)) [XBin (XVar "x") [(Scalar.Add, XLit (SLInt 1))]])]))].
Lemma c50_parsed : forall ty, In ty ["int"; "bool"] -> p_prog (c50_node c50_plus ty) = Parsed (c50_prog (if String.eqb ty "int" then BInt else BBool)) [].
Proof. intros ty [<-|[<-|[]]]; vm_compute; reflexivity. Qed.
Example c50_plain : forall ty, In ty ["int"; "bool"] -> plain_tokens (c50_node c50_plus ty).
Proof.
  intros ty Hty t J. cbn in J. repeat destruct J as [<-|J]; try destruct J; try exact I; try (cbn; lia); try ordinary_tac.
  destruct Hty as [<-|[<-|[]]]; ordinary_tac.
Qed.
(** An accepted program, one with a syntax error, an ill-typed one. *)
Example c50_ex : exists l es, macros 0 [c50_node c50_plus "int"; c50_node (TIdent "x") "int"; c50_node c50_plus "bool"; c50_node (TPunct "+" true) "int"] =
  [Outcome (Expanded (Some l) []); SyntaxError; Outcome (Expanded None es); Outcome (Expanded (Some l) [])].
Proof. eexists _, _. vm_compute. reflexivity. Qed.
Example c50_safe_ex : forall uid, macro uid (c50_node c50_plus "bool") <> Outcome Crashed.
Proof.
  intros uid. apply c50_safe; [apply c50_plain; cbn; auto|]. intros p T S.
  assert (E : p = c50_prog BBool).
  { assert (X : p_prog (c50_node c50_plus "bool") = Parsed p []) by (apply ParseWrite.prog_accepts; auto). rewrite c50_parsed in X by (cbn; auto). inversion X. reflexivity. }
  subst p. split.
  - intros a [<-|[]] x n [<-|[]] A; cbn in A. destruct A; discriminate.
  - intros a f b e [<-|[]] F [<-|[]] [<-|[]] Jf; cbn in Jf. destruct Jf.
Qed.
