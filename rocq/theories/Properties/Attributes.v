(** * Claims about attributes (C29, C38). *)
From Coq Require Import String List ZArith Bool Arith Permutation.
From Verif Require Import Model.Base Model.Scalar Model.Value Model.Ast Model.Errors Model.Options Model.Interp
  Model.Surface Model.Translate Model.Pipeline
  Spec.AttrSpec Proofs.Attrs Properties.Translation.
Import ListNotations.
Local Open Scope string_scope.
Local Open Scope list_scope.

(** ** C29 *)
(** The declarations of a compiled program are those of the source with exactly
    the options that its attributes mean. *)
Theorem c29_options : forall p l, result (pipeline p) = Some l ->
  exists l', Permutation l l' /\ Forall2 attributed p l'.
Proof. exact program_attributed. Qed.
Print Assumptions c29_options.

(** Each of its attributes has one of the documented forms and applies to the
    declaration it is on. *)
Theorem c29_wellformed : forall p l a s x, result (pipeline p) = Some l -> In (a, s) p -> In x a ->
  exists e, means x e /\ applies s e.
Proof. exact accepted_wellformed. Qed.
Print Assumptions c29_wellformed.

(** An attribute has one meaning at most. *)
Theorem c29_one_meaning : forall a e e', means a e -> means a e' -> e = e'.
Proof. exact means_det. Qed.
Print Assumptions c29_one_meaning.

(** Attributes of a documented form that apply to the declaration are accepted:
    only [#[universal_pre]] has an influence on whether the declaration is
    translated. *)
Theorem c29_accepted : forall a s es, Forall2 means a es -> Forall countable es -> Forall (applies s) es ->
  (result (tr_attrdecl (a, s)) = None <-> result (tr_attrdecl (filter (fun x => String.eqb (a_action x) "universal_pre") a, s)) = None).
Proof. exact applicable_accepted. Qed.
Print Assumptions c29_accepted.

Definition attr_body : list sstmt := [def_ "y" (i_ 1)].
Definition attr_node (name : string) : sdecl := XNode (mkSNode name [] [] [on_ ["y"] BInt] attr_body).
Definition attr_list : list attribute :=
  [mkAttr "doc" [] [ALStr "first"]; mkAttr "trace" ["stderr"] []; mkAttr "rustc_allow" ["dead_code"] []; attr_ "pub";
   mkAttr "main" [] [ALInt 5]; mkAttr "doc" [] [ALStr "second"]; mkAttr "clippy_allow" ["all"] []; mkAttr "main" [] []].
Definition attr_effects : list effect :=
  [Doc "first"; Trace (StdErr, (TfDefault, TfDefault)); Allow (AllowRustc "dead_code"); Public;
   Main 5; Doc "second"; Allow (AllowClippy "all"); Main 100].
Definition attr_src : sprog := [(attr_list, attr_node "f"); ([attr_ "export"], XConst "k" BInt (i_ 3))].
Example c29_options_ex : Forall2 means attr_list attr_effects /\ exists nd e,
  result (pipeline attr_src) = Some [DNode (mkNodeOpts (Some (StdErr, (TfDefault, TfDefault))) true true (Some 100%Z) [AllowRustc "dead_code"; AllowClippy "all"]
      ["first"; "second"] false None [] false) nd; DConst (mkConstOpts true false [] []) "k" BInt e].
Proof.
  split.
  - repeat constructor.
  - do 2 eexists. vm_compute. reflexivity.
Qed.
Example c29_accepted_ex : Forall2 means attr_list attr_effects /\ Forall countable attr_effects /\ Forall (applies (attr_node "f")) attr_effects /\
  result (tr_attrdecl (attr_list, attr_node "f")) <> None.
Proof.
  repeat split.
  - repeat constructor.
  - repeat constructor; discriminate.
  - repeat constructor.
  - vm_compute. discriminate.
Qed.
Example c29_inapplicable_ex : result (pipeline [([attr_ "trait"], XConst "k" BInt (i_ 3))]) = None /\
  ~ (exists e, means (attr_ "trait") e /\ applies (XConst "k" BInt (i_ 3)) e).
Proof.
  split; [vm_compute; reflexivity|]. intros (e & M & A). inversion M; subst. inversion A.
Qed.

(** The type variables of one attribute are distinct. *)
Theorem c29_generic_partial : forall l e, means (mkAttr "generic" l []) e -> NoDup l.
Proof. intros l e M. inversion M. auto. Qed.
Print Assumptions c29_generic_partial.

(** Those of a declaration need not be: a type variable may be given twice, in
    two attributes.
<<
#[generic[T]] #[generic[T]] node id(x : T) returns (y : T); let y = x; tel
>> *)
Theorem c29_generics_refuted : exists p l o nd, result (pipeline p) = Some l /\ In (DNode o nd) l /\ ~ NoDup (o_generics o).
Proof.
  exists [([mkAttr "generic" ["T"] []; mkAttr "generic" ["T"] []], XNode (mkSNode "id" [on_ ["x"] (BOther "T")] [on_ ["y"] (BOther "T")] []
    [def_ "y" (x_ "x")]))].
  eexists. do 2 eexists. split; [vm_compute; reflexivity|]. split; [left; reflexivity|].
  intros N. inversion N as [|x l NI N' E]. apply NI. left. reflexivity.
Qed.
Print Assumptions c29_generics_refuted.

(** ** C38 *)
(** Attributes that do not go together are reported (with one exception, for
    the order [#[export] #[test(n)]] or [#[pub] #[test(n)]]). *)
Theorem c38_clash_reported_partial : forall p l es ws, pipeline p = Out (Some l) es ws ->
  forall a s, In (a, s) p -> forall b1 a1 b2 a2 b3 e1 e2, a = b1 ++ a1 :: b2 ++ a2 :: b3 -> means a1 e1 -> means a2 e2 ->
  clash e1 e2 -> ~ (test_with_count a2 /\ (e1 = Export \/ e1 = Public)) -> ws <> [].
Proof. intros p l es ws. exact (clash_reported p l ws es). Qed.
Print Assumptions c38_clash_reported_partial.

(** A report is about two such attributes. *)
Theorem c38_no_clash_silent : forall p l es ws, pipeline p = Out (Some l) es ws ->
  (forall a s, In (a, s) p -> forall b1 a1 b2 a2 b3 e1 e2, a = b1 ++ a1 :: b2 ++ a2 :: b3 -> means a1 e1 -> means a2 e2 -> ~ clash e1 e2) ->
  ws = [].
Proof. intros p l es ws. exact (no_clash_silent p l ws es). Qed.
Print Assumptions c38_no_clash_silent.

Definition clash_src (l : list attribute) : sprog := [(l, attr_node "f")].
Example c38_clash_ex : clash (Test 3) Export /\
  exists l, pipeline (clash_src [mkAttr "test" [] [ALInt 3]; attr_ "trait"; attr_ "export"]) = Out (Some l) [] [EWarnConflict].
Proof.
  split; [apply clash_test; reflexivity|]. eexists. vm_compute. reflexivity.
Qed.
Example c38_silent_ex : exists l, pipeline (clash_src [attr_ "export"; attr_ "trait"; mkAttr "main" [] [ALInt 3]]) = Out (Some l) [] [] /\
  (forall e1 e2 i j, nth_error [Export; Trait; Main 3] i = Some e1 -> nth_error [Export; Trait; Main 3] j = Some e2 -> i < j -> ~ clash e1 e2).
Proof.
  eexists. split; [vm_compute; reflexivity|].
  intros e1 e2 i j A B L. destruct i as [|[|[|i]]], j as [|[|[|j]]]; cbn in A, B; try discriminate;
    try (exfalso; revert L; apply Nat.nlt_ge; repeat apply le_n_S; apply Nat.le_0_l);
    try (destruct i; discriminate); try (destruct j; discriminate);
    inversion A; inversion B; subst; intros C; inversion C; subst; discriminate.
Qed.

(** The claim in full is false: the order of the attributes matters.
<<
#[export] #[test(3)] node f() returns (); var y : int; let y = 1; tel
>> *)
Theorem c38_refuted : exists l l', pipeline (clash_src [attr_ "export"; mkAttr "test" [] [ALInt 3]]) = Out (Some l) [] [] /\
  pipeline (clash_src [mkAttr "test" [] [ALInt 3]; attr_ "export"]) = Out (Some l') [] [EWarnConflict] /\ l = l' /\
  clash Export (Test 3).
Proof.
  do 2 eexists. split; [vm_compute; reflexivity|]. split; [vm_compute; reflexivity|]. split; [reflexivity|].
  apply clash_with_test; reflexivity.
Qed.
Print Assumptions c38_refuted.
