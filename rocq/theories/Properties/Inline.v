(** * Claims about local definitions (C57). *)
From Coq Require Import String List ZArith Bool Arith Lia.
From Verif Require Import Model.Base Model.Scalar Model.Value Model.Ast Model.Errors
  Model.Options Model.Interp Model.Surface Model.Translate Model.Pipeline
  Spec.StepSpec Spec.SurfaceSem Spec.ProgramSem Spec.SettledSem Spec.SafetySpec Spec.ExternSem Spec.Replace Spec.SourceCausal Spec.ConstSpec Spec.Inline
  Proofs.Inline Properties.Steps Properties.Translation.
Import ListNotations.
Local Open Scope string_scope.
Local Open Scope list_scope.

(** Replace, in some nodes of a program, a local variable by its definition:
    when the program does not panic, its outputs are the same. *)
Theorem c57_inlined : forall mode glob p q l m,
  Forall2 (fun a b => a = b \/ exists sn sn', snd a = XNode sn /\ b = (fst a, XNode sn') /\ inlined sn sn') p q ->
  result (pipeline p) = Some l -> result (pipeline q) = Some m -> closed p -> default_mode p ->
  (forall x t, constant p x t -> glob x <> None) ->
  forall f ins outs, outputs mode glob (nodes_of l) f ins = Ok outs -> outputs mode glob (nodes_of m) f ins = Ok outs.
Proof. exact inlined_runs. Qed.
Print Assumptions c57_inlined.

(**
<<
node f(x : int) returns (y : int); var z, w : int;
let w = 0 fby y; z = x + count(); y = z * z + w; assert y >= z; tel
>>
    where [count] counts; the three uses of [z] become calls of [count]. *)
Definition c57_count : sattrdecl :=
  ([], XNode (mkSNode "count" [] [on_ ["n"] BInt] [] [def_ "n" (XFby (i_ 0) [XBin (x_ "n") [(Add, i_ 1)]])])).
Definition c57_z : sexpr := XBin (x_ "x") [(Add, XCall "count" [] false)].
Definition c57_w : sstmt := def_ "w" (XFby (i_ 0) [x_ "y"]).
Definition c57_y (z : sexpr) : sstmt := def_ "y" (XBin z [(Mul, z); (Add, x_ "w")]).
Definition c57_a (z : sexpr) : sstmt := XAssert (XCmp (x_ "y") [(Ge, z)]).
Definition c57_f (v : list ident) (l : list sstmt) : sattrdecl :=
  ([], XNode (mkSNode "f" [on_ ["x"] BInt] [on_ ["y"] BInt] [on_ v BInt] l)).
Definition c57_named : sprog := [c57_f ["z"; "w"] [c57_w; def_ "z" c57_z; c57_y (x_ "z"); c57_a (x_ "z")]; c57_count].
Definition c57_unnamed : sprog :=
  [c57_f ["w"] [c57_w; c57_y (XParen [c57_z] false); c57_a (XParen [c57_z] false)]; c57_count].

Example c57_ex :
  Forall2 (fun a b => a = b \/ exists sn sn', snd a = XNode sn /\ b = (fst a, XNode sn') /\ inlined sn sn') c57_named c57_unnamed /\
  run_source c57_named "f" (map vint [1; 2; 3]%Z) = Some (Ok (map vint [1; 10; 35]%Z)) /\
  run_source c57_unnamed "f" (map vint [1; 2; 3]%Z) = Some (Ok (map vint [1; 10; 35]%Z)) /\
  closed c57_named /\ default_mode c57_named.
Proof.
  split; [|split; [vm_compute; reflexivity|split; [vm_compute; reflexivity|split; [intros a x i o [E|[E|[]]]; discriminate E|intros a sn [E|[E|[]]]; inversion E; intros []]]]].
  constructor; [right|constructor; [left; reflexivity|constructor]]. eexists. eexists. split; [reflexivity|]. split; [reflexivity|].
  apply (inlined_intro "f" _ _ [on_ ["z"; "w"] BInt] [on_ ["w"] BInt] "z" c57_z [c57_w] [c57_y (x_ "z"); c57_a (x_ "z")]).
  - left. reflexivity.
  - cbn. intros [H|[]]. discriminate H.
  - reflexivity.
  - intros s [<-|[<-|[<-|[]]]]; cbn; auto. split; auto. intros [H|[]]. discriminate H.
Qed.

(** The converse is false: a definition is evaluated even if it is not used.
    [node g(x : int) returns (y : int); var z : int; let z = 10 / x; y = 0; tel] *)
Theorem c57_converse_refuted : exists sn sn' l m, inlined sn sn' /\
  result (pipeline [([], XNode sn)]) = Some l /\ result (pipeline [([], XNode sn')]) = Some m /\
  outputs Checked noglob (nodes_of l) "g" [vint 0] = Panic PDivZero /\ outputs Checked noglob (nodes_of m) "g" [vint 0] = Ok [vint 0].
Proof.
  eexists. eexists. eexists. eexists. split; [|split; [|split; [|split]]].
  - apply (inlined_intro "g" [on_ ["x"] BInt] [on_ ["y"] BInt] [on_ ["z"] BInt] [] "z" (XBin (i_ 10) [(Div, x_ "x")]) [] [def_ "y" (i_ 0)]).
    + left. reflexivity.
    + cbn. intros [H|[]]. discriminate H.
    + reflexivity.
    + intros s [<-|[]]. exact Logic.I.
  - vm_compute. reflexivity.
  - vm_compute. reflexivity.
  - vm_compute. reflexivity.
  - vm_compute. reflexivity.
Qed.
Print Assumptions c57_converse_refuted.
