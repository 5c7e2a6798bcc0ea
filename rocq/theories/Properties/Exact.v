(** * Claims about which runs fail (C54). *)
From Coq Require Import String List ZArith Bool Arith Lia.
From Verif Require Import Model.Base Model.Scalar Model.Value Model.Ast Model.Errors
  Model.Options Model.Interp Model.Surface Model.Translate Model.Pipeline
  Spec.StepSpec Spec.SurfaceSem Spec.ProgramSem Spec.SettledSem Spec.SafetySpec
  Proofs.Exact Properties.Steps Properties.Translation.
Import ListNotations.
Local Open Scope string_scope.
Local Open Scope list_scope.

(** A run of an accepted program succeeds exactly when the equations of the
    source have a meaning in which everything that is evaluated has a value, and
    its outputs are that meaning. *)
Theorem c54_exact : forall mode glob p l, result (pipeline p) = Some l ->
  (forall a sn, In (a, XNode sn) p -> ~ In "universal_pre" (map a_action a)) ->
  (forall x t, constant p x t -> glob x <> None) ->
  forall f i ins outs, init_inst (nodes_of l) f = Ok i ->
  (exists i', run mode glob (nodes_of l) f i ins = Ok (outs, i')) <-> means_strictly mode glob (source_nodes p) f ins outs.
Proof. exact program_exact. Qed.
Print Assumptions c54_exact.

(** It panics exactly when there is no such meaning. *)
Theorem c54_fails : forall mode glob p l, result (pipeline p) = Some l ->
  (forall a sn, In (a, XNode sn) p -> ~ In "universal_pre" (map a_action a)) ->
  (forall x t, constant p x t -> glob x <> None) ->
  forall f i ins, init_inst (nodes_of l) f = Ok i ->
  (exists e, run mode glob (nodes_of l) f i ins = Panic e) <->
  ~ exists outs, means_strictly mode glob (source_nodes p) f ins outs.
Proof. exact program_fails. Qed.
Print Assumptions c54_fails.

(** Strict meanings are meanings. *)
Theorem c54_reference : forall mode glob nodes f ins outs,
  means_strictly mode glob nodes f ins outs -> means mode glob nodes f ins outs.
Proof. exact strictly_means. Qed.
Print Assumptions c54_reference.

(** Without [->] and [fby], all meanings are strict: the run succeeds exactly
    when the equations have a meaning. *)
Theorem c54_unchained : forall mode glob p l, result (pipeline p) = Some l ->
  (forall a sn, In (a, XNode sn) p -> ~ In "universal_pre" (map a_action a)) ->
  (forall x t, constant p x t -> glob x <> None) ->
  (forall a sn i, In (a, XNode sn) p -> In i (s_defs sn) -> unchained (stmt_body i)) ->
  forall f i ins outs, init_inst (nodes_of l) f = Ok i ->
  (exists i', run mode glob (nodes_of l) f i ins = Ok (outs, i')) <-> means mode glob (source_nodes p) f ins outs.
Proof. exact unchained_exact. Qed.
Print Assumptions c54_unchained.

(** [node f(x : int) returns (y : int); let y = 0 -> 10 / x; tel] *)
Definition c54_src : sprog :=
  [([], XNode (mkSNode "f" [on_ ["x"] BInt] [on_ ["y"] BInt] [] [def_ "y" (XThen (i_ 0) [XBin (i_ 10) [(Div, x_ "x")]])]))].
Definition c54_run (ins : list Z) : option (res (list val)) := run_source c54_src "f" (map vint ins).

(** In general they are not: the operand of [->] that is not used yet can make
    the program panic. *)
Theorem c54_lazy_refuted : exists p l, result (pipeline p) = Some l /\
  (forall a sn, In (a, XNode sn) p -> ~ In "universal_pre" (map a_action a)) /\
  (forall x t, ~ constant p x t) /\
  exists f i ins outs e, init_inst (nodes_of l) f = Ok i /\
    means Checked noglob (source_nodes p) f ins outs /\
    run Checked noglob (nodes_of l) f i ins = Panic e.
Proof.
  exists c54_src. eexists. split; [vm_compute; reflexivity|]. split; [intros a sn [E|[]]; inversion E; intros []|].
  split; [intros x t (a & [(e & [E|[]])|[E|[]]]); discriminate E|].
  exists "f". eexists. exists [vint 0; vint 5], [vint 0; vint 2]. eexists. split; [vm_compute; reflexivity|]. split; [|vm_compute; reflexivity].
  exists 1. eexists. exists [vint 0; vint 2]. split; [left; reflexivity|]. split; [reflexivity|]. split; [|reflexivity]. split; [reflexivity|].
  exists (fun T x => if String.eqb x "x" then Some (Defined (SInt (match T with 0 => 0 | _ => 5 end))) else Some (Defined (SInt (match T with 0 => 0 | _ => 2 end)))).
  intros [|[|[|T]]] v o Hv Ho; inversion Hv; inversion Ho; subst; (split; [right; eexists; split; [repeat constructor|reflexivity]|]);
    (split; [|eexists; split; [repeat constructor|reflexivity]]); intros s [<-|[]]; cbn; eexists; (split; [|constructor; reflexivity]).
  - apply sem_then with (e' := i_ 0); [reflexivity|]. constructor.
  - apply sem_then with (e' := XBin (i_ 10) [(Div, x_ "x")]); [reflexivity|]. eapply sem_bin; [constructor|].
    econstructor; [apply sem_var; [left; reflexivity|lia|reflexivity]|reflexivity|constructor].
Qed.
Print Assumptions c54_lazy_refuted.

Example c54_ex : c54_run [3; 5; 0]%Z = Some (Panic PDivZero) /\ c54_run [3; 5; 2]%Z = Some (Ok (map vint [0; 2; 5]%Z)) /\
  means_strictly Checked noglob (source_nodes c54_src) "f" (map vint [3; 5; 2]%Z) (map vint [0; 2; 5]%Z) /\
  ~ exists outs, means_strictly Checked noglob (source_nodes c54_src) "f" (map vint [0; 5]%Z) outs.
Proof.
  split; [vm_compute; reflexivity|]. split; [vm_compute; reflexivity|].
  assert (D : forall a sn, In (a, XNode sn) c54_src -> ~ In "universal_pre" (map a_action a)) by (intros a sn [E|[]]; inversion E; intros []).
  assert (K : forall x t, constant c54_src x t -> noglob x <> None) by (intros x t (a & [(e & [E|[]])|[E|[]]]); discriminate E).
  split.
  - eapply (c54_exact Checked noglob c54_src); [vm_compute; reflexivity|exact D|exact K|vm_compute; reflexivity|]. eexists. vm_compute. reflexivity.
  - eapply (c54_fails Checked noglob c54_src); [vm_compute; reflexivity|exact D|exact K|vm_compute; reflexivity|]. eexists. vm_compute. reflexivity.
Qed.

(** [node half(a, b : int) returns (q : int); let q = a / b; tel]
    [node f(a, b : int) returns (r : int); let r = half(a, b) + 1; assert r < 100; tel] *)
Definition c54_flat : sprog :=
  [([], XNode (mkSNode "half" [on_ ["a"; "b"] BInt] [on_ ["q"] BInt] [] [def_ "q" (XBin (x_ "a") [(Div, x_ "b")])]));
   ([], XNode (mkSNode "f" [on_ ["a"; "b"] BInt] [on_ ["r"] BInt] []
      [def_ "r" (XBin (XCall "half" [x_ "a"; x_ "b"] false) [(Add, i_ 1)]); XAssert (XCmp (x_ "r") [(Lt, i_ 100)])]))].

Example c54_flat_ex :
  (forall a sn i, In (a, XNode sn) c54_flat -> In i (s_defs sn) -> unchained (stmt_body i)) /\
  means Checked noglob (source_nodes c54_flat) "f" [VT [vint 9; vint 2]; VT [vint 8; vint 1]] [vint 5; vint 9] /\
  ~ means Checked noglob (source_nodes c54_flat) "f" [VT [vint 9; vint 2]; VT [vint 8; vint 0]] [vint 5; vint 9] /\
  ~ means Checked noglob (source_nodes c54_flat) "f" [VT [vint 99; vint 1]] [vint 100].
Proof.
  assert (U : forall a sn i, In (a, XNode sn) c54_flat -> In i (s_defs sn) -> unchained (stmt_body i)).
  { intros a sn i [E|[E|[]]] I; inversion E; subst; cbn in I; intuition subst; cbn; auto. }
  assert (D : forall a sn, In (a, XNode sn) c54_flat -> ~ In "universal_pre" (map a_action a)) by (intros a sn [E|[E|[]]]; inversion E; intros []).
  assert (K : forall x t, constant c54_flat x t -> noglob x <> None) by (intros x t (a & [(e & [E|[E|[]]])|[E|[E|[]]]]); discriminate E).
  split; [exact U|]. repeat split.
  - eapply (c54_unchained Checked noglob c54_flat); [vm_compute; reflexivity|exact D|exact K|exact U|vm_compute; reflexivity|]. eexists. vm_compute. reflexivity.
  - intros M. eapply (c54_unchained Checked noglob c54_flat) in M; [|vm_compute; reflexivity|exact D|exact K|exact U|vm_compute; reflexivity].
    destruct M as (i' & M). vm_compute in M. discriminate M.
  - intros M. eapply (c54_unchained Checked noglob c54_flat) in M; [|vm_compute; reflexivity|exact D|exact K|exact U|vm_compute; reflexivity].
    destruct M as (i' & M). vm_compute in M. discriminate M.
Qed.
