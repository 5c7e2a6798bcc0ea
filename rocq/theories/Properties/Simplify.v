(** * Claims about simplifications of expressions (C62). *)
From Coq Require Import String List ZArith Bool Arith Lia Relations.
From Verif Require Import Model.Base Model.Scalar Model.Value Model.Ast Model.Errors
  Model.Options Model.Interp Model.Surface Model.Translate Model.Pipeline Model.Extern
  Spec.StepSpec Spec.SurfaceSem Spec.ProgramSem Spec.SettledSem Spec.SafetySpec Spec.ExternSem Spec.ExternSettled Spec.Laws Spec.Simplify
  Proofs.Simplify Properties.Steps Properties.Translation Properties.Externs.
Import ListNotations.
Local Open Scope string_scope.
Local Open Scope list_scope.

(** Remove neutral operands, double negations, branches that are not chosen and
    the middle of [a -> b -> c]: the values stay. *)
Theorem c62_simpler : forall glob e e', simpler e e' -> refines Checked glob e e'.
Proof. exact simpler_refines. Qed.
Print Assumptions c62_simpler.

(** A program that is simplified anywhere, possibly after uses of the laws of C58,
    gives the same outputs as before whenever it did not panic before. *)
Theorem c62_runs : forall glob ext p q l m, Forall2 (rewritten_decl (fun a b => simpler a b \/ law a b \/ law b a)) p q ->
  result (pipeline p) = Some l -> result (pipeline q) = Some m -> default_mode p ->
  (forall x t, constant p x t -> glob x <> None) -> ordinary ext ->
  forall f ins outs, xoutputs Checked glob ext (items_of l) f ins = Ok outs -> xoutputs Checked glob ext (items_of m) f ins = Ok outs.
Proof. exact simpler_runs. Qed.
Print Assumptions c62_runs.

(** [y = 0 + (if true then x * 1 else 10 / x)] becomes [y = x].  The first one
    panics when [x] is zero. *)
Definition c62_node (e : sexpr) : sattrdecl :=
  ([], XNode (mkSNode "f" [on_ ["x"] BInt] [on_ ["y"] BInt] [] [def_ "y" e])).
Definition c62_before : sexpr :=
  XBin (i_ 0) [(Add, XParen [XIf (XLit (SLBool true)) (XBin (x_ "x") [(Mul, i_ 1)]) (XBin (i_ 10) [(Div, x_ "x")])] false)].

Example c62_ex :
  Forall2 (rewritten_decl (fun a b => simpler a b \/ law a b \/ law b a)) [c62_node c62_before] [c62_node (x_ "x")] /\
  default_mode [c62_node c62_before] /\ ordinary c48_total /\
  run_source [c62_node c62_before] "f" (map vint [2; -3; 4]%Z) = Some (Ok (map vint [2; -3; 4]%Z)) /\
  run_source [c62_node (x_ "x")] "f" (map vint [2; -3; 4]%Z) = Some (Ok (map vint [2; -3; 4]%Z)) /\
  (exists err, run_source [c62_node c62_before] "f" (map vint [2; 0]%Z) = Some (Panic err)) /\
  run_source [c62_node (x_ "x")] "f" (map vint [2; 0]%Z) = Some (Ok (map vint [2; 0]%Z)).
Proof.
  split; [|split; [intros a sn [E|[]]; inversion E; intros []|split; [intros x past v; unfold c48_total; destruct (String.eqb x "total"); split; discriminate|]]].
  - constructor; [|constructor]. constructor. constructor; [|constructor]. constructor.
    eapply rt_trans; [apply rt_step, wi_here; left; apply si_left; left; reflexivity|].
    eapply rt_trans; [apply rt_step, wi_here; right; left; apply law_paren|].
    eapply rt_trans; [apply rt_step, wi_here; left; apply si_if_true|].
    apply rt_step, wi_here; left; apply si_right; right; right; left; reflexivity.
  - split; [vm_compute; reflexivity|]. split; [vm_compute; reflexivity|]. split; [eexists; vm_compute; reflexivity|vm_compute; reflexivity].
Qed.
