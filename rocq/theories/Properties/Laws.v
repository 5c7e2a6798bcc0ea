(** * Claims about equational reasoning (C58) and tuples of definitions (C59). *)
From Coq Require Import String List ZArith Bool Arith Lia Relations.
From Verif Require Import Model.Base Model.Scalar Model.Value Model.Ast Model.Errors
  Model.Options Model.Interp Model.Surface Model.Translate Model.Pipeline
  Spec.StepSpec Spec.SurfaceSem Spec.ProgramSem Spec.SettledSem Spec.SafetySpec Spec.ExternSem Spec.Laws
  Proofs.Laws Properties.Steps Properties.Translation.
Import ListNotations.
Local Open Scope string_scope.
Local Open Scope list_scope.

(** Replace, anywhere in the nodes of a program, expressions by expressions
    that have at least the same values: the runs that succeed give the same
    outputs. *)
Theorem c58_rewritten : forall mode glob (R : sexpr -> sexpr -> Prop) p q l m,
  (forall e e', R e e' -> refines mode glob e e') -> Forall2 (rewritten_decl R) p q ->
  result (pipeline p) = Some l -> result (pipeline q) = Some m -> closed p -> default_mode p ->
  (forall x t, constant p x t -> glob x <> None) ->
  forall f ins outs, outputs mode glob (nodes_of l) f ins = Ok outs -> outputs mode glob (nodes_of m) f ins = Ok outs.
Proof. exact rewritten_runs. Qed.
Print Assumptions c58_rewritten.

(** [a fby b] is [a -> pre b], [fby] associates to the right, [pre] distributes
    over the operators, [+ * and or xor] commute, comparisons can be mirrored. *)
Theorem c58_laws : forall mode glob e e', law e e' -> refines mode glob e e' /\ refines mode glob e' e.
Proof. exact laws_hold. Qed.
Print Assumptions c58_laws.

Theorem c58_runs : forall mode glob p q l m,
  Forall2 (rewritten_decl (fun a b => law a b \/ law b a)) p q ->
  result (pipeline p) = Some l -> result (pipeline q) = Some m -> closed p -> default_mode p ->
  (forall x t, constant p x t -> glob x <> None) ->
  forall f ins outs, outputs mode glob (nodes_of l) f ins = Ok outs <-> outputs mode glob (nodes_of m) f ins = Ok outs.
Proof. exact laws_run. Qed.
Print Assumptions c58_runs.

(** [y = 1 fby ((x * y) + x)] becomes [y = 1 -> pre x + pre y * pre x]. *)
Definition c58_node (e : sexpr) : sattrdecl :=
  ([], XNode (mkSNode "f" [on_ ["x"] BInt] [on_ ["y"] BInt] [] [def_ "y" e])).
Definition c58_before : sexpr := XFby (i_ 1) [XBin (XParen [XBin (x_ "x") [(Mul, x_ "y")]] false) [(Add, x_ "x")]].
Definition c58_after : sexpr :=
  XThen (i_ 1) [XBin (XPre (x_ "x")) [(Add, XBin (XPre (x_ "y")) [(Mul, XPre (x_ "x"))])]].

Example c58_ex :
  Forall2 (rewritten_decl (fun a b => law a b \/ law b a)) [c58_node c58_before] [c58_node c58_after] /\
  run_source [c58_node c58_before] "f" (map vint [2; 3; 4; 5]%Z) = Some (Ok (map vint [1; 4; 15; 64]%Z)) /\
  run_source [c58_node c58_after] "f" (map vint [2; 3; 4; 5]%Z) = Some (Ok (map vint [1; 4; 15; 64]%Z)) /\
  closed [c58_node c58_before] /\ default_mode [c58_node c58_before].
Proof.
  split; [|split; [vm_compute; reflexivity|split; [vm_compute; reflexivity|split; [intros a x i o [E|[]]; discriminate E|intros a sn [E|[]]; inversion E; intros []]]]].
  constructor; [|constructor]. constructor. constructor; [|constructor]. constructor.
  eapply rt_trans; [apply rt_step, wi_here; left; apply law_fby|].
  eapply rt_trans; [apply rt_step; eapply (wi_then _ _ _ _ _ _ _ [i_ 1] []); [apply wi_here; left; apply law_pre_bin|reflexivity|reflexivity]|].
  eapply rt_trans; [apply rt_step; eapply (wi_then _ _ _ _ _ _ _ [i_ 1] []); [apply wi_here; left; apply law_comm; left; reflexivity|reflexivity|reflexivity]|].
  eapply rt_trans; [apply rt_step; eapply (wi_then _ _ _ _ _ _ _ [i_ 1] []);
    [eapply (wi_bin2 _ _ _ _ _ [] []); apply wi_pre; apply wi_here; left; apply law_paren|reflexivity|reflexivity]|].
  eapply rt_trans; [apply rt_step; eapply (wi_then _ _ _ _ _ _ _ [i_ 1] []);
    [eapply (wi_bin2 _ _ _ _ _ [] []); apply wi_here; left; apply law_pre_bin|reflexivity|reflexivity]|].
  apply rt_step; eapply (wi_then _ _ _ _ _ _ _ [i_ 1] []);
    [eapply (wi_bin2 _ _ _ _ _ [] []); apply wi_here; left; apply law_comm; right; left; reflexivity|reflexivity|reflexivity].
Qed.

(** A tuple of definitions is the definitions one by one. *)
Theorem c59_split : forall mode glob p q l m, Forall2 split_decl p q ->
  result (pipeline p) = Some l -> result (pipeline q) = Some m -> closed p -> default_mode p ->
  (forall x t, constant p x t -> glob x <> None) ->
  forall f ins outs, outputs mode glob (nodes_of l) f ins = Ok outs <-> outputs mode glob (nodes_of m) f ins = Ok outs.
Proof. exact split_runs. Qed.
Print Assumptions c59_split.

(** [(a, (b, c)) = (x, (0 fby x, 7 fby b))] becomes [a = x; (b, c) = (0 fby x, 7 fby b)].
    [(a, b) = (x, a)] is refused, since it waits for itself, but [a = x; b = a] is not. *)
Definition c59_node (l : list sstmt) : sattrdecl :=
  ([], XNode (mkSNode "f" [on_ ["x"] BInt] [on_ ["a"; "b"; "c"] BInt] [] l)).
Definition c59_b : sexpr := XFby (i_ 0) [x_ "x"].
Definition c59_c : sexpr := XFby (i_ 7) [x_ "b"].
Definition c59_joined : list sstmt :=
  [XDef (TTuple [TVar "a"; TTuple [TVar "b"; TVar "c"] false] false) (XParen [x_ "x"; XParen [c59_b; c59_c] false] false)].
Definition c59_once : list sstmt := [def_ "a" (x_ "x"); XDef (TTuple [TVar "b"; TVar "c"] false) (XParen [c59_b; c59_c] false)].
Definition c59_three (a b c : Z) : val := VT [vint a; vint b; vint c].

Example c59_ex :
  Forall2 split_decl [c59_node c59_joined] [c59_node c59_once] /\
  run_source [c59_node c59_joined] "f" (map vint [4; 5; 6]%Z) = Some (Ok [c59_three 4 0 7; c59_three 5 4 0; c59_three 6 5 4]%Z) /\
  run_source [c59_node c59_once] "f" (map vint [4; 5; 6]%Z) = Some (Ok [c59_three 4 0 7; c59_three 5 4 0; c59_three 6 5 4]%Z) /\
  result (pipeline [c59_node [XDef (TTuple [TVar "a"; TVar "b"] false) (XParen [x_ "x"; x_ "a"] false); def_ "c" (i_ 0)]]) = None /\
  result (pipeline [c59_node [def_ "a" (x_ "x"); def_ "b" (x_ "a"); def_ "c" (i_ 0)]]) <> None.
Proof.
  split; [|split; [vm_compute; reflexivity|split; [vm_compute; reflexivity|split; [vm_compute; reflexivity|vm_compute; discriminate]]]].
  constructor; [|constructor]. constructor.
  apply (sp_split [TVar "a"; TTuple [TVar "b"; TVar "c"] false] [x_ "x"; XParen [c59_b; c59_c] false] false false [] []); [reflexivity|cbn; lia|constructor].
Qed.
