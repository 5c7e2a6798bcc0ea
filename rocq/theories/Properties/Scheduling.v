(** * Claims about dependency analysis (C11, C12, C13, C15). *)
From Coq Require Import String List ZArith Bool Arith Permutation.
From Verif Require Import Model.Base Model.Scalar Model.Value Model.Ast Model.Graph Model.Causality
  Spec.GraphSpec Spec.CausalitySpec Proofs.Tarjan Proofs.GraphProofs Proofs.CausalityProofs.
Import ListNotations.

(** Items are arbitrary; [unit_eqb] is the equality test of units. *)
(** ** C11 *)
Theorem c11_providers_first : forall (Obj Unit : Type) (unit_eqb : Unit -> Unit -> bool),
  (forall a b, unit_eqb a b = true <-> a = b) ->
  forall (provides requires : Obj -> list Unit) ext objs must out,
  schedule Obj Unit unit_eqb provides requires ext objs must = inl out ->
  forall k o u, nth_error out k = Some o -> In u (requires o) ->
  forall k' o', nth_error out k' = Some o' -> In u (provides o') -> k' < k.
Proof. exact @schedule_before. Qed.
Print Assumptions c11_providers_first.

(** On nodes: a variable read at the current instant is written by an earlier
    statement, and a register is initialised before it is fetched. *)
Theorem c11_node_order : forall nd nd', node_causality nd = inl nd' ->
  forall k s, nth_error (n_stmts nd') k = Some s ->
  (forall x, stmt_reads s x -> forall k' s', nth_error (n_stmts nd') k' = Some s' -> stmt_count x s' <> 0 -> k' < k) /\
  (forall r, stmt_fetches s r -> forall k' v c, nth_error (n_stmts nd') k' = Some (SInit r v c) -> k' < k).
Proof. exact node_order. Qed.
Print Assumptions c11_node_order.

(** On programs: a node comes after all the nodes it calls (so that no node
    calls itself, directly or not). *)
Theorem c11_prog_order : forall l l', prog_causality l = inl l' ->
  forall k g nd, nth_error l' k = Some (DNode g nd) ->
  forall f, In f (n_blocks nd) ->
  forall k' d, nth_error l' k' = Some d -> decl_provides d = [RFun f] -> k' < k.
Proof. exact prog_order. Qed.
Print Assumptions c11_prog_order.

Definition ex_items : list (list nat * list nat) :=
  [([], [1; 2]); ([1], [3]); ([2; 3], [7]); ([4], [2; 1]); ([], [])].
Example c11_ex :
  schedule _ nat Nat.eqb fst snd [7] ex_items [1; 4] =
    inl [([2; 3], [7]); ([1], [3]); ([4], [2; 1]); ([], [1; 2]); ([], [])].
Proof. reflexivity. Qed.

(** ** C12 *)
Theorem c12_accepts_iff : forall (Obj Unit : Type) (unit_eqb : Unit -> Unit -> bool),
  (forall a b, unit_eqb a b = true <-> a = b) ->
  forall (provides requires : Obj -> list Unit) ext objs must,
  (exists out, schedule Obj Unit unit_eqb provides requires ext objs must = inl out) <->
  (single_assignment provides objs ext /\ complete provides objs must /\ acyclic provides requires objs).
Proof. exact @schedule_iff. Qed.
Print Assumptions c12_accepts_iff.

(** The reason given is right, and the internal index checks never fail. *)
Theorem c12_reasons : forall (Obj Unit : Type) (unit_eqb : Unit -> Unit -> bool),
  (forall a b, unit_eqb a b = true <-> a = b) ->
  forall (provides requires : Obj -> list Unit) ext objs must,
  match schedule Obj Unit unit_eqb provides requires ext objs must with
  | inl out => True
  | inr GraphUnitDeclTwice => ~ single_assignment provides objs ext
  | inr GraphUnitUndeclared => ~ complete provides objs must
  | inr GraphUnitDependsOnItself => exists i, depends_on provides requires objs i i
  | inr GraphCycle => ~ acyclic provides requires objs
  | inr GraphAbort => False
  end.
Proof. exact @schedule_reasons. Qed.
Print Assumptions c12_reasons.

Example c12_ex_cycle :
  schedule _ nat Nat.eqb fst snd [] [([1], [2]); ([2], [3]); ([3], [1]); ([4], [])] [] = inr GraphCycle.
Proof. reflexivity. Qed.
Example c12_ex_twice :
  schedule _ nat Nat.eqb fst snd [] [([1], [2]); ([2], [3]); ([4; 1], [])] [] = inr GraphUnitDeclTwice.
Proof. reflexivity. Qed.

(** The strongly connected components underneath: every vertex in exactly one
    component, components strongly connected, edges only towards the same or an
    earlier component. *)
Theorem c12_components : forall g, (forall u w, edge g u w -> w < length g) ->
  exists cs, sccs g = Some cs /\
    Permutation (concat cs) (seq 0 (length g)) /\
    forall pre c post, cs = pre ++ c :: post ->
      c <> [] /\
      (forall a b, In a c -> In b c -> reach g a b) /\
      (forall a b, In a c -> edge g a b -> In b c \/ In b (concat pre)).
Proof. exact sccs_ok. Qed.
Print Assumptions c12_components.

Example c12_components_ex :
  sccs [[1]; [2]; [0]; [1; 4]; [3; 5]; []] = Some [[2; 1; 0]; [5]; [4; 3]].
Proof. reflexivity. Qed.

(** On nodes: the statements of a node can be ordered exactly when no input is
    defined, every output and local variable is, nothing is defined or
    initialised twice, and no statement needs its own result of the same
    instant. In particular reading past values never prevents it. *)
Theorem c12_node : forall nd, (exists nd', node_causality nd = inl nd') <-> orderable nd.
Proof. exact node_orderable. Qed.
Print Assumptions c12_node.

(** ** C13 *)
Theorem c13_permutation : forall (Obj Unit : Type) (unit_eqb : Unit -> Unit -> bool),
  (forall a b, unit_eqb a b = true <-> a = b) ->
  forall (provides requires : Obj -> list Unit) ext objs must out,
  schedule Obj Unit unit_eqb provides requires ext objs must = inl out ->
  Permutation out objs /\
  exists first, out = first ++ filter (fun o => match provides o with [] => true | _ => false end) objs /\
    forall o, In o first -> provides o <> [].
Proof. exact @schedule_perm. Qed.
Print Assumptions c13_permutation.

Theorem c13_node : forall nd nd', node_causality nd = inl nd' ->
  Permutation (n_stmts nd') (n_stmts nd) /\
  nd' = mkNode (n_name nd) (n_inputs nd) (n_outputs nd) (n_locals nd) (n_blocks nd) (n_stmts nd') (n_regs nd) (n_flips nd).
Proof. exact node_stmts_perm. Qed.
Print Assumptions c13_node.

(** ** C15 *)
Theorem c15_definitions : forall nd nd', node_causality nd = inl nd' ->
  (forall x, In x (n_inputs nd) -> definitions (v_name x) (n_stmts nd) = 0) /\
  (forall x, In x (n_outputs nd ++ n_locals nd) -> definitions (v_name x) (n_stmts nd) = 1).
Proof. exact node_definitions. Qed.
Print Assumptions c15_definitions.

(** Conversely the pass only rejects a node for one of these reasons, or a
    cyclic dependency. *)
Theorem c15_rejects : forall nd e, node_causality nd = inr e ->
  (exists x, In x (n_inputs nd) /\ definitions (v_name x) (n_stmts nd) <> 0) \/
  (exists x, In x (n_outputs nd ++ n_locals nd) /\ definitions (v_name x) (n_stmts nd) = 0) \/
  (exists x, 1 < definitions x (n_stmts nd)) \/
  (exists r, 1 < initialisations r (n_stmts nd)) \/
  ~ (forall i, ~ awaits_plus (n_stmts nd) i i).
Proof. exact node_refused. Qed.
Print Assumptions c15_rejects.

Open Scope string_scope.
Definition cv (x : ident) : tyvar := mkVar x BInt CImplicit 0.
Definition ex_node : node :=
  mkNode "f" [cv "a"] [cv "y"] [cv "u"; cv "w"] []
    [SAssert (ECmp Scalar.Le (EVar "u" 0) (EVar "y" 0));
     SLet (VTSingle "y") (EBin Scalar.Add (EVar "u" 0) (EVar "y" 1));
     SLet (VTMult [VTSingle "u"; VTSingle "w"]) (ETuple [EVar "a" 0; ELit (LInt 1)])] [] 0.
Example c15_ex : exists nd', node_causality ex_node = inl nd' /\
  n_stmts nd' = [nth 2 (n_stmts ex_node) (SAssert (ETuple [])); nth 1 (n_stmts ex_node) (SAssert (ETuple []));
                 nth 0 (n_stmts ex_node) (SAssert (ETuple []))].
Proof. eexists; split; reflexivity. Qed.
Example c15_ex_twice : node_causality
  (mkNode "f" [cv "a"] [cv "y"] [] [] [SLet (VTSingle "y") (ELit (LInt 0)); SLet (VTMult [VTSingle "y"]) (EVar "a" 0)] [] 0)
  = inr GraphUnitDeclTwice.
Proof. reflexivity. Qed.
Example c15_ex_input : node_causality
  (mkNode "f" [cv "a"] [cv "y"] [] [] [SLet (VTMult [VTSingle "y"; VTSingle "a"]) (ETuple [ELit (LInt 0); ELit (LInt 0)])] [] 0)
  = inr GraphUnitDeclTwice.
Proof. reflexivity. Qed.

(** A counter reading its own past is accepted; reading its own present is not. *)
Definition self_node (p : nat) : node :=
  mkNode "f" [] [cv "y"] [cv "z"] []
    [SLet (VTSingle "y") (EBin Scalar.Add (EVar "z" 0) (ELit (LInt 1)));
     SLet (VTSingle "z") (ELater 1 (ELit (LInt 0)) (EVar "y" p))] [] 0.
Example c12_ex_past : orderable (self_node 1).
Proof. apply c12_node. eexists. reflexivity. Qed.
Example c12_ex_now : awaits_plus (n_stmts (self_node 0)) 0 0 /\ node_causality (self_node 0) = inr GraphCycle.
Proof.
  split; [|reflexivity]. apply ap_more with 1; [|apply ap_one]; do 2 eexists; repeat split.
  - left. exists "z". split; [|discriminate]. eexists. split; [reflexivity|]. apply rn_bin1. constructor.
  - left. exists "y". split; [|discriminate]. eexists. split; [reflexivity|]. apply rn_later2. constructor.
Qed.
