(** * Reference meaning of source programs with extern nodes.

    As [UniversalSem], given what the extern nodes answer. *)
From Coq Require Import String List ZArith Bool Arith.
From Verif Require Import Model.Base Model.Scalar Model.Value Model.Ast Model.Interp Model.Options Model.Surface Model.Extern
  Spec.StepSpec Spec.SurfaceSem Spec.ProgramSem Spec.UniversalSem Spec.TypeSpec Spec.SafetySpec.
Import ListNotations.

(** [outs] are the answers of [b] to the inputs [ins]; they are tuples of as many
    values as there are names in [names]. *)
Definition responds (b : behaviour) (names : list ident) (ins outs : list val) : Prop :=
  length outs = length ins /\
  forall T v, nth_error ins T = Some v -> exists w ns, b (firstn T ins) v = Ok w /\
    length ns = length names /\ nth_error outs T = Some (tuple_val (map VS ns)) /\
    (names <> [] -> w = tuple_val (map VS ns)).

Section ExternSem.
  Variable mode : ovf.
  Variable glob : ident -> option scalar.
  Variable ext : ident -> behaviour.
  Variable p : sprog.

  (** The answer of a node, or of an extern node, to an absent input. *)
  Definition silence (f : ident) (v : val) : Prop :=
    (exists a sn, In (a, XNode sn) p /\ s_name sn = f /\ v = absent_row (declared (s_outputs sn))) \/
    (exists a i o, In (a, XExtNode f i o) p /\ v = absent_row (declared o)).

  Definition with_universal (a : list attribute) : bool := existsb (fun a => String.eqb (a_action a) "universal_pre") a.

  Fixpoint xdenotes (n : nat) (f : ident) (ins outs : list val) : Prop :=
    let present_ins := filter (fun v => negb (first_is_nil v)) ins in
    (exists a i o pouts, In (a, XExtNode f i o) p /\ responds (ext f) (declared o) present_ins pouts /\
      outs = weave (absent_row (declared o)) ins pouts) \/
    match n with
    | 0 => False
    | S n => exists a sn pouts,
        In (a, XNode sn) p /\ s_name sn = f /\
        (let F := fun g args v => exists os, xdenotes n g args (os ++ [v]) in
         if with_universal a then unode_meaning mode glob F sn present_ins pouts
         else node_meaning mode glob F silence sn present_ins pouts) /\
        outs = weave (absent_row (declared (s_outputs sn))) ins pouts
    end.

  Definition xmeans (f : ident) (ins outs : list val) : Prop := exists n, xdenotes n f ins outs.
End ExternSem.

(** What a node of [P] answers to an input after some others. *)
Definition answers_of (mode : ovf) (glob : ident -> option scalar) (P : prog) (f : ident) : behaviour := fun past v =>
  i <- init_inst P f;;
  '(_, i) <- run mode glob P f i past;;
  '(o, _) <- step mode glob P f i v;;
  Ok o.

(** The outputs of a node of [P], from its initial state. *)
Definition outputs (mode : ovf) (glob : ident -> option scalar) (P : prog) (f : ident) (ins : list val) : res (list val) :=
  i <- init_inst P f;;
  '(os, _) <- run mode glob P f i ins;;
  Ok os.

(** Extern nodes that answer values of the declared types to inputs of the
    declared types; they may fail as well-typed nodes may. *)
Definition externs_ok (p : sprog) (ext : ident -> behaviour) : Prop := forall a x i o, In (a, XExtNode x i o) p ->
  forall theta past v, Forall (of_type theta (declared_type i)) (past ++ [v]) -> Forall present_val (past ++ [v]) ->
  safe (ext x past v) (of_type theta (declared_type o)).
