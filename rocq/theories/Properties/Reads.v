(** * Claims about the order of computations and reads of variables (C16). *)
From Coq Require Import String List ZArith Bool Arith.
From Verif Require Import Model.Base Model.Scalar Model.Value Model.Ast Model.Errors Model.Options Model.Interp Model.Surface
  Model.Translate Model.Pipeline Spec.StepSpec Spec.CausalitySpec Spec.OrderSpec Spec.ProgramSem Spec.SafetySpec Spec.ClockSpec
  Proofs.AstInd Proofs.BoundedReads Properties.Steps Properties.Translation Properties.Typing Properties.Clocks Properties.Universal.
Import ListNotations.
Local Open Scope string_scope.
Local Open Scope list_scope.

(** ** C16 *)
(** Whatever the attributes of the nodes, the input values and the number of
    steps: no access out of the range of a history, no read of a variable
    without a value.  The values of the constants are those given by [glob];
    the source syntax only writes plain clocks. *)
Theorem c16_no_bad_read : forall mode glob p l, result (pipeline p) = Some l ->
  (forall x t, constant p x t -> glob x <> None) ->
  (forall a sn, In (a, XNode sn) p -> In "universal_pre" (map a_action a) -> plain_clocks sn) ->
  forall f i ins, init_inst (nodes_of l) f = Ok i ->
  run mode glob (nodes_of l) f i ins <> Panic PPast /\ run mode glob (nodes_of l) f i ins <> Panic PUnbound.
Proof. exact program_no_bad_read. Qed.
Print Assumptions c16_no_bad_read.

(** In every node, each statement that computes a variable, or initialises a
    register, comes before all the statements that read it, including those
    that read it as the clock of a register. *)
Theorem c16_ordered : forall p l, result (pipeline p) = Some l ->
  (forall a sn, In (a, XNode sn) p -> In "universal_pre" (map a_action a) -> plain_clocks sn) ->
  forall nd, In nd (nodes_of l) ->
  forall k s e, nth_error (n_stmts nd) k = Some s -> In e (computed s) ->
    (forall x, reads_now x e -> forall k' s', nth_error (n_stmts nd) k' = Some s' -> stmt_count x s' <> 0 -> k' < k) /\
    (forall r, fetches r e -> forall k' v c, nth_error (n_stmts nd) k' = Some (SInit r v c) -> k' < k).
Proof. exact program_ordered. Qed.
Print Assumptions c16_ordered.

(**
<<
#[universal_pre]
node f(x : int; c : bool) returns (y : int);
var d : bool; z : int when d; n : int;
let y = merge d z (0 whenot d);
    z = (0 when d) fby (z + (n when d));
    n = x + 1; d = c and (true fby not d); tel
>>
    The register of [z] is on the clock [d], which is written after it in the
    source; the values can be of any type or shape. *)
Definition late_src : snode :=
  mkSNode "f" [on_ ["x"] BInt; on_ ["c"] BBool] [on_ ["y"] BInt]
    [on_ ["d"] BBool; (["z"], (BInt, CExplicit true "d")); on_ ["n"] BInt]
    [def_ "y" (XMerge (x_ "d") (x_ "z") (whenot_ (i_ 0) "d"));
     def_ "z" (XFby (when_ (i_ 0) "d") [XParen [XBin (x_ "z") [(Add, when_ (x_ "n") "d")]] false]);
     def_ "n" (XBin (x_ "x") [(Add, i_ 1)]);
     def_ "d" (XBin (x_ "c") [(BitAnd, XParen [XFby (XLit (SLBool true)) [XNot (x_ "d")]] false)])].
Definition late_prog : sprog := [([attr_ "universal_pre"], XNode late_src)].
Example c16_ex :
  (exists l i, result (pipeline late_prog) = Some l /\ init_inst (nodes_of l) "f" = Ok i) /\
  (forall x t, constant late_prog x t -> noglob x <> None) /\
  (forall a sn, In (a, XNode sn) late_prog -> In "universal_pre" (map a_action a) -> plain_clocks sn) /\
  run_source late_prog "f" (map (fun x => VT [vint x; vbool true]) [1; 2; 3; 4]%Z) = Some (Ok (map vint [0; 0; 2; 0]%Z)) /\
  run_source late_prog "f" [VT [vint 1; vbool true]; VT [vbool true; vint 0; VT []]] = Some (Panic PType).
Proof.
  split; [eexists; eexists; split; vm_compute; reflexivity|].
  split; [intros x t (a & [(e & I)|I]); cbn in I; destruct I as [I|[]]; inversion I|].
  split; [intros a sn [I|[]] _; inversion I; subst; intros x c J; cbn in J; intuition congruence|].
  split; vm_compute; reflexivity.
Qed.
