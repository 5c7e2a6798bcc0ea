(** * Claims about replacing nodes (C55) and removing assertions (C56). *)
From Coq Require Import String List ZArith Bool Arith Lia.
From Verif Require Import Model.Base Model.Scalar Model.Value Model.Ast Model.Errors
  Model.Options Model.Interp Model.Surface Model.Translate Model.Pipeline
  Spec.StepSpec Spec.SurfaceSem Spec.ProgramSem Spec.SettledSem Spec.SafetySpec Spec.ExternSem Spec.Replace
  Proofs.Exact Proofs.Replace Proofs.Asserts Properties.Steps Properties.Translation.
Import ListNotations.
Local Open Scope string_scope.
Local Open Scope list_scope.

(** If each node of a program has a counterpart in another program, whose
    equations keep its solutions, or which at least gives its outputs when it is
    run, then the other program gives the outputs of the first. *)
Theorem c55_refines : forall mode glob p q l m, result (pipeline p) = Some l -> result (pipeline q) = Some m ->
  closed p -> closed q -> default_mode p -> default_mode q ->
  (forall x t, constant p x t \/ constant q x t -> glob x <> None) ->
  (forall a, In a (source_nodes p) -> exists b, In b (source_nodes q) /\ s_name b = s_name a /\
     declared (s_outputs b) = declared (s_outputs a) /\
     (solutions_kept mode glob a b \/
      forall ins outs, outputs mode glob (nodes_of l) (s_name a) ins = Ok outs -> outputs mode glob (nodes_of m) (s_name a) ins = Ok outs)) ->
  forall f ins outs, outputs mode glob (nodes_of l) f ins = Ok outs -> outputs mode glob (nodes_of m) f ins = Ok outs.
Proof. exact replaced. Qed.
Print Assumptions c55_refines.

(** Nodes that cannot be told apart by running them, or that have the same
    equations, cannot be told apart by the nodes that call them either. *)
Theorem c55_alike : forall mode glob p q l m, result (pipeline p) = Some l -> result (pipeline q) = Some m ->
  closed p -> closed q -> default_mode p -> default_mode q ->
  (forall x t, constant p x t \/ constant q x t -> glob x <> None) ->
  Forall2 (fun a b => s_name b = s_name a /\ declared (s_outputs b) = declared (s_outputs a) /\
     (solutions_kept mode glob a b /\ solutions_kept mode glob b a \/
      forall ins outs, outputs mode glob (nodes_of l) (s_name a) ins = Ok outs <-> outputs mode glob (nodes_of m) (s_name a) ins = Ok outs))
    (source_nodes p) (source_nodes q) ->
  forall f ins outs, outputs mode glob (nodes_of l) f ins = Ok outs <-> outputs mode glob (nodes_of m) f ins = Ok outs.
Proof. exact replaced_alike. Qed.
Print Assumptions c55_alike.

(** Two versions of a node, and a node that calls it:
<<
node max(a, b : int) returns (m : int); let m = if a > b then a else b; tel
node max(a, b : int) returns (m : int); let m = if not (a > b) then b else a; tel
node highest(x : int) returns (r : int); let r = max(x, 0 -> pre r); tel
>> *)
Definition c55_max (e : sexpr) : snode := mkSNode "max" [on_ ["a"; "b"] BInt] [on_ ["m"] BInt] [] [def_ "m" e].
Definition c55_gt : sexpr := XCmp (x_ "a") [(Gt, x_ "b")].
Definition c55_max1 : snode := c55_max (XIf c55_gt (x_ "a") (x_ "b")).
Definition c55_max2 : snode := c55_max (XIf (XNot (XParen [c55_gt] false)) (x_ "b") (x_ "a")).
Definition c55_prog (max : snode) : sprog :=
  [([], XNode (mkSNode "highest" [on_ ["x"] BInt] [on_ ["r"] BInt] []
      [def_ "r" (XCall "max" [x_ "x"; XThen (i_ 0) [XPre (x_ "r")]] false)]));
   ([], XNode max)].

Lemma c55_same : forall mode glob, solutions_kept mode glob c55_max1 c55_max2 /\ solutions_kept mode glob c55_max2 c55_max1.
Proof.
  intros mode glob. split; intros F N ins outs (L & rho & M); (split; [exact L|]); exists rho; intros T v o Hv Ho;
    destruct (M T v o Hv Ho) as (A & B & C); (split; [exact A|]); (split; [|exact C]); intros i [<-|[]];
    destruct (B _ (or_introl eq_refl)) as [(w & S & W) _]; (split; [|apply unchained_settled; cbn; tauto]); exists w; (split; [|exact W]); clear - S;
    inversion S; subst; clear S.
  - match goal with H1 : sem _ _ _ _ _ _ (x_ "a") _ ?va, H2 : sem _ _ _ _ _ _ (x_ "b") _ ?vb |- _ =>
      assert (exists n, va = VS n) as (na & ->) by (inversion H1; eauto); assert (exists n, vb = VS n) as (nb & ->) by (inversion H2; eauto) end.
    match goal with H : val_ifx ?c _ _ = Ok _ |- _ => destruct c as [[[]|]|]; cbn in H; try discriminate H; inversion H; subst; clear H end.
    + eapply sem_if; [eapply sem_not; [eapply sem_paren; constructor; [eassumption|constructor]|reflexivity]|eassumption|eassumption|]. destruct b; reflexivity.
    + eapply sem_if; [eapply sem_not; [eapply sem_paren; constructor; [eassumption|constructor]|reflexivity]|eassumption|eassumption|]. reflexivity.
  - match goal with H1 : sem _ _ _ _ _ _ (x_ "a") _ ?va, H2 : sem _ _ _ _ _ _ (x_ "b") _ ?vb |- _ =>
      assert (exists n, va = VS n) as (na & ->) by (inversion H1; eauto); assert (exists n, vb = VS n) as (nb & ->) by (inversion H2; eauto) end.
    match goal with H : sem _ _ _ _ _ _ (XNot _) _ _ |- _ => inversion H; subst; clear H end.
    match goal with H : sem _ _ _ _ _ _ (XParen _ _) _ _ |- _ => inversion H; subst; clear H end.
    match goal with H : sems _ _ _ _ _ _ _ _ _ |- _ => inversion H; subst; clear H end.
    match goal with H : sems _ _ _ _ _ _ [] _ _ |- _ => inversion H; subst; clear H end.
    cbn [tuple_val] in *.
    match goal with H : val_un _ _ ?c = Ok _ |- _ => destruct c as [[[]|]|]; cbn in H; try discriminate H; inversion H; subst; clear H end;
      match goal with H : val_ifx _ _ _ = Ok _ |- _ => cbn in H; try discriminate H; inversion H; subst; clear H end;
      (eapply sem_if; [eassumption|eassumption|eassumption|]); try reflexivity. destruct b; reflexivity.
Qed.

Example c55_ex :
  run_source (c55_prog c55_max1) "highest" (map vint [3; 1; 4]%Z) = Some (Ok (map vint [3; 3; 4]%Z)) /\
  exists l m, result (pipeline (c55_prog c55_max1)) = Some l /\ result (pipeline (c55_prog c55_max2)) = Some m /\
    forall f ins outs, outputs Checked noglob (nodes_of l) f ins = Ok outs <-> outputs Checked noglob (nodes_of m) f ins = Ok outs.
Proof.
  split; [vm_compute; reflexivity|].
  destruct (result (pipeline (c55_prog c55_max1))) as [l|] eqn:H1; [|vm_compute in H1; discriminate].
  destruct (result (pipeline (c55_prog c55_max2))) as [m|] eqn:H2; [|vm_compute in H2; discriminate].
  exists l, m. split; auto. split; auto. apply (c55_alike Checked noglob _ _ _ _ H1 H2).
  - intros a x i o [E|[E|[]]]; discriminate E.
  - intros a x i o [E|[E|[]]]; discriminate E.
  - intros a sn [E|[E|[]]]; inversion E; intros [].
  - intros a sn [E|[E|[]]]; inversion E; intros [].
  - intros x t [(a & [(e & [E|[E|[]]])|[E|[E|[]]]])|(a & [(e & [E|[E|[]]])|[E|[E|[]]]])]; discriminate E.
  - constructor; [|constructor; [|constructor]]; (split; [reflexivity|]; split; [reflexivity|]; left).
    + split; intros F N ins outs X; exact X.
    + apply c55_same.
Qed.

(** A program remains accepted when assertions are removed from it. *)
Theorem c56_accepted : forall p q l, Forall2 asserts_less p q -> result (pipeline p) = Some l -> exists m, result (pipeline q) = Some m.
Proof. exact asserts_removed. Qed.
Print Assumptions c56_accepted.

(** When it does not panic, its outputs are the same. *)
Theorem c56_runs : forall mode glob p q l m, Forall2 asserts_less p q ->
  result (pipeline p) = Some l -> result (pipeline q) = Some m -> closed p -> default_mode p ->
  (forall x t, constant p x t -> glob x <> None) ->
  forall f ins outs, outputs mode glob (nodes_of l) f ins = Ok outs -> outputs mode glob (nodes_of m) f ins = Ok outs.
Proof. exact asserts_check. Qed.
Print Assumptions c56_runs.

(** [node g(x : int) returns (y : int); let y = 0 fby y + x; assert count() < 3; tel], where [count] has an assertion as well. *)
Definition c56_prog (a b : bool) : sprog :=
  [([], XNode (mkSNode "g" [on_ ["x"] BInt] [on_ ["y"] BInt] []
      ((if a then [XAssert (XCmp (XCall "count" [] false) [(Lt, i_ 3)])] else []) ++ [def_ "y" (XFby (i_ 0) [XBin (x_ "y") [(Add, x_ "x")]])])));
   ([], XNode (mkSNode "count" [] [on_ ["n"] BInt] []
      ([def_ "n" (XFby (i_ 0) [XBin (x_ "n") [(Add, i_ 1)]])] ++ (if b then [XAssert (XCmp (i_ 0) [(Le, x_ "n")])] else []))))].
Example c56_ex :
  Forall2 asserts_less (c56_prog true true) (c56_prog false false) /\ Forall2 asserts_less (c56_prog true true) (c56_prog true false) /\
  run_source (c56_prog true true) "g" (map vint [5; 6; 7]%Z) = Some (Ok (map vint [0; 5; 11]%Z)) /\
  run_source (c56_prog true true) "g" (map vint [5; 6; 7; 8]%Z) = Some (Panic PAssert) /\
  run_source (c56_prog false false) "g" (map vint [5; 6; 7; 8]%Z) = Some (Ok (map vint [0; 5; 11; 18]%Z)).
Proof. repeat split; [repeat constructor|repeat constructor|vm_compute; reflexivity..]. Qed.
