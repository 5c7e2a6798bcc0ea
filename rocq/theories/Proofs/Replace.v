(** Nodes can be replaced by nodes with the same behaviour. *)
From Coq Require Import String List ZArith Bool Arith Lia.
From Verif Require Import Model.Base Model.Scalar Model.Value Model.Register Model.Ast Model.Errors Model.Interp Model.Options Model.Surface Model.Translate
  Model.Pipeline Model.Extern
  Spec.StepSpec Spec.SurfaceSem Spec.ProgramSem Spec.SettledSem Spec.SafetySpec Spec.ExternSem Spec.Static Spec.Replace
  Proofs.OutBasics Proofs.InterpBasics Proofs.ProgramProofs Proofs.PipelineProofs Proofs.BoundedReads Proofs.Unique Proofs.Exact Proofs.ExternBasics Proofs.Externs Proofs.ExternLink.
Import ListNotations.

Lemma accepted_starts : forall p l, result (pipeline p) = Some l -> closed p -> forall sn, In sn (source_nodes p) ->
  exists i, init_inst (nodes_of l) (s_name sn) = Ok i.
Proof.
  intros p l H C sn I. destruct (source_node_in _ _ I) as (a & J).
  destruct (accepted_init _ _ H (a, XNode sn) (s_name sn) J eq_refl) as (i & E). exists i.
  rewrite (closed_items _ _ H C), xinit_closed in E. exact E.
Qed.

(** [outputs] in terms of the equations, at a nesting that depends on the program only. *)
Lemma outputs_settle : forall mode glob p l, result (pipeline p) = Some l -> closed p -> default_mode p ->
  (forall x t, constant p x t -> glob x <> None) -> forall f ins outs,
  (outputs mode glob (nodes_of l) f ins = Ok outs -> settles mode glob (source_nodes p) (length (nodes_of l)) f ins outs) /\
  (forall n, settles mode glob (source_nodes p) n f ins outs -> outputs mode glob (nodes_of l) f ins = Ok outs).
Proof.
  intros mode glob p l H C D K f ins outs.
  assert (Rd : Forall (reading_node glob) (nodes_of l)).
  { apply (program_reading glob p l H K). intros a sn I J. exfalso. eapply D; eauto. }
  split.
  - intros R. unfold outputs in R. apply bind_ok in R. destruct R as (i & Hi & R). apply bind_ok in R. destruct R as ([os i'] & R & E). inversion E; subst.
    apply (prog_exact mode glob (source_nodes p) (source_node_unique _ _ H) _ (pipeline_default _ _ H D) Rd f i ins outs Hi). eauto.
  - intros [|n] S; [destruct S|]. pose proof S as (sn & pouts & I & E & _). destruct (accepted_starts _ _ H C _ I) as (i & Hi). rewrite E in Hi.
    destruct (proj2 (prog_exact mode glob (source_nodes p) (source_node_unique _ _ H) _ (pipeline_default _ _ H D) Rd f i ins outs Hi) _ S) as (i' & R).
    unfold outputs. rewrite Hi. cbn. rewrite R. reflexivity.
Qed.

Theorem replaced : forall mode glob p q l m, result (pipeline p) = Some l -> result (pipeline q) = Some m ->
  closed p -> closed q -> default_mode p -> default_mode q ->
  (forall x t, constant p x t \/ constant q x t -> glob x <> None) ->
  (forall a, In a (source_nodes p) -> exists b, In b (source_nodes q) /\ s_name b = s_name a /\
     declared (s_outputs b) = declared (s_outputs a) /\
     (solutions_kept mode glob a b \/
      forall ins outs, outputs mode glob (nodes_of l) (s_name a) ins = Ok outs -> outputs mode glob (nodes_of m) (s_name a) ins = Ok outs)) ->
  forall f ins outs, outputs mode glob (nodes_of l) f ins = Ok outs -> outputs mode glob (nodes_of m) f ins = Ok outs.
Proof.
  intros mode glob p q l m Hp Hq Cp Cq Dp Dq K R.
  pose proof (outputs_settle mode glob p l Hp Cp Dp (fun x t X => K x t (or_introl X))) as Ep.
  pose proof (outputs_settle mode glob q m Hq Cq Dq (fun x t X => K x t (or_intror X))) as Eq.
  assert (Un : forall a b, In a (source_nodes p) -> In b (source_nodes p) -> s_name a = s_name b -> a = b) by (apply (source_node_unique _ _ Hp)).
  assert (G : forall n f ins outs, settles mode glob (source_nodes p) n f ins outs -> settles mode glob (source_nodes q) (length (nodes_of m)) f ins outs).
  { induction n as [|n IH]; intros f ins outs S; [destruct S|]. pose proof S as (a & pouts & I & <- & M & ->).
    destruct (R a I) as (b & J & Nb & Ob & [Sk|Beh]).
    - apply Eq, (proj2 (Eq _ _ _)) with (n := Datatypes.S (length (nodes_of m))).
      exists b, pouts. split; auto. split; auto. split; [|rewrite Ob; auto]. apply Sk. eapply node_settles_mono; [| |exact M].
      + intros g args v (os & X). exists os. auto.
      + intros g v (sn & I' & <- & ->). destruct (R sn I') as (b' & J' & Nb' & Ob' & _). exists b'. rewrite Ob'. auto.
    - apply Eq, Beh. apply (proj2 (Ep _ _ _)) with (n := Datatypes.S n). auto. }
  intros f ins outs O. apply (proj2 (Eq f ins outs)) with (n := length (nodes_of m)). eapply G. apply Ep. exact O.
Qed.

Theorem replaced_alike : forall mode glob p q l m, result (pipeline p) = Some l -> result (pipeline q) = Some m ->
  closed p -> closed q -> default_mode p -> default_mode q ->
  (forall x t, constant p x t \/ constant q x t -> glob x <> None) ->
  Forall2 (fun a b => s_name b = s_name a /\ declared (s_outputs b) = declared (s_outputs a) /\
     (solutions_kept mode glob a b /\ solutions_kept mode glob b a \/
      forall ins outs, outputs mode glob (nodes_of l) (s_name a) ins = Ok outs <-> outputs mode glob (nodes_of m) (s_name a) ins = Ok outs))
    (source_nodes p) (source_nodes q) ->
  forall f ins outs, outputs mode glob (nodes_of l) f ins = Ok outs <-> outputs mode glob (nodes_of m) f ins = Ok outs.
Proof.
  intros mode glob p q l m Hp Hq Cp Cq Dp Dq K R f ins outs. split.
  - apply (replaced mode glob p q l m); auto. clear - R. intros a J. induction R as [|x y s t (X1 & X2 & X3) R IH]; [destruct J|].
    destruct J as [<-|J].
    + exists y. split; [left; auto|]. split; auto. split; auto. destruct X3 as [[X3 _]|X3]; [left; auto|right; intros; apply X3; auto].
    + destruct (IH J) as (b & I & B). exists b. split; [right; auto|auto].
  - apply (replaced mode glob q p m l); auto; [intros x t [X|X]; eapply K; eauto|]. clear - R. intros b J. induction R as [|x y s t (X1 & X2 & X3) R IH]; [destruct J|].
    destruct J as [<-|J].
    + exists x. split; [left; auto|]. split; auto. split; auto. rewrite X1. destruct X3 as [[_ X3]|X3]; [left; auto|right; intros; apply X3; auto].
    + destruct (IH J) as (a & I & B). exists a. split; [right; auto|auto].
Qed.
