(** Types in programs with extern nodes. *)
From Coq Require Import String List ZArith Bool Arith Lia Permutation.
From Verif Require Import Model.Base Model.Scalar Model.Value Model.Ast Model.Errors Model.Interp Model.Options Model.Surface Model.Translate
  Model.Typecheck Model.Pipeline Model.Extern
  Spec.StepSpec Spec.ProgramSem Spec.TypeSpec Spec.SafetySpec Spec.ExternSem
  Proofs.AstInd Proofs.OutBasics Proofs.PipelineProofs Proofs.Unify Proofs.TypeEval Proofs.TypeProg Proofs.TypePipeline Proofs.DepthPipeline Proofs.DeclRuns Proofs.ProgramProofs Proofs.Externs Proofs.ExternLink.
Import ListNotations.

Lemma find_stacked : forall L d, stacked (map key L) -> In d L -> find_item L (item_name d) = Some d.
Proof.
  induction L as [|e L IH]; intros d St J; [destruct J|]. cbn [map stacked key] in St. destruct St as (A & _ & St). cbn [find_item].
  destruct (String.eqb_spec (item_name d) (item_name e)) as [E|Ne]; destruct J as [->|J]; auto.
  - exfalso. apply A. rewrite map_map. cbn [fst key]. change (fun x : item => fst (key x)) with item_name. rewrite <- E. apply in_map. auto.
  - congruence.
Qed.

Lemma found_item : forall p l, result (pipeline p) = Some l -> forall sn, In sn (source_nodes p) ->
  exists nd, find_item (items_of l) (s_name sn) = Some (INode nd) /\
    in_type nd = declared_type (s_inputs sn) /\ out_type nd = declared_type (s_outputs sn).
Proof.
  intros p l H sn I. destruct (found_source _ _ H _ I) as (nd & r & F & Ti & To). exists nd. split; auto.
  destruct (find_node_in _ _ _ _ F) as [J Q]. rewrite <- Q. apply (find_stacked _ (INode nd)); [eapply accepted_stacked; eauto|].
  clear - J. unfold nodes_of, items_of in *. apply in_rev in J. rewrite <- in_rev. apply in_flat_map in J. apply in_flat_map.
  destruct J as (d & J & K). exists d. split; auto. destruct d; cbn in *; try tauto. destruct K as [->|[]]. auto.
Qed.

Lemma extern_types : forall p ext, externs_ok p ext -> forall x ins outs, declared_extern p x ins outs -> forall theta past v,
  Forall (of_type theta (flat (map v_base ins))) past -> Forall (fun v => first_is_nil v = false) past ->
  of_type theta (flat (map v_base ins)) v -> first_is_nil v = false ->
  safe (ext x past v) (of_type theta (flat (map v_base outs))).
Proof.
  intros p ext E x ins outs (a & i & o & J & -> & ->) theta past v T1 P1 T2 P2.
  rewrite declared_bases, flat_tuple in *. eapply (E _ _ _ _ J); apply Forall_app; auto.
Qed.

Theorem extern_program_safe : forall mode glob ext p l, result (pipeline p) = Some l -> constants_ok p glob -> externs_ok p ext ->
  (forall o nd, In (DNode o nd) l -> node_safe o nd) ->
  forall sn, In sn (source_nodes p) -> forall theta ins, Forall (of_type theta (declared_type (s_inputs sn))) ins ->
  safe (xoutputs mode glob ext (items_of l) (s_name sn) ins) (Forall (of_type theta (declared_type (s_outputs sn)))).
Proof.
  intros mode glob ext p l H Co Xo Sf sn Is theta ins Ft.
  destruct (accepted_typed_prog _ _ H Sf) as (gl & Q & EQ & TQ & Gl).
  destruct (found_item _ _ H _ Is) as (nd & Fi & Ti & To). rewrite <- Ti in Ft. rewrite <- To. rewrite <- EQ in *.
  destruct (init_types gl (declared_extern p) Q TQ _ _ Fi) as (i & Ei & Oi).
  assert (Hgl : forall x b, gl x = Some b -> exists s, glob x = Some s /\ forall theta, sty_of s = kind_of theta b) by (intros; apply Co; auto).
  pose proof (run_types mode glob gl Hgl ext (declared_extern p) (extern_types p ext Xo) Q (s_name sn) (INode nd) theta TQ Fi ins i (Oi theta) Ft) as R.
  unfold xoutputs. rewrite Ei. cbn [bind]. eapply safe_bind; [exact R|]. intros [os i'] [A _]. exact A.
Qed.

Theorem default_extern_safe : forall mode glob ext p l, result (pipeline p) = Some l -> default_mode p -> constants_ok p glob -> externs_ok p ext ->
  forall sn, In sn (source_nodes p) -> forall theta ins, Forall (of_type theta (declared_type (s_inputs sn))) ins ->
  match xoutputs mode glob ext (items_of l) (s_name sn) ins with
  | Ok outs => Forall (of_type theta (declared_type (s_outputs sn))) outs
  | Panic e => e = POverflow \/ e = PDivZero \/ e = PAssert \/ e = PAssertNil
  end.
Proof.
  intros mode glob ext p l H D Co Xo sn Is theta ins Ft.
  pose proof (extern_program_safe mode glob ext p l H Co Xo (default_safe _ _ H D) sn Is theta ins Ft) as S.
  destruct (xoutputs _ _ _ _ _ _) as [os|[]]; cbn in *; tauto.
Qed.
