(** The integers of a run are 64-bit integers. *)
From Coq Require Import String List ZArith Bool Arith Lia Permutation.
From Verif Require Import Model.Base Model.Scalar Model.Value Model.Ast Model.Errors Model.Options Model.Interp Model.Surface Model.Translate
  Model.Causality Model.Pipeline Spec.StepSpec Spec.SurfaceSem Spec.ProgramSem Spec.SourceCausal Spec.ClockSpec Spec.UniversalSem Spec.RangeSpec
  Proofs.AstInd Proofs.OutBasics Proofs.CoreProofs Proofs.TranslateSem Proofs.TranslateStruct Proofs.NodeWf Proofs.RuntimeProofs Proofs.RuntimeProofs2
  Proofs.PipelineProofs Proofs.ProgramProofs Proofs.Unique Proofs.UniProgram Proofs.SourceOrder Proofs.Prompt Proofs.Closed.
Import ListNotations.

(** ** Literals *)
Section Literals.
  Variable u : bool.
  Variable locals : list ident.
  Let small (e : sexpr) : Prop := forall d s r, result (tr u locals e d s) = Some r -> forall z, In z (literals e) -> in_i64 z = true.

  Lemma small_elems : forall l, Forall small l -> forall d s r, result (tr_elems (tr u locals) l d s) = Some r ->
    forall z, In z (flat_map literals l) -> in_i64 z = true.
  Proof.
    induction 1 as [|e l He _ IH]; intros d s r R z I; [destruct I|]. cbn [tr_elems] in R.
    apply obind_some in R. destruct R as ((e', s1) & E1 & R). apply obind_some in R. destruct R as ((l', s2) & E2 & R).
    cbn in I. apply in_app_iff in I. destruct I; eauto.
  Qed.
  Lemma small_left : forall O (compose : O -> expr -> expr -> expr) l, Forall (fun p => small (snd p)) l ->
    forall acc d s r, result (tr_left (tr u locals) compose acc l d s) = Some r ->
    forall z, In z (flat_map (fun p => literals (snd p)) l) -> in_i64 z = true.
  Proof.
    intros O compose. induction 1 as [|[op e] l He _ IH]; intros acc d s r R z I; [destruct I|]. cbn [tr_left] in R.
    apply obind_some in R. destruct R as ((e', s1) & E1 & R). cbn in I. apply in_app_iff in I. destruct I; eauto.
  Qed.
  Lemma small_right : forall bump compose l, Forall small l ->
    forall i d s r, result (tr_right (tr u locals) bump compose i l d s) = Some r ->
    forall z, In z (flat_map literals l) -> in_i64 z = true.
  Proof.
    intros bump compose. induction 1 as [|e l He _ IH]; intros i d s r R z I; [destruct I|]. cbn [tr_right] in R.
    apply obind_some in R. destruct R as ((o, s1) & E1 & R). apply obind_some in R. destruct R as ((e', s2) & E2 & R).
    cbn in I. apply in_app_iff in I. destruct I; eauto.
  Qed.

  Lemma tr_small : forall e, small e.
  Proof.
    intros e. induction e using sexpr_ind'; intros d s r E z I; cbn [tr] in E; cbn [literals] in I.
    - destruct l; try (destruct I; fail). destruct I as [->|[]]. apply obind_some in E. destruct E as (x & E & _). unfold tr_lit in E.
      destruct (in_i64 z) eqn:L; [auto|discriminate].
    - destruct I.
    - apply obind_some in E. destruct E as ((es, s1) & E & _). eapply small_elems; eauto.
    - apply obind_some in E. destruct E as ((es, s1) & E & _). eapply small_elems; eauto.
    - apply obind_some in E. destruct E as ((es, s1) & E & _). eauto.
    - apply obind_some in E. destruct E as ((es, s1) & E & _). eauto.
    - destruct u; apply obind_some in E; destruct E as ((es, s1) & E & _); eauto.
    - apply obind_some in E. destruct E as ((c', s1) & E1 & E). apply obind_some in E. destruct E as ((a', s2) & E2 & E).
      apply obind_some in E. destruct E as ((b', s3) & E3 & E). rewrite !in_app_iff in I. destruct I as [I|[I|I]]; eauto.
    - apply obind_some in E. destruct E as ((c', s1) & E1 & E). apply obind_some in E. destruct E as ((a', s2) & E2 & E).
      apply obind_some in E. destruct E as ((b', s3) & E3 & E). rewrite !in_app_iff in I. destruct I as [I|[I|I]]; eauto.
    - apply obind_some in E. destruct E as ((a', s1) & E1 & E). apply in_app_iff in I. destruct I as [I|I]; eauto. eapply small_left; eauto.
    - apply obind_some in E. destruct E as ((a', s1) & E1 & E). apply in_app_iff in I. destruct I as [I|I]; eauto.
      destruct l as [|[o1 e1] [|[o2 e2] l]].
      + destruct I.
      + apply obind_some in E. destruct E as ((b', s2) & E2 & E). inversion H; subst. cbn [flat_map snd] in *. rewrite app_nil_r in I. eauto.
      + apply obind_some in E. destruct E as ((b', s2) & E2 & E). apply obind_some in E. destruct E as ((c', s3) & E3 & E). discriminate.
    - apply obind_some in E. destruct E as ((a', s1) & E1 & E). apply in_app_iff in I. destruct I as [I|I]; eauto. eapply small_left; eauto.
    - apply obind_some in E. destruct E as ((o, s1) & E1 & E). apply obind_some in E. destruct E as ((e1, s2) & E2 & E).
      apply in_app_iff in I. destruct I as [I|I]; eauto. eapply small_right; eauto.
    - apply obind_some in E. destruct E as ((o, s1) & E1 & E). apply obind_some in E. destruct E as ((e1, s2) & E2 & E).
      apply in_app_iff in I. destruct I as [I|I]; eauto. eapply small_right; eauto.
  Qed.
End Literals.

Lemma node_literals : forall o sn nd, compiled_node o sn nd ->
  forall i, In i (s_defs sn) -> forall z, In z (literals (right_side i)) -> (- 2 ^ 63 <= z < 2 ^ 63)%Z.
Proof.
  intros o sn nd C i I z J. destruct (compiled_passed _ _ _ C) as (nd0 & stmts & Pa).
  destruct (forall2_in_l _ _ _ (td_sourced _ _ _ (pa_translated _ _ _ _ _ Pa)) _ I) as (i' & I' & (st & st' & e' & bl & Tr & Ebl)).
  assert (L : in_i64 z = true); [|unfold in_i64, i64_min, i64_max in L; lia].
  destruct i as [t e|e]; destruct Tr as [Tr _]; eapply tr_small; eauto.
Qed.


(** ** Integers *)
Lemma literal_int : forall e z, In (SInt z) (literal_values e) <-> In z (literals e).
Proof.
  assert (FM : forall A (f : A -> list scalar) (g : A -> list Z) l z, Forall (fun a => In (SInt z) (f a) <-> In z (g a)) l ->
    (In (SInt z) (flat_map f l) <-> In z (flat_map g l))).
  { intros A f g l z H. induction H as [|a l Ha _ IH]; cbn; [tauto|]. rewrite !in_app_iff. tauto. }
  induction e using sexpr_ind'; intros z; cbn [literal_values literals]; rewrite ?in_app_iff; auto;
    try (rewrite ?IHe, ?IHe1, ?IHe2, ?IHe3; tauto);
    try (apply FM; eapply Forall_impl; [|exact H]; cbn; auto; fail);
    try (rewrite IHe; match goal with |- _ \/ In _ (flat_map ?f ?l) <-> _ \/ In _ (flat_map ?g ?l) =>
           assert (K : In (SInt z) (flat_map f l) <-> In z (flat_map g l)) by (apply FM; eapply Forall_impl; [|exact H]; cbn; auto); tauto end).
  destruct l; cbn; split; intros I; decompose [or] I; try contradiction; try discriminate; left; congruence.
Qed.

Lemma range_wf : forall s, scalar_range s <-> wf_scalar s = true.
Proof. intros [z| | |]; cbn; try tauto. symmetry. rewrite in_i64_spec. reflexivity. Qed.
Lemma range_closed : forall mode, closed_under mode scalar_range.
Proof.
  intros mode. constructor; cbn; auto.
  - intros op a s A E. apply range_wf. apply range_wf in A. eapply scalar_un_wf; eauto.
  - intros op a b s A B E. apply range_wf. apply range_wf in A. apply range_wf in B. exact (scalar_bin_wf _ _ _ _ _ A B E).
Qed.

Theorem run_range : forall mode glob, (forall x s, glob x = Some s -> scalar_range s) -> forall p l, result (pipeline p) = Some l ->
  forall f i ins outs i', init_inst (nodes_of l) f = Ok i -> run mode glob (nodes_of l) f i ins = Ok (outs, i') ->
  Forall in_range ins -> Forall in_range outs.
Proof.
  intros mode glob Hg p l R f i ins outs i'. apply (run_closed mode scalar_range (range_closed mode) glob Hg p l R).
  intros sn d s Is Id J. destruct s as [z| | |]; cbn; auto. apply literal_int in J.
  destruct (source_node_in _ _ Is) as (a & Ia). destruct (pipeline_covers _ _ R _ _ Ia) as (dd & o & nd & _ & W & Fo & C).
  eapply node_literals; eauto.
Qed.
