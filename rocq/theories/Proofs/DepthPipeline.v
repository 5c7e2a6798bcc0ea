(** Depths and errors, for whole programs. *)
From Coq Require Import String List ZArith Bool Arith Lia Permutation.
From Verif Require Import Model.Base Model.Scalar Model.Value Model.Ast Model.Errors Model.Interp Model.Options Model.Surface Model.Translate
  Model.Graph Model.Causality Model.Typecheck Model.Clockcheck Model.Positivity Model.Pipeline
  Spec.StepSpec Spec.CausalitySpec Spec.OrderSpec Spec.ProgramSem Spec.TypeSpec Spec.DepthSpec Spec.SafetySpec
  Proofs.AstInd Proofs.OutBasics Proofs.NodeWf Proofs.PipelineProofs Proofs.TypeEval Proofs.Depths Proofs.TypeNode Proofs.TypePipeline.
Import ListNotations.

Definition outcome (theta : ident -> sty) (t : ty) (r : res (list val * inst)) : Prop :=
  match r with
  | Ok (outs, _) => Forall (of_type theta t) outs
  | Panic e => e = POverflow \/ e = PDivZero \/ e = PAssert \/ e = PAssertNil
  end.

Lemma safe_outcome : forall theta t r, safe r (fun '(outs, _) => Forall (of_type theta t) outs) -> outcome theta t r.
Proof. intros theta t [[os i]|[]] H; cbn in *; tauto. Qed.

Lemma default_program_errors : forall mode glob p l, result (pipeline p) = Some l -> closed p -> default_mode p -> constants_ok p glob ->
  forall sn, In sn (source_nodes p) ->
  exists i, init_inst (nodes_of l) (s_name sn) = Ok i /\
    forall theta ins, Forall (of_type theta (declared_type (s_inputs sn))) ins ->
    outcome theta (declared_type (s_outputs sn)) (run mode glob (nodes_of l) (s_name sn) i ins).
Proof.
  intros mode glob p l H Cl D Co sn I. destruct (default_program_safe mode glob p l H Cl D Co sn I) as (i & Ei & R).
  exists i. split; auto. intros theta ins F. apply safe_outcome. auto.
Qed.

Lemma ordered_program_errors : forall mode glob p l, result (pipeline p) = Some l -> closed p -> constants_ok p glob ->
  (forall nd, In nd (nodes_of l) -> well_ordered (n_stmts nd) /\
     Forall (fun t => match t with Some t => no_single t | None => True end) (n_regs nd)) ->
  forall sn, In sn (source_nodes p) ->
  exists i, init_inst (nodes_of l) (s_name sn) = Ok i /\
    forall theta ins, Forall (of_type theta (declared_type (s_inputs sn))) ins ->
    outcome theta (declared_type (s_outputs sn)) (run mode glob (nodes_of l) (s_name sn) i ins).
Proof.
  intros mode glob p l H Cl Co W sn I. destruct (program_safe mode glob p l H Cl Co) with (sn := sn) as (i & Ei & R); auto.
  - intros o nd J. right. apply W. apply nodes_of_in. eauto.
  - exists i. split; auto. intros theta ins F. apply safe_outcome. auto.
Qed.

(** Depths *)
Lemma default_opts : forall p a sn d o, default_mode p -> In (a, XNode sn) p ->
  result (with_attrs no_opts a) = Some d -> result (for_node d) = Some o -> o_universal o = false.
Proof.
  intros p a sn d o D Ia W Fo. rewrite (node_opts_universal _ _ _ W Fo). destruct (existsb is_universal a) eqn:E; auto. exfalso.
  apply existsb_exists in E. destruct E as (x & Ix & Ex). apply String.eqb_eq in Ex. apply (D _ _ Ia).
  rewrite <- Ex. apply in_map. auto.
Qed.

Theorem program_depths : forall p l, result (pipeline p) = Some l -> default_mode p -> forall nd, In nd (nodes_of l) ->
  exists sn, In sn (source_nodes p) /\ s_name sn = n_name nd /\
    forall v, In v (all_vars nd) ->
      (forall e n, In e (source_exprs sn) -> under 1 (v_name v) e n -> n <= v_depth v) /\
      (v_depth v = 0 \/ exists e, In e (source_exprs sn) /\ under 1 (v_name v) e (v_depth v)).
Proof.
  intros p l H D nd I. destruct (pipeline_nodes _ _ H _ I) as (o & a & sn & d & Ia & W & Fo & C).
  exists sn. split; [unfold source_nodes; apply in_flat_map; exists (a, XNode sn); cbn; auto|].
  split; [destruct (compiled_passed _ _ _ C) as (nd0 & st & Pa); rewrite (pa_name _ _ _ _ _ Pa); symmetry; apply (pa_translated _ _ _ _ _ Pa)|].
  intros v Iv. pose proof (node_depths _ _ _ C v Iv) as N. cbv zeta in N. rewrite (default_opts _ _ _ _ _ D Ia W Fo) in N. exact N.
Qed.

Theorem universal_depths : forall p l, result (pipeline p) = Some l ->
  (forall a sn, In (a, XNode sn) p -> In "universal_pre"%string (map a_action a)) ->
  forall nd v, In nd (nodes_of l) -> In v (all_vars nd) -> v_depth v = 0.
Proof.
  intros p l H D nd v I Iv. destruct (pipeline_nodes _ _ H _ I) as (o & a & sn & d & Ia & W & Fo & C).
  pose proof (node_depths _ _ _ C v Iv) as N. cbv zeta in N.
  assert (U : o_universal o = true).
  { rewrite (node_opts_universal _ _ _ W Fo). apply existsb_exists. apply D in Ia. apply in_map_iff in Ia. destruct Ia as (x & Ex & Ix).
    exists x. split; auto. unfold is_universal. rewrite Ex. apply String.eqb_refl. }
  rewrite U in N. destruct N as [_ [N|(e & _ & N)]]; auto. eapply under_zero; eauto.
Qed.

Corollary default_no_bad_read : forall mode glob p l, result (pipeline p) = Some l -> closed p -> default_mode p -> constants_ok p glob ->
  forall sn i theta ins, In sn (source_nodes p) -> init_inst (nodes_of l) (s_name sn) = Ok i ->
  Forall (of_type theta (declared_type (s_inputs sn))) ins ->
  run mode glob (nodes_of l) (s_name sn) i ins <> Panic PPast /\ run mode glob (nodes_of l) (s_name sn) i ins <> Panic PUnbound.
Proof.
  intros mode glob p l H Cl D Co sn i theta ins I Ei F.
  destruct (default_program_errors mode glob p l H Cl D Co sn I) as (i' & Ei' & R). rewrite Ei' in Ei. injection Ei as ->.
  specialize (R theta ins F). split; intros E; rewrite E in R; cbn in R; intuition discriminate.
Qed.

Lemma eval_typed : forall mode glob clk hists call nilout theta G nf sub_ok regs st e t s,
  globals_ok glob theta G -> hists_ok hists theta G -> calls_ok call nilout theta G sub_ok ->
  store_ok theta G st -> regs_ok theta G regs ->
  has_type G e t -> Forall (readable hists st) (vars_of e) -> Forall (fun id => id < nf) (flips_of e) ->
  es_ok G nf sub_ok s ->
  safe (eval mode glob clk hists call nilout regs st e s) (fun '(v, s') => of_type theta t v /\ es_ok G nf sub_ok s').
Proof.
  intros mode glob clk hists call nilout theta G nf sub_ok regs st e t s Hg Hh Hc Hs Hr T R F E.
  apply (eval_types mode glob clk hists call nilout theta G nf sub_ok Hg Hh Hc regs st Hs Hr e t T R F s E).
Qed.
