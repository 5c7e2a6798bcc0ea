(** Which programs are accepted without a recorded error. *)
From Coq Require Import String List ZArith Bool Arith Lia Permutation.
From Verif Require Import Model.Base Model.Scalar Model.Value Model.Ast Model.Errors Model.Options Model.Interp Model.Surface Model.Translate
  Model.Graph Model.Causality Model.Typecheck Model.Clockcheck Model.Positivity Model.Pipeline
  Spec.ProgramSem Spec.ClockSpec Spec.TranslateSpec Spec.DiagSpec Spec.CrashSpec Spec.Static Proofs.AstInd Proofs.OutBasics Proofs.TranslateSem Proofs.TranslateStruct Proofs.NodeWf
  Proofs.PipelineProofs Proofs.CausalityProofs Proofs.ProgramProofs Proofs.Unique Proofs.Paces Proofs.PaceNode Proofs.Fair Proofs.FairPipeline Proofs.StaticProgram.
Import ListNotations.

Lemma clean_fair : forall {A} (x : out A) a, clean x = Some a -> fair (fun _ => False) good x.
Proof. intros A [[b|] [|e es] ws|] a H; inversion H; subst. cbn. constructor. Qed.

Lemma default_mode : forall a d o, result (with_attrs no_opts a) = Some d -> result (for_node d) = Some o ->
  o_universal o = false -> ~ marked_universal a.
Proof. intros a d o W F U M. rewrite (universal_mode _ _ _ W F M) in U. discriminate. Qed.

(** The declared clocks, in the source and in the tree. *)
Lemma node_env : forall u sn nd, translated u sn nd -> NoDup (map v_name (all_vars nd)) ->
  (forall x, declared_pace sn x = option_map clock_pace (lookup x (node_clocks nd))) /\
  (forall x, In x (map v_name (all_vars nd)) -> exists c, lookup x (node_clocks nd) = Some c /\ declared_pace sn x = Some (clock_pace c)) /\
  (forall x, ~ In x (map v_name (all_vars nd)) -> declared_pace sn x = None).
Proof.
  intros u sn nd T N.
  assert (V : map (fun v => (v_name v, v_clk v)) (all_vars nd) = declared_clocks (s_inputs sn ++ s_outputs sn ++ s_locals sn)).
  { unfold all_vars. rewrite (td_inputs _ _ _ T), (td_outputs _ _ _ T), (td_locals _ _ _ T), !map_app, !tr_decls_clocks, !declared_clocks_app. auto. }
  assert (Nm : map v_name (all_vars nd) = map fst (declared_clocks (s_inputs sn ++ s_outputs sn ++ s_locals sn))).
  { rewrite <- V, map_map. auto. }
  assert (Lk : forall x, lookup x (node_clocks nd) = lookup x (declared_clocks (s_inputs sn ++ s_outputs sn ++ s_locals sn))).
  { intros x. unfold node_clocks. fold (all_vars nd). rewrite V. apply lookup_rev. rewrite <- V, map_map. auto. }
  assert (Henv : forall x, declared_pace sn x = option_map clock_pace (lookup x (node_clocks nd))).
  { intros x. rewrite Lk. unfold declared_pace. destruct (lookup _ _); auto. }
  split; auto. split; intros x I; rewrite Henv, Lk; rewrite Nm in I.
  - destruct (lookup x _) as [c|] eqn:E; [exists c; auto|]. apply lookup_none in E. contradiction.
  - apply lookup_none in I. rewrite I. auto.
Qed.

Lemma consistent_tolerated : forall p l l1 l2,
  (forall a sn, In (a, XNode sn) p -> ~ marked_universal a -> forall i, In i (s_defs sn) -> pace_of (declared_pace sn) (sstmt_expr i) <> None) ->
  result (tr_prog p) = Some l -> result (causality l) = Some l1 -> result (typecheck l1) = Some l2 ->
  Forall (decl_tolerated (fun _ => False)) l2.
Proof.
  intros p l l1 l2 Q T C Y. apply Forall_forall. intros d2 I. destruct d2 as [|o nd| |]; cbn; auto.
  destruct (forall2_in_r _ _ _ (typecheck_some _ _ Y) _ I) as (d1 & I1 & D). inversion D as [gl fn o' nd1 nd1' gens N|d' Nn]; subst; [|discriminate].
  destruct (causality_some _ _ C) as (l1' & F & P & _). apply (Permutation_in _ P) in I1.
  destruct (forall2_in_r _ _ _ F _ I1) as (d0 & I0 & D0). destruct d0; cbn [decl_causality] in D0; try discriminate.
  destruct (node_causality nd0) as [x|] eqn:Nc; [|discriminate]. inversion D0; subst. clear D0.
  apply omap_some in T. destruct (forall2_in_r _ _ _ T _ I0) as ((a & sd) & Ia & A). unfold tr_attrdecl in A. cbn [fst snd] in A.
  apply obind_some in A. destruct A as (d & W & A). destruct sd as [? ? e|sn| |]; cbn [tr_decl] in A; inv_out.
  { destruct (t_stmts t0), (t_blocks t0); discriminate. }
  match goal with H : result (tr_node _ _) = Some _ |- _ => apply tr_node_translated in H; rename H into Tr end.
  match goal with H : result (for_node _) = Some _ |- _ => rename H into Fo end.
  destruct (typed_vars _ _ _ _ _ _ N) as (V1 & V2 & V3 & V4 & V5).
  destruct (node_stmts_perm _ _ Nc) as [Pm E1]. rewrite E1 in V1, V2, V3, V5. cbn in V1, V2, V3.
  assert (Ln : node_clocks nd = node_clocks nd0) by (unfold node_clocks; rewrite V1, V2, V3; auto).
  destruct (node_env _ _ _ Tr V5) as (Henv & Hin & Hout).
  intros i r Ii. rewrite V4 in Ii. apply (Permutation_in _ Pm) in Ii. rewrite Ln.
  destruct (sourced i) eqn:So; [|destruct i; try discriminate; cbn; constructor].
  assert (If : In i (filter sourced (n_stmts nd0))) by (apply filter_In; auto).
  destruct (forall2_in_r _ _ _ (td_sourced _ _ _ Tr) _ If) as (j & Ij & (s & s' & e' & bl & J & _)).
  destruct (o_universal o) eqn:U.
  { apply fair_kc_stmt. destruct j; destruct J as [J ->]; cbn; right; eapply tr_later_free; eauto. }
  pose proof (Q _ _ Ia (default_mode _ _ _ W Fo U) _ Ij) as K.
  assert (Fe : forall local, local = node_clocks nd0 -> forall ks, fair (fun _ => False) good (kc local e' ks)).
  { intros local -> ks. destruct j as [t e|e]; destruct J as [J _]; cbn [sstmt_expr] in K; pose proof (tr_paced (node_clocks nd0) _ _ Hin Hout e _ _ _ _ J ks) as X;
      (destruct (pace_of (declared_pace sn) e) as [k|]; [|congruence]); eapply clean_fair; exact X. }
  specialize (Fe _ eq_refl).
  destruct j as [t e|e]; destruct J as [J ->]; cbn [kc_stmt].
  - apply fair_bind; [apply fair_kc_target|]. intros g _. apply fair_bind; [apply Fe|]. intros [r1 s1] _.
    destruct (tr_target t) as [|[|]]; try apply fair_done; (apply fair_bind; [apply fair_clk_identical|intros; apply fair_done]).
  - apply fair_bind; [apply Fe|]. intros [r1 s1] _. apply fair_bind; [apply fair_is_implicit|intros; apply fair_done].
Qed.

Theorem silent_consistent : forall p, (exists l ws, pipeline p = Out (Some l) [] ws) <->
  well_formed p /\ (forall a sn, In (a, XNode sn) p -> ~ marked_universal a ->
    forall i, In i (s_defs sn) -> pace_of (declared_pace sn) (sstmt_expr i) <> None).
Proof.
  intros p. split.
  - intros (l & ws & H). split; [apply accepted_well_formed; exists l; rewrite H; auto|].
    intros a sn I M i Ii. destruct (default_paced _ _ _ _ _ H I M) as (_ & Pc). specialize (Pc _ Ii).
    destruct i; cbn in *; [destruct Pc as (k & kt & -> & _)|destruct Pc as (k & -> & _)]; discriminate.
  - intros (W & Q). apply accepted_well_formed in W. destruct W as (l & H).
    assert (F : fair (fun _ => False) good (pipeline p)) by (apply fair_pipeline; intros; eapply consistent_tolerated; eauto).
    destruct (pipeline p) as [[m|] es ws|]; try discriminate. cbn in F. destruct F as [|e es K]; [eauto|contradiction].
Qed.

(** What the user of the macro sees. *)
Theorem verdict : forall p, compile p <> Crashed ->
  (well_formed p /\ exists l ws, compile p = Expanded (Some l) ws) \/
  (~ well_formed p /\ exists e es, compile p = Expanded None (e :: es)).
Proof.
  intros p Ab. destruct (pipeline p) as [[l|] es ws|] eqn:H; [| |unfold compile in Ab; rewrite H in Ab; congruence].
  - left. split; [apply accepted_well_formed; exists l; rewrite H; auto|]. unfold compile. rewrite H. eauto.
  - right. split.
    + intros W. apply accepted_well_formed in W. destruct W as (l & W). rewrite H in W. discriminate.
    + unfold compile. rewrite H. destruct es as [|e es]; [|eauto]. exfalso. exact (rejection_reports _ _ _ H eq_refl).
Qed.
