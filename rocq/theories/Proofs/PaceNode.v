(** Nodes and programs accepted without a recorded error obey the reference
    clock calculus. *)
From Coq Require Import String List ZArith Bool Arith Lia Permutation.
From Verif Require Import Model.Base Model.Scalar Model.Value Model.Ast Model.Errors Model.Options Model.Interp Model.Surface Model.Translate
  Model.Graph Model.Causality Model.Typecheck Model.Clockcheck Model.Positivity Model.Pipeline
  Spec.ProgramSem Spec.ClockSpec Spec.TranslateSpec Proofs.AstInd Proofs.OutBasics Proofs.TranslateSem Proofs.TranslateStruct Proofs.NodeWf
  Proofs.PipelineProofs Proofs.ProgramProofs Proofs.Unique Proofs.Paces.
Import ListNotations.

Lemma clean_result : forall {A} (x : out A) a, clean x = Some a -> result x = Some a.
Proof. intros A [[b|] [|e es] ws|] a H; inversion H; auto. Qed.

Lemma clean_omap : forall {A B} (f : A -> out B) l l', clean (omap f l) = Some l' -> Forall2 (fun a b => clean (f a) = Some b) l l'.
Proof.
  intros A B f. induction l as [|a l IH]; intros l' H; cbn in H; [inversion H; constructor|].
  rewrite clean_obind in H. destruct (clean (f a)) as [b|] eqn:E; [|discriminate]. cbn [pbind] in H.
  rewrite clean_obind in H. destruct (clean (omap f l)) as [bs|] eqn:E'; [|discriminate].
  cbn in H. inversion H; subst. constructor; auto.
Qed.

Section Target.
  Variable local : list (ident * clock).
  Variable env : ident -> option pace.
  Hypothesis Henv : forall x, env x = option_map clock_pace (lookup x local).


  Definition thas (t : vartuple) (o : option pace) : Prop := clean (kc_target local t) = option_map kk o.

  Lemma thas_mult : forall ts os, Forall2 thas ts os -> thas (VTMult ts) (uniform os).
  Proof.
    intros ts os H. unfold thas. destruct H as [|t o ts os H Hs]; [reflexivity|]. cbn [kc_target].
    rewrite clean_obind, H. cbn [uniform]. destruct o as [g|]; cbn [option_map pbind]; auto.
    rewrite clean_obind, clean_obind, H. cbn [option_map pbind forallb]. rewrite clean_obind, clean_identical, same_pace_refl. cbn [pbind andb].
    match goal with |- pbind (clean (?go ts)) _ = _ => assert (G : forall us ps, Forall2 thas us ps -> clean (go us) =
      if forallb (fun k => match k with Some k => same_pace g k | None => false end) ps then Some tt else None) end.
    { clear. induction 1 as [|u p us ps H _ IH]; [reflexivity|]. cbn [forallb]. rewrite clean_obind, H.
      destruct p as [k|]; cbn [option_map pbind andb]; auto. rewrite clean_obind, clean_identical.
      destruct (same_pace g k); cbn [pbind andb]; auto. }
    rewrite (G _ _ Hs). destruct (forallb _ _); reflexivity.
  Qed.

  Lemma uniform_one : forall o, uniform [o] = o.
  Proof. intros [k|]; cbn; auto. rewrite same_pace_refl. auto. Qed.

  Lemma thas_target : forall t, thas (tr_target t) (pace_target env t).
  Proof.
    fix IH 1. intros [x|l b].
    - unfold thas. cbn. rewrite Henv. destruct (lookup x local) as [c|]; cbn; auto. rewrite kk_clock. auto.
    - cbn [tr_target pace_target].
      assert (F : Forall2 thas (map tr_target l) (map (pace_target env) l)) by (induction l; constructor; auto).
      destruct l as [|t [|t' l]]; cbn [map] in *; try (apply thas_mult; exact F).
      destruct b; [apply thas_mult; exact F|]. rewrite uniform_one. inversion F; auto.
  Qed.

  Lemma binds_mult : forall t, binds_nothing t = match tr_target t with VTMult [] => true | _ => false end.
  Proof.
    fix IH 1. intros [x|l b]; [reflexivity|]. destruct l as [|t [|t' l]]; cbn; auto. destruct b; auto.
  Qed.
End Target.

Lemma lookup_map : forall x (l : list tyvar), lookup x (map (fun v => (v_name v, v_clk v)) l) =
  match find (fun v => String.eqb x (v_name v)) l with Some v => Some (v_clk v) | None => None end.
Proof. induction l as [|v l IH]; simpl; auto. destruct (String.eqb x (v_name v)); auto. Qed.

Lemma lookup_rev : forall {A} x (l : list (ident * A)), NoDup (map fst l) -> lookup x (rev l) = lookup x l.
Proof.
  intros A x. assert (App : forall (l l' : list (ident * A)), lookup x (l ++ l') = match lookup x l with Some a => Some a | None => lookup x l' end).
  { induction l as [|[y a] l IH]; intros l'; simpl; auto. destruct (String.eqb x y); auto. }
  induction l as [|[y a] l IH]; intros N; auto. simpl in N. inversion N; subst. simpl rev. rewrite App, IH by auto.
  simpl. destruct (String.eqb x y) eqn:E; [|destruct (lookup x l); auto].
  apply String.eqb_eq in E. subst. destruct (lookup y l) eqn:L; auto. exfalso. apply H1.
  destruct (in_dec string_dec y (map fst l)) as [I|I]; auto. apply lookup_none in I. congruence.
Qed.

Lemma tr_decls_clocks : forall l, map (fun v => (v_name v, v_clk v)) (tr_decls l) = declared_clocks l.
Proof.
  induction l as [|[xs [b c]] l IH]; auto. unfold tr_decls, declared_clocks in *. cbn [flat_map]. rewrite map_app, IH. f_equal.
  rewrite map_map. reflexivity.
Qed.

Lemma declared_clocks_app : forall a b, declared_clocks (a ++ b) = declared_clocks a ++ declared_clocks b.
Proof. intros. apply flat_map_app. Qed.

Lemma declared_clocks_names : forall l, map fst (declared_clocks l) = declared l.
Proof. intros. rewrite <- tr_decls_clocks, map_map. rewrite <- tr_decls_names. reflexivity. Qed.

Lemma each_clean : forall {A} (f : A -> out unit) l, clean (each f l) <> None -> forall a, In a l -> clean (f a) <> None.
Proof.
  induction l as [|b l IH]; intros H a []; cbn [each] in H; rewrite clean_obind in H.
  - subst. destruct (clean (f a)); discriminate || auto.
  - destruct (clean (f b)); cbn [pbind] in H; [auto|congruence].
Qed.

Lemma kc_stmts_clean : forall local l s o, clean (kc_stmts local l s) = Some (Some o) ->
  forall i, In i l -> exists s0 s1, clean (kc_stmt local i s0) = Some s1.
Proof.
  induction l as [|j l IH]; intros s o H i I; [destruct I|]. cbn [kc_stmts] in H.
  assert (C : exists s1, clean (kc_stmt local j s) = Some s1 /\ clean (kc_stmts local l s1) = Some (Some o)).
  { destruct (kc_stmt local j s) as [[s1|] [|e es] ws|]; cbn in H; try discriminate.
    - exists s1. split; auto. destruct (kc_stmts local l s1) as [[x|] [|] ?|]; cbn in H; try discriminate. auto.
    - destruct (kc_stmts local l s1) as [[x|] [|] ?|]; discriminate.
    - destruct (kc_stmts local l s) as [[x|] [|] ?|]; cbn in H; discriminate.
    - destruct (kc_stmts local l s) as [[x|] ? ?|]; cbn in H; discriminate. }
  destruct C as (s1 & C1 & C2). destruct I as [<-|I]; eauto.
Qed.

Lemma kc_node_paced : forall sn nd0 nd nd', translated false sn nd0 -> NoDup (map v_name (all_vars nd0)) ->
  n_inputs nd = n_inputs nd0 -> n_outputs nd = n_outputs nd0 -> n_locals nd = n_locals nd0 ->
  Permutation (n_stmts nd) (n_stmts nd0) ->
  clean (kc_node nd) = Some nd' -> node_paced sn.
Proof.
  intros sn nd0 nd nd' T Nv Ei Eo El Pm H. unfold kc_node in H. rewrite Ei, Eo, El in H.
  rewrite clean_obind in H. destruct (clean (each _ _)) as [u|] eqn:Es; [|discriminate]. cbn [pbind] in H.
  rewrite clean_obind in H. destruct (clean (kc_stmts _ _ _)) as [ks|] eqn:Ks; [|discriminate]. cbn [pbind] in H.
  destruct ks as [ks|]; [|discriminate].
  assert (V : map (fun v => (v_name v, v_clk v)) (all_vars nd0) = declared_clocks (s_inputs sn ++ s_outputs sn ++ s_locals sn)).
  { unfold all_vars. rewrite (td_inputs _ _ _ T), (td_outputs _ _ _ T), (td_locals _ _ _ T), !map_app, !tr_decls_clocks, !declared_clocks_app. auto. }
  split.
  - intros x c I. assert (Ne : clean (each sig_implicit (n_inputs nd0 ++ n_outputs nd0)) <> None) by congruence.
    assert (I' : exists v, In v (n_inputs nd0 ++ n_outputs nd0) /\ v_clk v = c).
    { rewrite declared_clocks_app, <- !tr_decls_clocks, <- map_app in I. apply in_map_iff in I. destruct I as (v & Ev & I).
      exists v. rewrite (td_inputs _ _ _ T), (td_outputs _ _ _ T). split; auto. inversion Ev; auto. }
    destruct I' as (v & Iv & <-). pose proof (each_clean _ _ Ne _ Iv) as C. unfold sig_implicit in C.
    rewrite <- kk_clock, clean_implicit in C. destruct (slow _); congruence.
  - intros i Ii. destruct (forall2_in_l _ _ _ (td_sourced _ _ _ T) _ Ii) as (i' & Ii' & Tr).
    apply filter_In in Ii'. destruct Ii' as [Ii' _]. apply (Permutation_in _ (Permutation_sym Pm)) in Ii'.
    set (local := rev (map (fun v => (v_name v, v_clk v)) (n_inputs nd0 ++ n_outputs nd0 ++ n_locals nd0))) in *.
    destruct (kc_stmts_clean _ _ _ _ Ks _ Ii') as (s0 & s1 & C).
    assert (Lk : forall x, lookup x local = lookup x (declared_clocks (s_inputs sn ++ s_outputs sn ++ s_locals sn))).
    { intros x. unfold local. fold (all_vars nd0). rewrite V. apply lookup_rev. rewrite <- V, map_map. auto. }
    assert (Henv : forall x, declared_pace sn x = option_map clock_pace (lookup x local)).
    { intros x. rewrite Lk. unfold declared_pace. destruct (lookup _ _); auto. }
    assert (Nm : map v_name (all_vars nd0) = map fst (declared_clocks (s_inputs sn ++ s_outputs sn ++ s_locals sn))).
    { rewrite <- V, map_map. auto. }
    assert (Hin : forall x, In x (map v_name (all_vars nd0)) -> exists c, lookup x local = Some c /\ declared_pace sn x = Some (clock_pace c)).
    { intros x I. rewrite Henv, Lk. rewrite Nm in I. destruct (lookup x _) as [c|] eqn:E; [exists c; auto|].
      apply lookup_none in E. contradiction. }
    assert (Hout : forall x, ~ In x (map v_name (all_vars nd0)) -> declared_pace sn x = None).
    { intros x I. rewrite Henv, Lk. rewrite Nm in I. apply lookup_none in I. rewrite I. auto. }
    destruct Tr as (s & s' & e' & bl & Tr & _). destruct i as [t e|e]; destruct Tr as [Tr ->]; cbn [kc_stmt] in C; cbn [paced_stmt].
    + rewrite clean_obind in C. pose proof (thas_target local _ Henv t) as Ht. unfold thas in Ht. rewrite Ht in C.
      destruct (pace_target (declared_pace sn) t) as [kt|]; [|discriminate]. cbn [option_map pbind] in C.
      rewrite clean_obind, (tr_paced local _ _ Hin Hout e _ _ _ _ Tr) in C.
      destruct (pace_of (declared_pace sn) e) as [k|]; [|discriminate]. cbn [option_map pbind] in C.
      exists k, kt. split; auto. split; auto. rewrite binds_mult. destruct (tr_target t) as [x|[|]]; auto;
        rewrite clean_obind, clean_identical in C; destruct (same_pace kt k); auto; discriminate.
    + rewrite clean_obind, (tr_paced local _ _ Hin Hout e _ _ _ _ Tr) in C.
      destruct (pace_of (declared_pace sn) e) as [k|]; [|discriminate]. cbn [option_map pbind] in C.
      rewrite clean_obind, clean_implicit in C. exists k. split; auto. destruct (slow k); auto; discriminate.
Qed.

Lemma typed_vars : forall gl fn o nd nd' gens, result (tc_node gl fn o nd) = Some (nd', gens) ->
  n_inputs nd' = n_inputs nd /\ n_outputs nd' = n_outputs nd /\ n_locals nd' = n_locals nd /\ n_stmts nd' = n_stmts nd /\
  NoDup (map v_name (all_vars nd)).
Proof.
  intros gl fn o nd nd' gens H. unfold tc_node in H.
  apply obind_some in H. destruct H as (u1 & X1 & H).
  apply obind_some in H. destruct H as (u2 & X2 & H).
  apply obind_some in H. destruct H as ((ok, vars) & X3 & H).
  apply obind_some in H. destruct H as (u3 & X4 & H).
  destruct ok; [|discriminate]. apply tc_vars_ok in X3. destruct X3 as (V & _). inv_out. cbn. auto.
Qed.

Theorem default_paced : forall p l ws a sn, pipeline p = Out (Some l) [] ws ->
  In (a, XNode sn) p -> ~ In "universal_pre"%string (map a_action a) -> node_paced sn.
Proof.
  intros p l ws a sn H Ia D.
  assert (C : clean (pipeline p) = Some l) by (rewrite H; reflexivity). clear H.
  unfold pipeline, tr_prog, analyse, clockcheck in C.
  rewrite clean_obind in C. destruct (clean (omap tr_attrdecl p)) as [l0|] eqn:E0; [|discriminate]. cbn [pbind] in C.
  rewrite clean_obind in C. destruct (clean (causality l0)) as [l1|] eqn:E1; [|discriminate]. cbn [pbind] in C.
  rewrite clean_obind in C. destruct (clean (typecheck l1)) as [l2|] eqn:E2; [|discriminate]. cbn [pbind] in C.
  rewrite clean_obind in C. destruct (clean (omap kc_decl l2)) as [l3|] eqn:E3; [|discriminate]. clear C.
  apply clean_omap in E3. apply clean_result, omap_some in E0. apply clean_result, causality_some in E1. apply clean_result, typecheck_some in E2.
  destruct E1 as (l1' & F1 & P & _).
  destruct (forall2_in_l _ _ _ E0 _ Ia) as (d0 & I0 & Ea). unfold tr_attrdecl in Ea. cbn [fst snd] in Ea.
  apply obind_some in Ea. destruct Ea as (d & W & Ea). cbn [tr_decl] in Ea.
  apply obind_some in Ea. destruct Ea as (o & Fo & Ea). apply obind_some in Ea. destruct Ea as (nd0 & Tn & Ea).
  inversion Ea; subst d0.
  assert (U : o_universal o = false).
  { rewrite (node_opts_universal _ _ _ W Fo). destruct (existsb is_universal a) eqn:E; auto. exfalso.
    apply existsb_exists in E. destruct E as (x & Ix & Ex). apply String.eqb_eq in Ex. apply D. rewrite <- Ex. apply in_map. auto. }
  destruct (forall2_in_l _ _ _ F1 _ I0) as (d1 & I1 & X1). cbn [decl_causality] in X1.
  destruct (node_causality nd0) as [nd1|] eqn:C; [|discriminate]. inversion X1; subst d1.
  apply (Permutation_in _ (Permutation_sym P)) in I1.
  destruct (forall2_in_l _ _ _ E2 _ I1) as (d2 & I2 & X2). inversion X2 as [gl fn o' nd' nd2 gens T|d' E]; subst; [|discriminate].
  destruct (forall2_in_l _ _ _ E3 _ I2) as (d3 & I3 & X3). cbn [kc_decl] in X3. rewrite clean_obind in X3.
  destruct (clean (kc_node nd2)) as [nd3|] eqn:K; [|discriminate].
  destruct (typed_vars _ _ _ _ _ _ T) as (V1 & V2 & V3 & V4 & V5).
  destruct (CausalityProofs.node_stmts_perm _ _ C) as [Pm E1]. rewrite E1 in V1, V2, V3, V5. cbn in V1, V2, V3.
  apply tr_node_translated in Tn. rewrite U in Tn.
  eapply (kc_node_paced sn nd0 nd2 nd3 Tn); eauto. rewrite V4. auto.
Qed.

Theorem program_paced : forall p l ws, pipeline p = Out (Some l) [] ws ->
  (forall a sn, In (a, XNode sn) p -> ~ In "universal_pre"%string (map a_action a)) ->
  forall sn, In sn (source_nodes p) -> node_paced sn.
Proof.
  intros p l ws H D sn I. destruct (source_node_in _ _ I) as (a & Ia). eapply default_paced; eauto.
Qed.
