(** The clock check of a node. *)
From Coq Require Import String List ZArith Bool Arith Lia Permutation.
From Verif Require Import Model.Base Model.Scalar Model.Value Model.Ast Model.Errors Model.Interp Model.Options Model.Surface Model.Translate
  Model.Causality Model.Typecheck Model.Clockcheck Spec.ProgramSem Spec.TranslateSpec Spec.ClockSpec Spec.SourceCausal Spec.Static
  Proofs.AstInd Proofs.OutBasics Proofs.TranslateSem Proofs.TranslateStruct Proofs.NodeWf Proofs.CausalityProofs Proofs.PipelineProofs Proofs.ProgramProofs
  Proofs.Paces Proofs.StaticTypes Proofs.StaticNode Proofs.StaticClocks.
From Verif Require Proofs.NoCrash.
Import ListNotations.

Section Stmts.
  Variable local : list (ident * clock).
  Variable u : bool.
  Variable env : ident -> option pace.
  Hypothesis Hl : forall x, option_map clock_pace (lookup x local) = env x.
  Variable locals : list ident.
  Hypothesis Hn : forall x, In x locals <-> In x (map fst local).

  Lemma env_in : forall x, In x locals -> exists c, lookup x local = Some c /\ env x = Some (clock_pace c).
  Proof. intros x I. apply Hn in I. rewrite <- Hl. destruct (lookup x local) eqn:E; [cbn; eauto|]. apply lookup_none_in in E. contradiction. Qed.
  Lemma env_out : forall x, ~ In x locals -> env x = None.
  Proof. intros x I. rewrite Hn in I. rewrite <- Hl. apply lookup_none_in in I. rewrite I. auto. Qed.

  Definition kc_targets (g : clk) : list vartuple -> out unit :=
    fix go (l : list vartuple) : out unit :=
    match l with
    | [] => done tt
    | t :: l => k <~ kc_target local t;; _ <~ clk_identical g k;; go l
    end.
  Lemma kc_target_mult : forall t l, kc_target local (VTMult (t :: l)) = (g <~ kc_target local t;; _ <~ kc_targets g (t :: l);; done g).
  Proof. reflexivity. Qed.

  Lemma target_pace : forall t, result (kc_target local (tr_target t)) = option_map kk (pace_target env t).
  Proof.
    induction t using starget_ind'.
    - cbn. rewrite <- Hl. destruct (lookup x local); cbn; auto. rewrite kk_clock. auto.
    - cbn [pace_target].
      assert (F : forall g, result (kc_targets (kk g) (map tr_target l)) =
        if forallb (fun k => match k with Some k => same_pace g k | None => false end) (map (pace_target env) l) then Some tt else None).
      { intros g. induction H as [|t l Ht H IH]; cbn [map forallb]; auto. change (kc_targets (kk g) (tr_target t :: map tr_target l)) with (k <~ kc_target local (tr_target t);; _ <~ clk_identical (kk g) k;; kc_targets (kk g) (map tr_target l)).
        rewrite result_bind, Ht. destruct (pace_target env t) as [k|]; cbn [option_map pbind andb]; auto.
        rewrite result_bind, identical_result. destruct (same_pace g k); cbn [pbind andb]; auto. }
      assert (M : result (kc_target local (VTMult (map tr_target l))) = option_map kk (uniform (map (pace_target env) l))).
      { destruct l as [|t l]; auto. cbn [map]. rewrite kc_target_mult, result_bind. inversion H; subst. rewrite H2. cbn [uniform]. destruct (pace_target env t) as [g|] eqn:Eg; cbn [option_map pbind]; auto.
        rewrite result_bind. cbn [map] in F. rewrite F. rewrite Eg. destruct (forallb _ _); auto. }
      cbn [tr_target]. destruct l as [|t [|t' l]]; auto. destruct b; [auto|]. cbn [map uniform]. inversion H; subst. rewrite H2. destruct (pace_target env t) as [g|]; cbn; auto. rewrite same_pace_refl. auto.
  Qed.
  Lemma empty_target : forall t, binds_nothing t = true <-> tr_target t = VTMult [].
  Proof.
    induction t using starget_ind'; [cbn; split; discriminate|]. destruct l as [|t [|t' l]]; cbn; [tauto| |split; discriminate].
    destruct b; [split; discriminate|]. inversion H; subst. auto.
  Qed.

  Lemma stmt_beats : forall i s s' e', result (tr u locals (right_side i) 0 s) = Some (e', s') ->
    forall ks, (exists ks', result (kc_stmt local (match i with XDef p _ => SLet (tr_target p) e' | XAssert _ => SAssert e' end) ks) = Some ks') <-> stmt_paced u env i.
  Proof.
    intros i s s' e' E ks. pose proof (tr_beats local u locals env env_in env_out _ _ _ _ _ E ks) as B. destruct i as [p e|e]; cbn [right_side stmt_paced kc_stmt] in *.
    - rewrite result_bind, target_pace. destruct (pace_target env p) as [kt|]; cbn [option_map pbind].
      2: { split; [intros (? & X); discriminate|intros (? & ? & _ & X & _); discriminate]. }
      rewrite result_bind. destruct (checked_pace u env e) as [k|].
      2: { rewrite B. split; [intros (? & X); discriminate|intros (? & ? & X & _ & _); discriminate]. }
      destruct B as (ks1 & B). rewrite B. cbn [pbind]. pose proof (empty_target p) as Em.
      assert (G : (exists ks', result (_ <~ clk_identical (kk kt) (kk k);; done ks1) = Some ks') <-> same_pace kt k = true).
      { rewrite result_bind, identical_result. destruct (same_pace kt k); cbn; split; eauto; intros X; try discriminate. destruct X; discriminate. }
      assert (H : (exists ks', result (match tr_target p with VTMult [] => done ks1 | _ => _ <~ clk_identical (kk kt) (kk k);; done ks1 end) = Some ks') <->
        binds_nothing p = true \/ same_pace kt k = true).
      { rewrite <- G, Em. destruct (tr_target p) as [x|[|v l]]; (split; [intros X; auto; right; exact X|intros [X|X]; [discriminate X|exact X]]) || (split; [auto|intros _; cbn; eauto]). }
      rewrite H. split; [intros X; exists k, kt; auto|intros (k' & kt' & E1 & E2 & X); congruence].
    - rewrite result_bind. destruct (checked_pace u env e) as [k|].
      2: { rewrite B. split; [intros (? & X); discriminate|intros (? & X & _); discriminate]. }
      destruct B as (ks1 & B). rewrite B. cbn [pbind]. rewrite result_bind, implicit_result. destruct (slow k) eqn:Es; cbn; split.
      + intros (? & X). discriminate.
      + intros (k' & X & Y). inversion X; subst. congruence.
      + eauto.
      + eauto.
  Qed.
End Stmts.

Lemma clock_stmts_fit : forall local l ks, (forall i, In i l -> forall k k2, (exists k', result (kc_stmt local i k) = Some k') -> exists k', result (kc_stmt local i k2) = Some k') ->
  ((exists k', result (kc_stmts local l ks) = Some (Some k')) <-> forall i, In i l -> exists k', result (kc_stmt local i []) = Some k').
Proof.
  intros local. induction l as [|i l IH]; intros y H; cbn [kc_stmts].
  - cbn. split; [intros _ ? []|eauto].
  - assert (IH' : forall y, (exists y', result (kc_stmts local l y) = Some (Some y')) <-> forall i, In i l -> exists y', result (kc_stmt local i []) = Some y')
      by (intros; apply IH; intros; eapply H; cbn; eauto).
    split.
    + intros (y' & E). apply obind_some in E. destruct E as ([y1|] & E1 & E2); [|inv_out; discriminate].
      intros j [<-|J]; [|apply (IH' y1); eauto]. apply (H i (or_introl eq_refl) y). exists y1. destruct (kc_stmt local i y) as [[]|]; cbn in E1; inversion E1; auto.
    + intros A. destruct (H i (or_introl eq_refl) [] y (A i (or_introl eq_refl))) as (y1 & E1). rewrite (obind_ok _ _ _ (attempt_ok _ _ E1)).
      apply IH'. intros; apply A; cbn; auto.
Qed.

Lemma implicit_fits : forall l, (exists v, result (each sig_implicit (tr_decls l)) = Some v) <-> always l.
Proof.
  intros l. rewrite each_ok. unfold always. rewrite <- tr_variables. unfold sig_implicit. split.
  - intros H x b c I. apply in_map_iff in I. destruct I as (v & E & I). inversion E; subst. specialize (H v I). rewrite <- kk_clock, implicit_result in H.
    destruct (slow _); [discriminate|auto].
  - intros H v I. rewrite <- kk_clock, implicit_result. rewrite (H (v_name v) (v_base v) (v_clk v)); auto. apply in_map_iff. eauto.
Qed.

Lemma declared_lookup : forall l x, lookup x (declared_clocks l) = option_map snd (lookup x (variables l)).
Proof.
  intros l x. rewrite <- lookup_pairs. f_equal. unfold declared_clocks, variables. induction l as [|[xs [b c]] l IH]; cbn; auto. rewrite map_app, map_map, IH. reflexivity.
Qed.

Lemma node_clocks : forall o sn nd nd' nd2,
  result (tr_node o sn) = Some nd -> node_causality nd = inl nd' -> NoDup (declared (s_inputs sn ++ s_outputs sn ++ s_locals sn)) ->
  n_inputs nd2 = n_inputs nd' -> n_outputs nd2 = n_outputs nd' -> n_locals nd2 = n_locals nd' -> n_stmts nd2 = n_stmts nd' ->
  (exists r, result (kc_node nd2) = Some r) <->
  always (s_inputs sn ++ s_outputs sn) /\ forall i, In i (s_defs sn) -> stmt_paced (o_universal o) (declared_pace sn) i.
Proof.
  intros o sn nd nd' nd2 Tn Cn N Q1 Q2 Q3 Q4.
  pose proof (tr_node_translated _ _ _ Tn) as T. destruct (node_stmts_perm _ _ Cn) as [Pm En].
  assert (Ei : n_inputs nd2 = tr_decls (s_inputs sn)) by (rewrite Q1, En; apply (td_inputs _ _ _ T)).
  assert (Eo : n_outputs nd2 = tr_decls (s_outputs sn)) by (rewrite Q2, En; apply (td_outputs _ _ _ T)).
  assert (El : n_locals nd2 = tr_decls (s_locals sn)) by (rewrite Q3, En; apply (td_locals _ _ _ T)).
  assert (Ta : forall a b, tr_decls (a ++ b) = tr_decls a ++ tr_decls b) by (intros; apply flat_map_app).
  set (all := s_inputs sn ++ s_outputs sn ++ s_locals sn) in *.
  unfold kc_node. rewrite Ei, Eo, El, Q4, <- !Ta. fold all.
  set (local := rev (map (fun v => (v_name v, v_clk v)) (tr_decls all))).
  assert (Hl : forall x, option_map clock_pace (lookup x local) = declared_pace sn x).
  { intros x. unfold declared_pace. fold all. assert (X : lookup x local = lookup x (declared_clocks all)); [|rewrite X; destruct (lookup x (declared_clocks all)); auto].
    rewrite declared_lookup, <- lookup_pairs. rewrite <- tr_variables, map_map. cbn [fst snd].
    assert (Nm : NoDup (map fst (map (fun v => (v_name v, v_clk v)) (tr_decls all)))) by (rewrite map_map; cbn; rewrite tr_decls_names; auto).
    fold local. change (map (fun x => (v_name x, v_clk x)) (tr_decls all)) with (map (fun v => (v_name v, v_clk v)) (tr_decls all)).
    destruct (lookup x (map (fun v => (v_name v, v_clk v)) (tr_decls all))) as [c|] eqn:E.
    - apply lookup_some_in in E. apply lookup_in_unique; [unfold local; rewrite map_rev; apply NoDup_rev; auto|apply -> in_rev; auto].
    - apply lookup_none_in. apply lookup_none_in in E. unfold local. rewrite map_rev, <- in_rev. auto. }
  assert (Loc : forall x, In x (map v_name (all_vars nd)) <-> In x (map fst local)).
  { intros x. unfold local. rewrite map_rev, <- in_rev, map_map. cbn [fst]. unfold all_vars. rewrite (td_inputs _ _ _ T), (td_outputs _ _ _ T), (td_locals _ _ _ T), <- !Ta. reflexivity. }
  assert (One : forall i i', translates (o_universal o) (map v_name (all_vars nd)) (n_blocks nd) i i' ->
      forall y, (exists y', result (kc_stmt local i' y) = Some y') <-> stmt_paced (o_universal o) (declared_pace sn) i).
  { intros i i' (s & s' & e' & bl & E & B) y.
    assert (X : result (tr (o_universal o) (map v_name (all_vars nd)) (right_side i) 0 s) = Some (e', s') /\
        i' = match i with XDef p _ => SLet (tr_target p) e' | XAssert _ => SAssert e' end) by (destruct i; auto).
    destruct X as [X1 ->]. exact (stmt_beats local _ _ Hl _ Loc i _ _ _ X1 y). }
  assert (Src : forall i, In i (n_stmts nd') -> (exists j, In j (s_defs sn) /\ translates (o_universal o) (map v_name (all_vars nd)) (n_blocks nd) j i) \/
      forall y, exists y', result (kc_stmt local i y) = Some y').
  { intros i I. destruct (sourced i) eqn:Es.
    - left. eapply forall2_in_r; [exact (td_sourced _ _ _ T)|]. apply filter_In. split; auto. eapply Permutation_in; eauto.
    - right. intros y. destruct i; try discriminate; cbn; eauto. }
  assert (Main : (exists k, result (kc_stmts local (n_stmts nd') []) = Some (Some k)) <-> forall i, In i (s_defs sn) -> stmt_paced (o_universal o) (declared_pace sn) i).
  { rewrite clock_stmts_fit.
    - split.
      + intros A i I. destruct (forall2_in_l _ _ _ (td_sourced _ _ _ T) _ I) as (i' & I' & R). apply (One _ _ R []). apply A.
        apply filter_In in I'. eapply Permutation_in; [apply Permutation_sym, Pm|tauto].
      + intros A i I. destruct (Src i I) as [(j & J & R)|R]; [apply (One _ _ R); auto|apply R].
    - intros i I y y2 S. destruct (Src i I) as [(j & J & R)|R]; [apply (One _ _ R); apply (One _ _ R) in S; auto|apply R]. }
  assert (Fill : forall s, result (kc_stmts local (n_stmts nd') []) = Some (Some s) -> exists l, result (omap (fill_clock s) (n_stmts nd')) = Some l).
  { intros s E. apply NoCrash.kc_stmts_regs in E. destruct E as [_ B].
    assert (G : forall l, incl l (n_stmts nd') -> exists l', result (omap (fill_clock s) l) = Some l').
    { induction l as [|i l IH]; intros I; cbn [omap]; [cbn; eauto|].
      assert (X : exists i', result (fill_clock s i) = Some i').
      { destruct i as [t e|e|id v c|id e]; cbn [fill_clock]; try (cbn; eauto).
        assert (J : In (SInit id v c) (n_stmts nd')) by (apply I; cbn; auto).
        destruct (td_init_occurs _ _ _ T id v c) as (n & e & Je & Oc); [eapply Permutation_in; eauto|].
        apply in_flat_map in Je. destruct Je as (i & Ji & Je). apply filter_In in Ji. destruct Ji as [Ji Si].
        assert (Jn : In id (map fst s)) by (apply (B id i e); auto; [eapply Permutation_in; [apply Permutation_sym; eauto|auto]|eapply NoCrash.occurs_regs; eauto]).
        assert (L : exists c, lookup_nat id s = Some c); [|destruct L as (c' & ->); cbn; eauto]. clear -Jn.
        induction s as [|[m a] s IH]; [destruct Jn|]. cbn in *. destruct (Nat.eqb_spec id m); eauto. destruct Jn; [congruence|auto]. }
      destruct X as (i' & X). rewrite (obind_ok _ _ _ X). destruct IH as (l' & L); [intros j Hj; apply I; cbn; auto|]. rewrite (obind_ok _ _ _ L). cbn. eauto. }
    apply G. apply incl_refl. }
  rewrite <- implicit_fits, <- Main. split.
  - intros (r & H). apply obind_some in H. destruct H as (v & H1 & H). apply obind_some in H. destruct H as (so & H2 & H). destruct so as [s|]; [|discriminate]. eauto.
  - intros [(v & H1) (k & H2)]. rewrite (obind_ok _ _ _ H1), (obind_ok _ _ _ H2), need_ok. destruct (Fill k H2) as (l & L). rewrite (obind_ok _ _ _ L). cbn. eauto.
Qed.
