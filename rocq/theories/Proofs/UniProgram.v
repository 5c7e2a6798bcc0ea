(** Programs in which some nodes are compiled with [#[universal_pre]]. *)
From Coq Require Import String List ZArith Bool Arith Lia Permutation.
From Verif Require Import Model.Base Model.Scalar Model.Value Model.Register Model.Ast Model.Errors Model.Interp Model.Options Model.Surface Model.Translate
  Model.Graph Model.Causality Model.Typecheck Model.Clockcheck Model.Positivity Model.Pipeline
  Spec.RuntimeSpec Spec.StepSpec Spec.CoreSem Spec.TranslateSpec Spec.SurfaceSem Spec.ProgramSem Spec.ClockSpec Spec.UniversalSem
  Proofs.AstInd Proofs.OutBasics Proofs.InterpBasics Proofs.StepProofs Proofs.RegisterProofs Proofs.CoreProofs Proofs.CoreNode
  Proofs.TranslateSem Proofs.TranslateStruct Proofs.NodeWf Proofs.PipelineProofs Proofs.ProgramProofs Proofs.Paces Proofs.PaceNode Proofs.UniClock Proofs.UniSem.
Import ListNotations.

(** ** Monotonicity *)
Scheme usem_mut := Minimality for usem Sort Prop
with usems_mut := Minimality for usems Sort Prop
with ubins_mut := Minimality for ubins Sort Prop
with uclocks_mut := Minimality for uclocks Sort Prop.

Section UMono.
  Variable mode : ovf.
  Variable glob : ident -> option scalar.
  Variable locals : list ident.
  Variable env : ident -> option pace.
  Variable rho : nat -> ident -> option nillable.
  Variables F F' : ident -> list val -> val -> Prop.
  Hypothesis HF : forall f args v, F f args v -> F' f args v.
  Notation us := (usem mode glob locals env rho F).
  Notation us' := (usem mode glob locals env rho F').

  Fixpoint usem_mono e t v (H : us e t v) {struct H} : us' e t v
  with usems_mono l t vs (H : usems mode glob locals env rho F l t vs) {struct H} : usems mode glob locals env rho F' l t vs
  with ubins_mono w l t vs (H : ubins mode glob locals env rho F w l t vs) {struct H} : ubins mode glob locals env rho F' w l t vs
  with uclocks_mono w l t vs (H : uclocks mode glob locals env rho F w l t vs) {struct H} : uclocks mode glob locals env rho F' w l t vs.
  Proof.
    - destruct H.
      + constructor.
      + constructor.
      + constructor.
      + apply us_var; auto.
      + apply us_global; auto.
      + apply us_paren; auto.
      + eapply us_call; eauto.
      + eapply us_neg; eauto.
      + eapply us_not; eauto.
      + eapply us_pre_off; eauto.
      + eapply us_pre_last; eauto. destruct H0 as (k & L & P & Pr & Ab). exists k. split; auto. split; auto. split; auto.
        intros j J1 J2. destruct (Ab j J1 J2) as (w & A & B). exists w. auto.
      + eapply us_pre_none; eauto. intros j J. destruct (H0 j J) as (w' & A & B). exists w'. auto.
      + eapply us_if; eauto.
      + eapply us_merge; eauto.
      + eapply us_bin; eauto.
      + eapply us_clock; eauto.
      + eapply us_cmp1; eauto.
      + eapply us_cmp2; eauto.
      + eapply us_fby_one; eauto.
      + eapply us_fby_off; eauto.
      + eapply us_fby_first; eauto. intros j J. destruct (H0 j J) as (w' & A & B). exists w'. auto.
      + eapply us_fby_last; eauto. destruct H0 as (k & L & P & Pr & Ab). exists k. split; auto. split; auto. split; auto.
        intros j J1 J2. destruct (Ab j J1 J2) as (w & A & B). exists w. auto.
      + eapply us_then_one; eauto.
      + eapply us_then_absent; eauto.
      + eapply us_then_first; eauto. intros j J. destruct (H1 j J) as (w' & A & B). exists w'. auto.
      + eapply us_then_later; eauto.
    - destruct H; constructor; auto.
    - destruct H; econstructor; eauto.
    - destruct H; econstructor; eauto.
  Qed.

  Lemma ustmt_mono : forall T i, ustmt_holds mode glob locals env rho F T i -> ustmt_holds mode glob locals env rho F' T i.
  Proof. intros T [t e|e]; simpl; [intros (v & H & M); exists v; split; [apply usem_mono; auto|auto]|apply usem_mono]. Qed.
End UMono.

Lemma unode_mono : forall mode glob (F F' : ident -> list val -> val -> Prop) sn ins outs,
  (forall f args v, F f args v -> F' f args v) ->
  unode_meaning mode glob F sn ins outs -> unode_meaning mode glob F' sn ins outs.
Proof.
  intros mode glob F F' sn ins outs HF (L & rho & H). split; auto. exists rho. intros T v o Hv Ho.
  destruct (H T v o Hv Ho) as (A & B & C). repeat split; auto. intros i I. eapply ustmt_mono; eauto.
Qed.

Lemma mdenotes_mono : forall mode glob nodes n m, n <= m -> forall f ins outs,
  mdenotes mode glob nodes n f ins outs -> mdenotes mode glob nodes m f ins outs.
Proof.
  induction n as [|n IH]; intros m L f ins outs H; [destruct H|]. destruct m as [|m]; [lia|].
  destruct H as (u & sn & pouts & I & E & M & W). exists u, sn, pouts. split; auto. split; auto. split; auto.
  assert (HF : forall g args v, (exists os, mdenotes mode glob nodes n g args (os ++ [v])) -> exists os, mdenotes mode glob nodes m g args (os ++ [v])).
  { intros g args v (os & D). exists os. apply (IH m); auto. lia. }
  destruct u; cbn zeta in *; [eapply unode_mono; [exact HF|exact M]|eapply node_meaning_mono; [exact HF| |exact M]; auto].
Qed.

(** ** The registers of an accepted node *)
Section Registers.
  Variable nd0 : node.
  Variable u : bool.
  Variable sn : snode.
  Hypothesis T : translated u sn nd0.

  Definition read_ok (e : expr) : Prop := forall id i n, In (id, (i, n)) (reads_of e) ->
    In (SUpdate id n) (n_stmts nd0) /\ In (SInit id i None) (n_stmts nd0).

  Lemma read_stmt : forall s e, In s (n_stmts nd0) -> In e (stmt_exprs s) -> read_ok e.
  Proof.
    intros s e I J id i n R. apply (td_fetch _ _ _ T). apply in_flat_map. exists e. split; auto. apply in_flat_map. eauto.
  Qed.

  Lemma read_child : forall e c, read_ok e -> In c (children e) -> read_ok c.
  Proof.
    intros e c H I. destruct e; cbn [children] in I; try (destruct I; fail).
    all: try (intros id' i' n' R; apply H; cbn [reads_of]; rewrite ?in_app_iff; simpl in I;
      repeat match goal with X : _ \/ _ |- _ => destruct X end; subst; tauto).
    - intros id' i' n' R. apply H. cbn [reads_of]. apply in_flat_map. eauto.
    - destruct (H id init e) as [H1 H2]; [simpl; auto|]. apply in_app_iff in I. destruct I as [I|[<-|[]]].
      + destruct init as [i|]; [|destruct I]. destruct I as [<-|[]]. eapply read_stmt; [exact H2|]. simpl. auto.
      + eapply read_stmt; [exact H1|]. simpl. auto.
  Qed.

  Lemma read_occurs : forall x e, occurs x e -> read_ok e -> read_ok x.
  Proof. induction 1; intros R; auto. apply IHoccurs. eapply read_child; eauto. Qed.

  Lemma stmt_fetch : forall s e id i n, In s (n_stmts nd0) -> In e (stmt_exprs s) -> occurs (EFetch id i n) e ->
    In (SUpdate id n) (n_stmts nd0) /\ In (SInit id i None) (n_stmts nd0).
  Proof. intros s e id i n I J O. apply (read_occurs _ _ O (read_stmt _ _ I J)). simpl. auto. Qed.
End Registers.

Lemma shape_type : forall t, shape_ok (ty_shape t) = true.
Proof.
  fix IH 1. intros [b|[|t l]]; [reflexivity|reflexivity|]. cbn [ty_shape map shape_ok]. apply IH.
Qed.

Lemma passed_local : forall o sn nd nd0 stmts, passed o sn nd nd0 stmts ->
  forall x, declared_pace sn x = option_map clock_pace (lookup x (rev (map (fun v => (v_name v, v_clk v)) (all_vars nd0)))).
Proof.
  intros o sn nd nd0 stmts P x. destruct P as [T C Pm Cl Kc En Ei Eo El Eb Er Ef Nv Ti].
  rewrite lookup_rev. 2: { rewrite map_map. simpl. exact Nv. }
  unfold declared_pace, all_vars. rewrite !map_app, (td_inputs _ _ _ T), (td_outputs _ _ _ T), (td_locals _ _ _ T), !tr_decls_clocks, !declared_clocks_app.
  destruct (lookup x _); auto.
Qed.

Lemma clocked_in : forall l l', Forall2 clocked_as l l' -> forall s', In s' l' -> exists s, In s l /\ clocked_as s s'.
Proof. induction 1; intros s' []; subst; [eexists; split; [left|]; eauto|]. destruct (IHForall2 _ H1) as (s & I & C). exists s. simpl. auto. Qed.
Lemma clocked_in_l : forall l l', Forall2 clocked_as l l' -> forall s, In s l -> exists s', In s' l' /\ clocked_as s s'.
Proof. induction 1; intros s []; subst; [eexists; split; [left|]; eauto|]. destruct (IHForall2 _ H1) as (s' & I & C). exists s'. simpl. auto. Qed.

(** The registers used by a statement of the compiled node. *)
Lemma passed_fetch : forall o sn nd nd0 stmts, passed o sn nd nd0 stmts ->
  forall s e id i n, In s (n_stmts nd) -> sourced s = true -> In e (stmt_exprs s) -> occurs (EFetch id i n) e ->
  exists k ks ks', result (kc (rev (map (fun v => (v_name v, v_clk v)) (all_vars nd0))) n ks) = Some (k, ks') /\
    In (SInit id i (Some (forge_as_expr k))) (n_stmts nd) /\ In (SUpdate id n) (n_stmts nd) /\ id < length (n_regs nd).
Proof.
  intros o sn nd nd0 stmts P s e id i n I So J O. destruct P as [T C Pm Cl Kc En Ei Eo El Eb Er Ef Nv Ti].
  assert (I0 : In s (n_stmts nd0)).
  { destruct (clocked_in _ _ Cl _ I) as (s0 & I0 & Cs). inversion Cs; subst; [|discriminate]. eapply Permutation_in; eauto. }
  destruct (stmt_fetch _ _ _ T _ _ _ _ _ I0 J O) as [U0 S0].
  apply (Permutation_in _ (Permutation_sym Pm)) in S0 as S1. apply (Permutation_in _ (Permutation_sym Pm)) in U0 as U1.
  destruct (clocked_in_l _ _ Cl _ U1) as (u' & U2 & Cu). inversion Cu; subst.
  destruct (clocked_in_l _ _ Cl _ S1) as (s' & S2 & Cs). inversion Cs; subst; [simpl in H0; discriminate|].
  destruct (Ti _ _ _ S2) as (j & e0 & J1 & J2 & J3 & (i' & n' & ks & k' & ks' & O' & Kr & Ef')).
  apply (Permutation_in _ Pm) in J1. destruct (stmt_fetch _ _ _ T _ _ _ _ _ J1 J3 O') as [U' _].
  assert (En' : SUpdate id n = SUpdate id n').
  { eapply nodup_flat with (f := stmt_updates) (x := id); [eapply perm_nodup_seq, (td_updates _ _ _ T)|eauto|eauto|simpl; auto|simpl; auto]. }
  inversion En'; subst n'. exists k', ks, ks'. split; auto. rewrite <- Ef'. split; auto. split; auto.
  rewrite Er. assert (Q : In id (seq 0 (length (n_regs nd0)))).
  { apply (Permutation_in _ (td_inits _ _ _ T)). apply in_flat_map. exists (SInit id i None). simpl. auto. }
  apply in_seq in Q. lia.
Qed.

Section Runs.
  Variable mode : ovf.
  Variable glob : ident -> option scalar.

  Lemma calls_ustreams : forall (start : ident -> res inst) (advance : ident -> inst -> val -> res (val * inst)) (idle : ident -> res val)
    (F : ident -> list val -> val -> Prop),
    (forall g args v i0 os i', start g = Ok i0 -> iter (advance g) i0 args = Ok (os ++ [v], i') -> F g args v) ->
    forall nd o sn, compiled_node o sn nd -> o_universal o = true ->
    forall regs0 subs ins outs i',
    mapM (fun t => t <- of_option PType t;; Ok (reg_default (ty_shape t))) (n_regs nd) = Ok regs0 -> mapM start (n_blocks nd) = Ok subs ->
    iter (node_step mode glob (acall advance nd) (aidle idle nd) nd) (Inst 0 (init_hists nd) regs0 (repeat flip_default (n_flips nd)) subs) ins = Ok (outs, i') ->
    Forall present ins ->
    length outs = length ins /\
    exists rho : nat -> ident -> option nillable,
      (forall T v o, nth_error ins T = Some v -> nth_error outs T = Some o ->
        (declared (s_inputs sn) = [] \/ row (rho T) (declared (s_inputs sn)) v) /\
        (forall i, In i (s_defs sn) -> ustmt_holds mode glob (node_vars sn) (declared_pace sn) rho F T i) /\
        row (rho T) (declared (s_outputs sn)) o) /\
      exists I : nat -> inst, I 0 = Inst 0 (init_hists nd) regs0 (repeat flip_default (n_flips nd)) subs /\
        forall T v, nth_error ins T = Some v -> exists st0 ssf o, nth_error outs T = Some o /\
          step_ok mode glob (acall advance nd) (aidle idle nd) nd (I T) v st0 ssf o (I (S T)) /\
          i_clock (I T) = T /\ (forall x, rho T x = lookup x (ss_store ssf)).
  Proof.
    intros start advance idle F HF nd o sn C U regs0 subs ins outs i' Hr E0 R Pr.
    destruct (compiled_passed _ _ _ C) as (nd0 & stmts & Pa). pose proof (passed_wf _ _ _ _ _ Pa) as W.
    set (d := Inst 0 [] [] [] []). set (sub0 := fun id => nth id subs d).
    set (call := acall advance nd) in *. set (nilout := aidle idle nd) in *.
    pose proof (mapM_forall2 _ _ _ E0) as Fs. pose proof (mapM_forall2 _ _ _ Hr) as Fr.
    assert (Ls : length subs = length (n_blocks nd)) by (eapply mapM_length; eauto).
    assert (Es : map sub0 (seq 0 (length (n_blocks nd))) = subs).
    { rewrite <- Ls. clear. unfold sub0. induction subs as [|s l IH]; simpl; auto. f_equal.
      rewrite <- seq_shift, map_map. auto. }
    rewrite <- Es in R.
    destruct (node_sound mode glob call nilout sub0 nd regs0 _ ins outs i' W eq_refl R Pr) as (rho & kappa & Lo & H & Hreg & St).
    split; auto. exists rho. split; [|rewrite Es in St; exact St]. intros T v ot Hv Ho.
    destruct (H T v Hv) as (Hin & Hst & o' & Ho' & Hout). assert (o' = ot) by congruence. subst o'.
    destruct (passed_names _ _ _ _ _ Pa) as (N1 & N2 & N3 & N4 & N5).
    split; [rewrite <- N1; apply inputs_row; auto|]. split; [|rewrite <- N2; apply outputs_row; auto].
    intros s I. destruct (passed_source _ _ _ _ _ Pa _ I) as (s' & I' & (st & st' & e' & bl & Tr & Ebl)). rewrite U in Tr.
    assert (Lt : T < length ins) by (apply nth_error_Some; rewrite Hv; discriminate).
    set (local := rev (map (fun v => (v_name v, v_clk v)) (all_vars nd0))).
    pose proof (passed_local _ _ _ _ _ Pa) as Lc. fold local in Lc.
    assert (Nl : map fst local = rev (node_vars sn)).
    { unfold local. rewrite map_rev, map_map, <- N5. reflexivity. }
    assert (H1 : forall x, In x (node_vars sn) -> exists c, lookup x local = Some c /\ declared_pace sn x = Some (clock_pace c)).
    { intros x Ix. rewrite Lc. destruct (lookup x local) as [c|] eqn:Lx; [exists c; auto|]. exfalso.
      apply lookup_none in Lx. apply Lx. rewrite Nl. apply in_rev in Ix. auto. }
    assert (H2 : forall x, ~ In x (node_vars sn) -> declared_pace sn x = None).
    { intros x Ix. rewrite Lc. replace (lookup x local) with (@None clock); auto. symmetry. apply lookup_none. rewrite Nl, <- in_rev. auto. }
    assert (Ag : uagree (calls_op call sub0) F (t_blocks st')).
    { intros id g Eg args w (os & i1 & A).
      assert (Eg' : nth_error (n_blocks nd) id = Some g).
      { rewrite Ebl, nth_error_app1; auto. apply nth_error_Some. rewrite Eg. discriminate. }
      destruct (forall2_nth_l _ _ _ Fs _ _ Eg') as (s0 & Ex & Ig).
      assert (Esub : sub0 id = s0) by (exact (nth_error_nth _ _ _ Ex)).
      apply (HF g args w s0 os i1); auto. rewrite <- A, Esub. apply iter_ext. intros. unfold call, acall. rewrite Eg'. auto. }
    assert (Fo : sourced s' = true -> In e' (stmt_exprs s') -> fetch_ok mode glob local rho kappa (calls_op call sub0) (nilouts_op nilout) (length ins) e').
    { intros So Ie id ii n O. destruct (passed_fetch _ _ _ _ _ Pa _ _ _ _ _ I' So Ie O) as (k & ks & ks' & K1 & K2 & K3 & K4).
      destruct (nth_error (n_regs nd) id) as [ot'|] eqn:En; [|apply nth_error_None in En; lia].
      destruct (forall2_nth_l _ _ _ Fr _ _ En) as (r0 & Er0 & Dr). destruct ot' as [t|]; cbn in Dr; inversion Dr; subst r0.
      exists (ty_shape t), k, ks, ks'. split; [apply shape_type|]. split; eauto. }
    destruct s as [t e|e]; destruct Tr as [Tr ->]; cbn [ustmt_holds].
    - specialize (Hst _ I'). destruct Hst as (w & X & M). exists w. split; [|apply target_matches; auto].
      eapply (tr_usound mode glob (node_vars sn) local (declared_pace sn) H1 H2); eauto. apply Fo; simpl; auto.
    - specialize (Hst _ I'). cbn in Hst. eapply (tr_usound mode glob (node_vars sn) local (declared_pace sn) H1 H2); eauto. apply Fo; simpl; auto.
  Qed.

  Lemma calls_urun : forall (start : ident -> res inst) (advance : ident -> inst -> val -> res (val * inst)) (idle : ident -> res val)
    (F : ident -> list val -> val -> Prop),
    (forall g args v i0 os i', start g = Ok i0 -> iter (advance g) i0 args = Ok (os ++ [v], i') -> F g args v) ->
    forall nd o sn, compiled_node o sn nd -> o_universal o = true ->
    forall regs0 subs ins outs i',
    mapM (fun t => t <- of_option PType t;; Ok (reg_default (ty_shape t))) (n_regs nd) = Ok regs0 -> mapM start (n_blocks nd) = Ok subs ->
    iter (node_step mode glob (acall advance nd) (aidle idle nd) nd) (Inst 0 (init_hists nd) regs0 (repeat flip_default (n_flips nd)) subs) ins = Ok (outs, i') ->
    Forall present ins ->
    unode_meaning mode glob F sn ins outs.
  Proof.
    intros start advance idle F HF nd o sn C U regs0 subs ins outs i' Hr E0 R Pr.
    destruct (calls_ustreams start advance idle F HF nd o sn C U regs0 subs ins outs i' Hr E0 R Pr) as (L & rho & H & _).
    split; auto. exists rho. exact H.
  Qed.

  Lemma unode_streams : forall nd P o sn, compiled_node o sn nd -> o_universal o = true ->
    forall i ins outs i',
    init_inst (nd :: P) (n_name nd) = Ok i ->
    run mode glob (nd :: P) (n_name nd) i ins = Ok (outs, i') ->
    Forall present ins ->
    length outs = length ins /\
    exists rho : nat -> ident -> option nillable,
      (forall T v o, nth_error ins T = Some v -> nth_error outs T = Some o ->
        (declared (s_inputs sn) = [] \/ row (rho T) (declared (s_inputs sn)) v) /\
        (forall i, In i (s_defs sn) -> ustmt_holds mode glob (node_vars sn) (declared_pace sn) rho (answers mode glob P) T i) /\
        row (rho T) (declared (s_outputs sn)) o) /\
      exists I : nat -> inst, I 0 = i /\
        forall T v, nth_error ins T = Some v -> exists st0 ssf o, nth_error outs T = Some o /\
          step_ok mode glob (callee mode glob P nd) (callee_nil P nd) nd (I T) v st0 ssf o (I (S T)) /\
          i_clock (I T) = T /\ (forall x, rho T x = lookup x (ss_store ssf)).
  Proof.
    intros nd P o sn C U i ins outs i' Hi R Pr.
    simpl in Hi. rewrite String.eqb_refl in Hi.
    apply bind_ok in Hi. destruct Hi as (regs0 & Hr & Hi). apply bind_ok in Hi. destruct Hi as (subs & E0 & Hi). inv_ok.
    rewrite run_iter in R. rewrite (iter_ext _ (node_step mode glob (acall (step mode glob P) nd) (aidle (nil_outputs P) nd) nd)) in R.
    2: { intros i0 v. simpl. rewrite String.eqb_refl. reflexivity. }
    apply (calls_ustreams (init_inst P) (step mode glob P) (nil_outputs P)) with (nd := nd) (o := o) (regs0 := regs0) (subs := subs) (i' := i'); auto.
    intros g args v i0 os i1 A B. exists i0, os, i1. rewrite run_iter. auto.
  Qed.

  Lemma unode_run : forall nd P o sn, compiled_node o sn nd -> o_universal o = true ->
    forall i ins outs i',
    init_inst (nd :: P) (n_name nd) = Ok i ->
    run mode glob (nd :: P) (n_name nd) i ins = Ok (outs, i') ->
    Forall present ins ->
    unode_meaning mode glob (answers mode glob P) sn ins outs.
  Proof.
    intros nd P o sn C U i ins outs i' Hi R Pr.
    destruct (unode_streams nd P o sn C U i ins outs i' Hi R Pr) as (L & rho & H & _). split; auto. exists rho. exact H.
  Qed.

  Variable nodes : list (bool * snode).
  Definition mfrom_source (nd : node) : Prop := exists o sn, compiled_node o sn nd /\ In (o_universal o, sn) nodes.

  Lemma mprog_sound : forall P, Forall mfrom_source P ->
    forall f i ins outs i', init_inst P f = Ok i -> run mode glob P f i ins = Ok (outs, i') ->
    mdenotes mode glob nodes (length P) f ins outs.
  Proof.
    induction P as [|nd P IH]; intros Src f i ins outs i' Hi R; [discriminate|].
    inversion Src as [|? ? S1 S2]; subst.
    destruct (String.eqb f (n_name nd)) eqn:E.
    - apply String.eqb_eq in E. subst f.
      assert (Fn : find_node (nd :: P) (n_name nd) = Some (nd, P)) by (simpl; rewrite String.eqb_refl; auto).
      rewrite (stutter _ _ _ _ _ _ ins i Fn) in R. inv_ok. destruct S1 as (o & sn & C & I).
      destruct (compiled_passed _ _ _ C) as (nd0 & stmts & Pa). destruct (passed_names _ _ _ _ _ Pa) as (N1 & N2 & N3 & N4 & N5).
      simpl. exists (o_universal o), sn, l. split; auto. split; [congruence|]. split; [|rewrite vars_nil_names, N2; auto].
      assert (Ans : forall g args v, answers mode glob P g args v -> exists os, mdenotes mode glob nodes (length P) g args (os ++ [v])).
      { intros g args v (i0 & os & i1 & A & B). exists os. eapply IH; eauto. }
      assert (Prs : Forall present (filter (fun v => negb (first_is_nil v)) ins)).
      { apply Forall_forall. intros v J. apply filter_In in J. destruct J as [_ J]. unfold present. destruct (first_is_nil v); auto. }
      destruct (o_universal o) eqn:Uo.
      + eapply unode_mono; [exact Ans|]. eapply unode_run; eauto.
      + eapply node_meaning_mono; [exact Ans| |eapply node_run; eauto].
        intros g v A. unfold absent_answer, nil_outputs in A.
        destruct (find_node P g) as [[n' P'']|] eqn:Fg; [|discriminate]. cbn in A. inversion A; subst.
        apply find_node_in in Fg. destruct Fg as [Ig Ng]. rewrite Forall_forall in S2. destruct (S2 _ Ig) as (o' & sn' & C' & I').
        destruct (compiled_passed _ _ _ C') as (nd0' & stmts' & Pa'). destruct (passed_names _ _ _ _ _ Pa') as (N1' & N2' & N3' & N4' & N5').
        exists sn'. split; [apply in_map_iff; exists (o_universal o', sn'); auto|]. split; [congruence|]. rewrite vars_nil_names, N2'. auto.
    - assert (Hi' : init_inst P f = Ok i) by (simpl in Hi; rewrite E in Hi; auto).
      assert (R' : run mode glob P f i ins = Ok (outs, i')).
      { rewrite <- R, !run_iter. apply iter_ext. intros. simpl. rewrite E. auto. }
      apply (mdenotes_mono _ _ _ (length P)); [simpl; lia|]. eapply IH; eauto.
  Qed.
End Runs.

Lemma pipeline_moded : forall p l, result (pipeline p) = Some l -> Forall (mfrom_source (moded_nodes p)) (nodes_of l).
Proof.
  intros p l H. apply Forall_forall. intros nd I. destruct (pipeline_nodes _ _ H _ I) as (o & a & sn & d & Ia & W & Fo & C).
  exists o, sn. split; auto. unfold moded_nodes. apply in_flat_map. exists (a, XNode sn). split; auto. simpl. left.
  rewrite (node_opts_universal _ _ _ W Fo). reflexivity.
Qed.

Theorem moded_program_sound : forall mode glob p l f i ins outs i',
  result (pipeline p) = Some l ->
  init_inst (nodes_of l) f = Ok i ->
  run mode glob (nodes_of l) f i ins = Ok (outs, i') ->
  mmeans mode glob (moded_nodes p) f ins outs.
Proof.
  intros mode glob p l f i ins outs i' H Hi R. exists (length (nodes_of l)).
  eapply mprog_sound; eauto. eapply pipeline_moded; eauto.
Qed.
