(** Runs of accepted programs against the reference meaning of the source. *)
From Coq Require Import String List ZArith Bool Arith Lia Permutation.
From Verif Require Import Model.Base Model.Scalar Model.Value Model.Register Model.Ast Model.Errors Model.Interp Model.Options Model.Surface Model.Translate
  Model.Graph Model.Causality Model.Typecheck Model.Clockcheck Model.Positivity Model.Pipeline
  Spec.StepSpec Spec.CoreSem Spec.SurfaceSem Spec.ProgramSem Proofs.AstInd Proofs.OutBasics Proofs.InterpBasics Proofs.StepProofs
  Proofs.CoreProofs Proofs.CoreNode Proofs.TranslateSem Proofs.TranslateStruct Proofs.NodeWf Proofs.PipelineProofs.
Import ListNotations.

(** ** Monotonicity *)
Scheme sem_mut := Minimality for sem Sort Prop
with sems_mut := Minimality for sems Sort Prop
with bins_mut := Minimality for bins Sort Prop
with clocks_mut := Minimality for clocks Sort Prop.

Section Mono.
  Variable mode : ovf.
  Variable glob : ident -> option scalar.
  Variable locals : list ident.
  Variable rho : nat -> ident -> option nillable.
  Variables F F' : ident -> list val -> val -> Prop.
  Variables N N' : ident -> val -> Prop.
  Hypothesis HF : forall f args v, F f args v -> F' f args v.
  Hypothesis HN : forall f v, N f v -> N' f v.

  Lemma sem_mono : forall e t v, sem mode glob locals rho F N e t v -> sem mode glob locals rho F' N' e t v.
  Proof.
    apply (sem_mut mode glob locals rho F N
      (sem mode glob locals rho F' N') (sems mode glob locals rho F' N')
      (bins mode glob locals rho F' N') (clocks mode glob locals rho F' N')); intros; econstructor; solve [eauto].
  Qed.

  Lemma sstmt_mono : forall T i, sstmt_holds mode glob locals rho F N T i -> sstmt_holds mode glob locals rho F' N' T i.
  Proof. intros T [t e|e]; simpl; [intros (v & H & M); exists v; split; [apply sem_mono; auto|auto]|apply sem_mono]. Qed.
End Mono.

Lemma node_meaning_mono : forall mode glob (F F' : ident -> list val -> val -> Prop) (N N' : ident -> val -> Prop) sn ins outs,
  (forall f args v, F f args v -> F' f args v) -> (forall f v, N f v -> N' f v) ->
  node_meaning mode glob F N sn ins outs -> node_meaning mode glob F' N' sn ins outs.
Proof.
  intros mode glob F F' N N' sn ins outs HF HN (L & rho & H). split; auto. exists rho. intros T v o Hv Ho.
  destruct (H T v o Hv Ho) as (A & B & C). repeat split; auto. intros i I. eapply sstmt_mono; eauto.
Qed.

Lemma denotes_mono : forall mode glob nodes n m, n <= m -> forall f ins outs,
  denotes mode glob nodes n f ins outs -> denotes mode glob nodes m f ins outs.
Proof.
  induction n as [|n IH]; intros m L f ins outs H; [destruct H|]. destruct m as [|m]; [lia|].
  destruct H as (sn & pouts & I & E & M & W). exists sn, pouts. repeat split; auto.
  - apply M.
  - eapply node_meaning_mono; [| |exact M]; auto. intros g args v (os & D). exists os. apply (IH m); auto. lia.
Qed.

(** ** Names and patterns *)
Lemma tr_decls_names : forall l, map v_name (tr_decls l) = declared l.
Proof.
  induction l as [|[xs [b c]] l IH]; simpl; auto. rewrite map_app, IH. f_equal.
  rewrite map_map. simpl. apply map_id.
Qed.

Lemma vars_nil_names : forall l, vars_nil l = absent_row (map v_name l).
Proof. intros [|a [|b l]]; simpl; auto. rewrite map_map. auto. Qed.

Lemma outputs_row : forall env l v, outputs_are env l v -> row env (map v_name l) v.
Proof.
  intros env l v (ns & H & ->). exists ns. split; auto. clear - H. induction H; simpl; constructor; auto.
Qed.

Lemma matches_row : forall env l v, l <> [] -> matches env (VTMult (map (fun x => VTSingle (v_name x)) l)) v -> row env (map v_name l) v.
Proof.
  intros env l v N H. destruct l as [|a [|b l]]; [congruence| |]; simpl in H.
  - inversion H; subst; [|simpl in *; lia]. inversion H1; subst. exists [n]. split; auto.
    simpl. constructor; auto.
  - inversion H as [| | |l0 vs L2 F2 El Ev]; subst. change (Forall2 (matches env) (map (fun x => VTSingle (v_name x)) (a :: b :: l)) vs) in F2.
    assert (G : forall l vs, Forall2 (matches env) (map (fun x => VTSingle (v_name x)) l) vs ->
      exists ns, Forall2 (fun x n => env x = Some n) (map v_name l) ns /\ vs = map VS ns).
    { clear. induction l as [|a l IH]; intros vs H; simpl in H; inversion H as [|? ? ? ? H2 H4]; subst.
      - exists []. simpl. auto.
      - apply IH in H4. destruct H4 as (ns & A & ->). inversion H2; subst. exists (n :: ns). split; simpl; auto. }
    destruct (G _ _ F2) as (ns & A & ->). exists ns. split; auto.
    simpl in A. inversion A as [|? ? ? ? ? A2]; subst. inversion A2; subst. auto.
Qed.

Lemma inputs_row : forall env l v, inputs_are env l v -> map v_name l = [] \/ row env (map v_name l) v.
Proof.
  intros env l v H. destruct l as [|a l]; auto. right. destruct H as [H|H]; [discriminate|].
  apply matches_row; auto. discriminate.
Qed.

Section starget_ind.
  Variable P : starget -> Prop.
  Hypothesis HV : forall x, P (TVar x).
  Hypothesis HT : forall l b, Forall P l -> P (TTuple l b).
  Fixpoint starget_ind' (t : starget) : P t :=
    match t with
    | TVar x => HV x
    | TTuple l b => HT l b ((fix go l : Forall P l :=
        match l with [] => Forall_nil _ | t :: l => Forall_cons t (starget_ind' t) (go l) end) l)
    end.
End starget_ind.

Lemma target_matches : forall env t v, matches env (tr_target t) v <-> smatches env t v.
Proof.
  intros env t. induction t using starget_ind'; intros v.
  - simpl. split; inversion 1; subst; constructor; auto.
  - assert (G : forall vs, Forall2 (matches env) (map tr_target l) vs <-> Forall2 (smatches env) l vs).
    { clear - H. induction H as [|t l Ht _ IH]; intros vs; simpl; [split; inversion 1; constructor|].
      split; inversion 1; subst; constructor; try apply Ht; try apply IH; auto. }
    destruct l as [|t [|t' l]].
    + simpl. destruct b; split; intros; constructor.
    + inversion H; subst. simpl. destruct b; split.
      * intros K; inversion K; subst; [|simpl in *; lia]. constructor. apply H2. auto.
      * intros K; inversion K; subst; [|simpl in *; lia]. constructor. apply H2. auto.
      * intros K. constructor. apply H2. auto.
      * intros K; inversion K; subst; [|simpl in *; lia]. apply H2. auto.
    + assert (E : tr_target (TTuple (t :: t' :: l) b) = VTMult (map tr_target (t :: t' :: l))) by (simpl; destruct b; auto).
      rewrite E. split; intros K; inversion K; subst; constructor; try (simpl in *; lia).
      * apply (G vs). auto.
      * apply (G vs). auto.
Qed.

Lemma translates_holds : forall mode glob locals blocks rho kappa calls nilouts F N i i',
  translates false locals blocks i i' ->
  agree calls nilouts F N blocks ->
  forall T, stmt_holds mode glob rho kappa calls nilouts T i' <-> sstmt_holds mode glob locals rho F N T i.
Proof.
  intros mode glob locals blocks rho kappa calls nilouts F N i i' (s & s' & e' & bl & H & ->) A T.
  assert (A' : agree calls nilouts F N (t_blocks s')).
  { intros id f E. apply A. rewrite nth_error_app1; auto. apply nth_error_Some. rewrite E. discriminate. }
  destruct i as [t e|e]; destruct H as [H ->]; simpl.
  - split; intros (v & X & M); exists v.
    + rewrite <- target_matches. split; auto.
      pose proof (preservation mode glob locals rho kappa calls nilouts F N e 0 s e' s' H A' 0 T v (le_n 0)) as Q.
      rewrite Z.sub_0_r in Q. apply Q. auto.
    + rewrite target_matches. split; auto.
      pose proof (preservation mode glob locals rho kappa calls nilouts F N e 0 s e' s' H A' 0 T v (le_n 0)) as Q.
      rewrite Z.sub_0_r in Q. apply Q. auto.
  - pose proof (preservation mode glob locals rho kappa calls nilouts F N e 0 s e' s' H A' 0 T (VS (Defined (SBool true))) (le_n 0)) as Q.
    rewrite Z.sub_0_r in Q. auto.
Qed.

(** The equations of a node that went through the passes are those of its source. *)
Lemma passed_names : forall o sn nd nd0 stmts, passed o sn nd nd0 stmts ->
  map v_name (n_inputs nd) = declared (s_inputs sn) /\ map v_name (n_outputs nd) = declared (s_outputs sn) /\
  map v_name (n_locals nd) = declared (s_locals sn) /\ n_name nd = s_name sn /\
  map v_name (all_vars nd0) = node_vars sn.
Proof.
  intros o sn nd nd0 stmts P. destruct P as [T C Pm K Kc En Ei Eo El Eb Er Ef Nv].
  rewrite Ei, Eo, El, En, (td_name _ _ _ T). unfold all_vars, node_vars. rewrite !map_app.
  rewrite (td_inputs _ _ _ T), (td_outputs _ _ _ T), (td_locals _ _ _ T), !tr_decls_names. auto.
Qed.

Lemma passed_source : forall o sn nd nd0 stmts, passed o sn nd nd0 stmts ->
  forall i, In i (s_defs sn) -> exists i', In i' (n_stmts nd) /\ translates (o_universal o) (node_vars sn) (n_blocks nd) i i'.
Proof.
  intros o sn nd nd0 stmts P i I. pose proof (passed_names _ _ _ _ _ P) as (_ & _ & _ & _ & Nm).
  destruct P as [T C Pm K Kc En Ei Eo El Eb Er Ef Nv].
  destruct (forall2_in_l _ _ _ (td_sourced _ _ _ T) _ I) as (i' & I' & R). rewrite Nm, <- Eb in R.
  exists i'. split; auto. apply filter_In in I'. destruct I' as [I' S].
  apply (Permutation_in _ (Permutation_sym Pm)) in I'.
  destruct (forall2_in_l _ _ _ K _ I') as (i2 & I2 & Cl). inversion Cl; subst; auto. discriminate.
Qed.

(** ** Runs *)
Lemma iter_ext : forall f g, (forall i v, f i v = g i v) -> forall args i, iter f i args = iter g i args.
Proof.
  intros f g H. induction args as [|a args IH]; intros i; simpl; auto. rewrite H.
  destruct (g i a) as [[o i']|]; simpl; auto. rewrite IH. auto.
Qed.

Lemma mapM_forall2 : forall {A B} (f : A -> res B) l l', mapM f l = Ok l' -> Forall2 (fun a b => f a = Ok b) l l'.
Proof. induction l as [|a l IH]; intros l' H; cbn [mapM] in H; inv_ok; constructor; auto. Qed.

Lemma find_node_in : forall P f nd P', find_node P f = Some (nd, P') -> In nd P /\ n_name nd = f.
Proof.
  induction P as [|n P IH]; intros f nd P' H; simpl in H; [discriminate|].
  destruct (String.eqb_spec f (n_name n)); [inversion H; subst; simpl; auto|].
  apply IH in H. simpl. tauto.
Qed.

(** ** One node, whatever the nodes that it calls are *)
Section Calls.
  Variable mode : ovf.
  Variable glob : ident -> option scalar.
  Variable start : ident -> res inst.
  Variable advance : ident -> inst -> val -> res (val * inst).
  Variable idle : ident -> res val.
  Variable F : ident -> list val -> val -> Prop.
  Variable N : ident -> val -> Prop.
  Hypothesis HF : forall g args v, F g args v <-> exists i0 os i', start g = Ok i0 /\ iter (advance g) i0 args = Ok (os ++ [v], i').
  Hypothesis HN : forall g v, N g v <-> idle g = Ok v.

  Definition acall (nd : node) (id : nat) (i : inst) (v : val) : res (val * inst) :=
    match nth_error (n_blocks nd) id with Some g => advance g i v | None => Panic PType end.
  Definition aidle (nd : node) (id : nat) : res val :=
    g <- of_option PType (nth_error (n_blocks nd) id);; idle g.

  Lemma calls_streams : forall nd o sn, compiled_node o sn nd -> o_universal o = false ->
    forall regs0 subs ins outs i', mapM start (n_blocks nd) = Ok subs ->
    iter (node_step mode glob (acall nd) (aidle nd) nd) (Inst 0 (init_hists nd) regs0 (repeat flip_default (n_flips nd)) subs) ins = Ok (outs, i') ->
    Forall present ins ->
    length outs = length ins /\
    exists rho : nat -> ident -> option nillable,
      (forall T v o, nth_error ins T = Some v -> nth_error outs T = Some o ->
        (declared (s_inputs sn) = [] \/ row (rho T) (declared (s_inputs sn)) v) /\
        (forall i, In i (s_defs sn) -> sstmt_holds mode glob (node_vars sn) rho F N T i) /\
        row (rho T) (declared (s_outputs sn)) o) /\
      exists I : nat -> inst, I 0 = Inst 0 (init_hists nd) regs0 (repeat flip_default (n_flips nd)) subs /\
        forall T v, nth_error ins T = Some v -> exists st0 ssf o, nth_error outs T = Some o /\
          step_ok mode glob (acall nd) (aidle nd) nd (I T) v st0 ssf o (I (S T)) /\
          i_clock (I T) = T /\ (forall x, rho T x = lookup x (ss_store ssf)).
  Proof.
    intros nd o sn C U regs0 subs ins outs i' E0 R Pr.
    destruct (compiled_passed _ _ _ C) as (nd0 & stmts & Pa). pose proof (passed_wf _ _ _ _ _ Pa) as W.
    set (d := Inst 0 [] [] [] []). set (sub0 := fun id => nth id subs d).
    pose proof (mapM_forall2 _ _ _ E0) as Fs.
    assert (Ls : length subs = length (n_blocks nd)) by (eapply mapM_length; eauto).
    assert (Es : map sub0 (seq 0 (length (n_blocks nd))) = subs).
    { rewrite <- Ls. clear. unfold sub0. induction subs as [|s l IH]; simpl; auto. f_equal.
      rewrite <- seq_shift, map_map. auto. }
    rewrite <- Es in R.
    destruct (node_sound mode glob (acall nd) (aidle nd) sub0 nd regs0 _ ins outs i' W eq_refl R Pr) as (rho & kappa & Lo & H & _ & St).
    split; auto. exists rho. split; [|rewrite Es in St; exact St]. intros T v ot Hv Ho.
    destruct (H T v Hv) as (Hin & Hst & o' & Ho' & Hout). assert (o' = ot) by congruence. subst o'.
    destruct (passed_names _ _ _ _ _ Pa) as (N1 & N2 & N3 & N4 & N5).
    split; [rewrite <- N1; apply inputs_row; auto|]. split; [|rewrite <- N2; apply outputs_row; auto].
    intros s I. destruct (passed_source _ _ _ _ _ Pa _ I) as (s' & I' & Tr). rewrite U in Tr.
    eapply translates_holds; [exact Tr| |apply Hst; exact I'].
    intros id g Eg.
    assert (Ex : exists s0, nth_error subs id = Some s0 /\ start g = Ok s0).
    { exact (forall2_nth_l _ _ _ Fs _ _ Eg). }
    destruct Ex as (s0 & Ex & Ig).
    assert (Esub : sub0 id = s0) by (exact (nth_error_nth _ _ _ Ex)).
    split.
    - intros args w. unfold calls_op. rewrite Esub, HF.
      assert (X : forall i args, iter (acall nd id) i args = iter (advance g) i args).
      { intros. apply iter_ext. intros. unfold acall. rewrite Eg. auto. }
      split.
      + intros (os & i1 & A). rewrite X in A. eauto 6.
      + intros (i1 & os & i2 & A & B). assert (i1 = s0) by congruence. exists os, i2. rewrite X. congruence.
    - intros w. unfold nilouts_op, aidle. rewrite HN, Eg. cbn [of_option bind]. tauto.
  Qed.
End Calls.

Section Runs.
  Variable mode : ovf.
  Variable glob : ident -> option scalar.
  Variable nodes : list snode.

  Definition from_source (nd : node) : Prop := exists o sn, compiled_node o sn nd /\ o_universal o = false /\ In sn nodes.

  (** Operational meaning of a callee. *)
  Definition answers (P : prog) (g : ident) (args : list val) (v : val) : Prop :=
    exists i0 os i', init_inst P g = Ok i0 /\ run mode glob P g i0 args = Ok (os ++ [v], i').
  Definition absent_answer (P : prog) (g : ident) (v : val) : Prop := nil_outputs P g = Ok v.

  (** The callees of a node. *)
  Definition callee (P : prog) (nd : node) (id : nat) (i : inst) (v : val) : res (val * inst) :=
    match nth_error (n_blocks nd) id with Some g => step mode glob P g i v | None => Panic PType end.
  Definition callee_nil (P : prog) (nd : node) (id : nat) : res val :=
    g <- of_option PType (nth_error (n_blocks nd) id);; nil_outputs P g.

  (** The streams of a run: the inputs, the equations, the outputs; they are the
      values that the step function computes. *)
  Lemma node_streams : forall nd P o sn, compiled_node o sn nd -> o_universal o = false ->
    forall i ins outs i',
    init_inst (nd :: P) (n_name nd) = Ok i ->
    run mode glob (nd :: P) (n_name nd) i ins = Ok (outs, i') ->
    Forall present ins ->
    length outs = length ins /\
    exists rho : nat -> ident -> option nillable,
      (forall T v o, nth_error ins T = Some v -> nth_error outs T = Some o ->
        (declared (s_inputs sn) = [] \/ row (rho T) (declared (s_inputs sn)) v) /\
        (forall i, In i (s_defs sn) -> sstmt_holds mode glob (node_vars sn) rho (answers P) (absent_answer P) T i) /\
        row (rho T) (declared (s_outputs sn)) o) /\
      exists I : nat -> inst, I 0 = i /\
        forall T v, nth_error ins T = Some v -> exists st0 ssf o, nth_error outs T = Some o /\
          step_ok mode glob (callee P nd) (callee_nil P nd) nd (I T) v st0 ssf o (I (S T)) /\
          i_clock (I T) = T /\ (forall x, rho T x = lookup x (ss_store ssf)).
  Proof.
    intros nd P o sn C U i ins outs i' Hi R Pr.
    simpl in Hi. rewrite String.eqb_refl in Hi. inv_ok. rename r into regs0, r0 into subs.
    rewrite run_iter in R. rewrite (iter_ext _ (node_step mode glob (callee P nd) (callee_nil P nd) nd)) in R.
    2: { intros i0 v. simpl. rewrite String.eqb_refl. reflexivity. }
    apply (calls_streams mode glob (init_inst P) (step mode glob P) (nil_outputs P)) with (o := o) (i' := i'); auto.
    - intros g args v. unfold answers. split; intros (i0 & os & i1 & A & B); exists i0, os, i1; rewrite run_iter in *; auto.
    - intros g v. unfold absent_answer. tauto.
  Qed.

  Lemma node_run : forall nd P o sn, compiled_node o sn nd -> o_universal o = false ->
    forall i ins outs i',
    init_inst (nd :: P) (n_name nd) = Ok i ->
    run mode glob (nd :: P) (n_name nd) i ins = Ok (outs, i') ->
    Forall present ins ->
    node_meaning mode glob (answers P) (absent_answer P) sn ins outs.
  Proof.
    intros nd P o sn C U i ins outs i' Hi R Pr.
    destruct (node_streams nd P o sn C U i ins outs i' Hi R Pr) as (L & rho & H & _). split; auto. exists rho. exact H.
  Qed.

  Lemma prog_sound : forall P, Forall from_source P ->
    forall f i ins outs i', init_inst P f = Ok i -> run mode glob P f i ins = Ok (outs, i') ->
    denotes mode glob nodes (length P) f ins outs.
  Proof.
    induction P as [|nd P IH]; intros Src f i ins outs i' Hi R; [discriminate|].
    inversion Src as [|? ? S1 S2]; subst.
    destruct (String.eqb f (n_name nd)) eqn:E.
    - apply String.eqb_eq in E. subst f.
      assert (Fn : find_node (nd :: P) (n_name nd) = Some (nd, P)) by (simpl; rewrite String.eqb_refl; auto).
      rewrite (stutter _ _ _ _ _ _ ins i Fn) in R. inv_ok. destruct S1 as (o & sn & C & U & I).
      destruct (compiled_passed _ _ _ C) as (nd0 & stmts & Pa). destruct (passed_names _ _ _ _ _ Pa) as (N1 & N2 & N3 & N4 & N5).
      simpl. exists sn, l. split; auto. split; [congruence|]. split; [|rewrite vars_nil_names, N2; auto].
      eapply node_meaning_mono; [| |eapply node_run; eauto].
      + intros g args v (i0 & os & i1 & A & B). exists os. eapply IH; eauto.
      + intros g v A. unfold absent_answer, nil_outputs in A.
        destruct (find_node P g) as [[n' P'']|] eqn:Fg; [|discriminate]. cbn in A. inversion A; subst.
        apply find_node_in in Fg. destruct Fg as [Ig Ng]. rewrite Forall_forall in S2. destruct (S2 _ Ig) as (o' & sn' & C' & U' & I').
        destruct (compiled_passed _ _ _ C') as (nd0' & stmts' & Pa'). destruct (passed_names _ _ _ _ _ Pa') as (N1' & N2' & N3' & N4' & N5').
        exists sn'. split; auto. split; [congruence|]. rewrite vars_nil_names, N2'. auto.
      + apply Forall_forall. intros v J. apply filter_In in J. destruct J as [_ J]. unfold present. destruct (first_is_nil v); auto.
    - assert (Hi' : init_inst P f = Ok i) by (simpl in Hi; rewrite E in Hi; auto).
      assert (R' : run mode glob P f i ins = Ok (outs, i')).
      { rewrite <- R, !run_iter. apply iter_ext. intros. simpl. rewrite E. auto. }
      apply (denotes_mono _ _ _ (length P)); [simpl; lia|]. eapply IH; eauto.
  Qed.
End Runs.

(** ** Programs *)
Lemma pipeline_default : forall p l, result (pipeline p) = Some l ->
  (forall a sn, In (a, XNode sn) p -> ~ In "universal_pre"%string (map a_action a)) ->
  Forall (from_source (source_nodes p)) (nodes_of l).
Proof.
  intros p l H D. apply Forall_forall. intros nd I. destruct (pipeline_nodes _ _ H _ I) as (o & a & sn & d & Ia & W & Fo & C).
  exists o, sn. split; auto. split.
  - rewrite (node_opts_universal _ _ _ W Fo). destruct (existsb is_universal a) eqn:E; auto. exfalso.
    apply existsb_exists in E. destruct E as (x & Ix & Ex). apply String.eqb_eq in Ex. apply (D _ _ Ia).
    rewrite <- Ex. apply in_map. auto.
  - unfold source_nodes. apply in_flat_map. exists (a, XNode sn). simpl. auto.
Qed.

Theorem program_sound : forall mode glob p l f i ins outs i',
  result (pipeline p) = Some l ->
  (forall a sn, In (a, XNode sn) p -> ~ In "universal_pre"%string (map a_action a)) ->
  init_inst (nodes_of l) f = Ok i ->
  run mode glob (nodes_of l) f i ins = Ok (outs, i') ->
  means mode glob (source_nodes p) f ins outs.
Proof.
  intros mode glob p l f i ins outs i' H D Hi R. exists (length (nodes_of l)).
  eapply prog_sound; eauto. eapply pipeline_default; eauto.
Qed.
