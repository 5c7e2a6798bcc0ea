(** Default-mode programs run without failing exactly on the streams that the
    source equations define, everything evaluated having a value. *)
From Coq Require Import String List ZArith Bool Arith Lia Permutation.
From Verif Require Import Model.Base Model.Scalar Model.Value Model.Register Model.Ast Model.Errors Model.Interp Model.Options Model.Surface Model.Translate
  Model.Graph Model.Causality Model.Typecheck Model.Clockcheck Model.Positivity Model.Pipeline
  Spec.StepSpec Spec.CausalitySpec Spec.CoreSem Spec.SurfaceSem Spec.ProgramSem Spec.SettledSem Spec.SafetySpec
  Proofs.AstInd Proofs.OutBasics Proofs.InterpBasics Proofs.StepProofs
  Proofs.CoreProofs Proofs.CoreNode Proofs.TranslateSem Proofs.TranslateStruct Proofs.NodeWf Proofs.PipelineProofs Proofs.ProgramProofs
  Proofs.Depths Proofs.Unique Proofs.BoundedReads Proofs.Completeness Proofs.CompletenessNode Proofs.Settled.
Import ListNotations.

(** ** Monotonicity *)
Section Mono.
  Variable mode : ovf.
  Variable glob : ident -> option scalar.
  Variable locals : list ident.
  Variable rho : nat -> ident -> option nillable.
  Variables F F' : ident -> list val -> val -> Prop.
  Variables N N' : ident -> val -> Prop.
  Hypothesis HF : forall f args v, F f args v -> F' f args v.
  Hypothesis HN : forall f v, N f v -> N' f v.

  Lemma settled_mono : forall e t, settled mode glob locals rho F N e t -> settled mode glob locals rho F' N' e t.
  Proof.
    assert (V : forall e t, (exists v, sem mode glob locals rho F N e t v) -> exists v, sem mode glob locals rho F' N' e t v).
    { intros e t (v & H). exists v. eapply sem_mono; eauto. }
    assert (L : forall l, Forall (fun e => forall t, settled mode glob locals rho F N e t -> settled mode glob locals rho F' N' e t) l ->
      forall t, all_settled mode glob locals rho F N l t -> all_settled mode glob locals rho F' N' l t).
    { induction 1; intros t A; cbn in *; auto. destruct A. split; auto. }
    assert (P : forall O (l : list (O * sexpr)), Forall (fun p => forall t, settled mode glob locals rho F N (snd p) t -> settled mode glob locals rho F' N' (snd p) t) l ->
      forall t, pairs_settled mode glob locals rho F N l t -> pairs_settled mode glob locals rho F' N' l t).
    { induction 1 as [|[op e] l H _ IH]; intros t A; cbn in *; auto. destruct A. split; auto. }
    assert (C : forall e l, (forall t, settled mode glob locals rho F N e t -> settled mode glob locals rho F' N' e t) ->
      Forall (fun e => forall t, settled mode glob locals rho F N e t -> settled mode glob locals rho F' N' e t) l ->
      forall k e', nth_error (e :: l) k = Some e' -> forall t, settled mode glob locals rho F N e' t -> settled mode glob locals rho F' N' e' t).
    { intros e l He Hl k e' Hk. apply nth_error_In in Hk. destruct Hk as [<-|Hk]; auto. rewrite Forall_forall in Hl. auto. }
    intros e. induction e using sexpr_ind'; intros t; try exact (fun _ => Logic.I).
    - rewrite !st_paren. eauto.
    - rewrite !st_call. eauto.
    - cbn. auto.
    - cbn. auto.
    - cbn. auto.
    - cbn. intuition.
    - cbn. intuition.
    - rewrite !st_bin. intros [A B]. split; eauto.
    - rewrite !st_cmp. intros [A B]. split; eauto.
    - rewrite !st_clock. intros [A B]. split; eauto.
    - rewrite !st_fby. intros A k e' Hk K. destruct (A k e' Hk K). split; auto. eapply C; eauto.
    - rewrite !st_then. intros A k e' Hk K. destruct (A k e' Hk K). split; auto. eapply C; eauto.
  Qed.
  Lemma stmt_settled_mono : forall T i, stmt_settled mode glob locals rho F N T i -> stmt_settled mode glob locals rho F' N' T i.
  Proof. intros T [t e|e]; apply settled_mono. Qed.
End Mono.

Lemma node_settles_mono : forall mode glob (F F' : ident -> list val -> val -> Prop) (N N' : ident -> val -> Prop) sn ins outs,
  (forall f args v, F f args v -> F' f args v) -> (forall f v, N f v -> N' f v) ->
  node_settles mode glob F N sn ins outs -> node_settles mode glob F' N' sn ins outs.
Proof.
  intros mode glob F F' N N' sn ins outs HF HN (L & rho & H). split; auto. exists rho. intros T v o Hv Ho.
  destruct (H T v o Hv Ho) as (A & B & C). repeat split; auto.
  - eapply sstmt_mono; eauto. apply B. auto.
  - eapply stmt_settled_mono; eauto. apply B. auto.
Qed.

Lemma settles_mono : forall mode glob nodes n m, n <= m -> forall f ins outs,
  settles mode glob nodes n f ins outs -> settles mode glob nodes m f ins outs.
Proof.
  induction n as [|n IH]; intros m L f ins outs H; [destruct H|]. destruct m as [|m]; [lia|].
  destruct H as (sn & pouts & I & E & M & W). exists sn, pouts. repeat split; auto.
  - apply M.
  - eapply node_settles_mono; [| |exact M]; auto. intros g args v (os & D). exists os. apply (IH m); auto. lia.
Qed.

Lemma settles_denotes : forall mode glob nodes n f ins outs,
  settles mode glob nodes n f ins outs -> denotes mode glob nodes n f ins outs.
Proof.
  induction n as [|n IH]; intros f ins outs H; [destruct H|].
  destruct H as (sn & pouts & I & E & (L & rho & M) & W). exists sn, pouts. repeat split; auto.
  exists rho. intros T v o Hv Ho. destruct (M T v o Hv Ho) as (A & B & C). repeat split; auto.
  intros i J. eapply sstmt_mono; [| |apply B; exact J]; auto. intros g args w (os & D). exists os. apply IH. auto.
Qed.

(** ** Patterns *)
Lemma row_matches : forall env l v, l <> [] -> row env (map v_name l) v -> matches env (VTMult (map (fun x => VTSingle (v_name x)) l)) v.
Proof.
  intros env l v N (ns & H & ->).
  assert (G : forall l ns, Forall2 (fun x n => env x = Some n) (map v_name l) ns -> Forall2 (matches env) (map (fun x => VTSingle (v_name x)) l) (map VS ns)).
  { clear. induction l as [|a l IH]; intros ns H; inversion H; subst; constructor; [constructor; auto|auto]. }
  apply G in H. destruct l as [|a [|b l]]; [congruence| |].
  - cbn [map] in *. destruct ns as [|n [|n' ns]]; cbn [map] in H; inversion H; subst; [|inversion H5]. cbn. constructor. auto.
  - destruct ns as [|n [|n' ns]]; [inversion H|inversion H; subst; inversion H5|]. cbn [tuple_val map]. constructor; [cbn; lia|]. exact H.
Qed.
Lemma row_inputs : forall env l v, map v_name l = [] \/ row env (map v_name l) v -> inputs_are env l v.
Proof.
  intros env l v H. destruct l as [|a l]; [left; auto|]. right. destruct H as [H|H]; [discriminate|]. apply row_matches; auto. discriminate.
Qed.
Lemma row_outputs : forall env l v, row env (map v_name l) v -> outputs_are env l v.
Proof.
  intros env l v (ns & H & ->). exists ns. split; auto. clear - H. revert ns H. induction l; intros ns H; inversion H; subst; constructor; auto.
Qed.

(** ** Nodes without registers *)
Lemma compiled_plain : forall o sn nd, compiled_node o sn nd -> o_universal o = false -> Forall plain (n_stmts nd).
Proof.
  intros o sn nd C U. destruct (compiled_passed_full _ _ _ C) as (nd0 & stmts & Pa & Tr & _).
  pose proof (wf_init_first _ (passed_wf _ _ _ _ _ Pa)) as Wi.
  pose proof (tr_node_no_regs _ _ _ Tr U) as Nr.
  destruct Pa as [T _ Pm K _ _ _ _ _ _ _ _ _ _].
  pose proof (td_inits _ _ _ T) as Ti. pose proof (td_updates _ _ _ T) as Tu. rewrite Nr in Ti, Tu. cbn in Ti, Tu.
  apply Permutation_sym, Permutation_nil in Ti. apply Permutation_sym, Permutation_nil in Tu.
  assert (Ni : forall s, In s (n_stmts nd) -> stmt_inits s = [] /\ stmt_updates s = []).
  { intros s J. destruct (forall2_in_r _ _ _ K _ J) as (s0 & J0 & Ck). apply (Permutation_in _ Pm) in J0.
    assert (E : stmt_inits s0 = [] /\ stmt_updates s0 = []).
    { split.
      - destruct (stmt_inits s0) as [|x l] eqn:E; auto. exfalso. assert (X : In x []) by (rewrite <- Ti; apply in_flat_map; exists s0; rewrite E; cbn; auto). destruct X.
      - destruct (stmt_updates s0) as [|x l] eqn:E; auto. exfalso. assert (X : In x []) by (rewrite <- Tu; apply in_flat_map; exists s0; rewrite E; cbn; auto). destruct X. }
    inversion Ck; subst; auto. }
  assert (G : forall l, (forall s, In s l -> stmt_inits s = [] /\ stmt_updates s = []) -> inits_before [] l -> Forall plain l).
  { clear. induction l as [|s l IH]; intros H W; constructor.
    - destruct (H s) as [A B]; [cbn; auto|]. destruct W as [W _]. destruct s as [t e|e|id v c|id e]; cbn in A, B |- *; try discriminate;
        intros id Fe; exact (W e id (or_introl eq_refl) Fe).
    - apply IH; [intros; apply H; cbn; auto|]. destruct W as [_ W]. destruct (H s) as [A _]; [cbn; auto|]. rewrite A in W. exact W. }
  apply G; auto.
Qed.

Lemma passed_target : forall o sn nd nd0 stmts, passed o sn nd nd0 stmts -> Forall plain (n_stmts nd) ->
  forall i', In i' (n_stmts nd) -> exists i, In i (s_defs sn) /\ translates (o_universal o) (node_vars sn) (n_blocks nd) i i'.
Proof.
  intros o sn nd nd0 stmts P Pl i' I. pose proof (passed_names _ _ _ _ _ P) as (_ & _ & _ & _ & Nm).
  destruct P as [T _ Pm K _ _ _ _ _ Eb _ _ _ _].
  destruct (forall2_in_r _ _ _ K _ I) as (i0 & I0 & Cl). apply (Permutation_in _ Pm) in I0. rewrite Forall_forall in Pl. specialize (Pl _ I).
  assert (i0 = i') by (inversion Cl; subst; [auto|destruct Pl]). subst i0.
  destruct (forall2_in_r _ _ _ (td_sourced _ _ _ T) i') as (i & J & R).
  - apply filter_In. split; auto. destruct i'; cbn in Pl |- *; auto; destruct Pl.
  - rewrite Nm, <- Eb in R. eauto.
Qed.

Lemma translates_settled : forall mode glob locals blocks rho call nilout sub0 F N i i',
  translates false locals blocks i i' ->
  agree (calls_op call sub0) (nilouts_op nilout) F N blocks ->
  forall T, stmt_holds mode glob rho nok (calls_op call sub0) (nilouts_op nilout) T i' ->
  whole_stmt mode glob call nilout sub0 rho T i' <-> stmt_settled mode glob locals rho F N T i.
Proof.
  intros mode glob locals blocks rho call nilout sub0 F N i i' (s & s' & e' & bl & H & ->) A T Ho.
  assert (A' : agree (calls_op call sub0) (nilouts_op nilout) F N (t_blocks s')).
  { intros id f E. apply A. rewrite nth_error_app1; auto. apply nth_error_Some. rewrite E. discriminate. }
  assert (G : forall e, result (tr false locals e 0 s) = Some (e', s') -> (exists v, csem mode glob rho nok (calls_op call sub0) (nilouts_op nilout) 0 e' T v) ->
    whole mode glob call nilout sub0 rho 0 e' T <-> settled mode glob locals rho F N e (Z.of_nat T)).
  { intros e He V. pose proof (settled_whole mode glob locals rho call nilout sub0 F N e 0 s e' s' He A' 0 T (le_n 0) V) as Q. rewrite Z.sub_0_r in Q. exact Q. }
  destruct i as [t e|e]; destruct H as [H ->]; cbn [stmt_settled]; cbn [stmt_holds] in Ho; unfold whole_stmt; cbn [stmt_exprs].
  - destruct Ho as (v & V & _). rewrite <- (G e H) by eauto. split; [intros X; apply X; cbn; auto|intros X e0 [<-|[]]; auto].
  - rewrite <- (G e H) by eauto. split; [intros X; apply X; cbn; auto|intros X e0 [<-|[]]; auto].
Qed.

Section Runs.
  Variable mode : ovf.
  Variable glob : ident -> option scalar.
  Variable nodes : list snode.
  Hypothesis Uniq : forall a b, In a nodes -> In b nodes -> s_name a = s_name b -> a = b.

  (** One node, in terms of the runs of its callees. *)
  Section One.
    Variables (nd : node) (P : prog) (o : node_opts) (sn : snode).
    Hypothesis C : compiled_node o sn nd.
    Hypothesis U : o_universal o = false.
    Variables (F : ident -> list val -> val -> Prop) (N : ident -> val -> Prop).
    Hypothesis HF : forall g i0, In g (n_blocks nd) -> init_inst P g = Ok i0 -> forall args v, F g args v <-> exists os i', run mode glob P g i0 args = Ok (os ++ [v], i').
    Hypothesis HN : forall g i0, In g (n_blocks nd) -> init_inst P g = Ok i0 -> forall v, N g v <-> nil_outputs P g = Ok v.

    Let call := callee mode glob P nd.
    Let idle := callee_nil P nd.

    Lemma one_start : forall i, init_inst (nd :: P) (n_name nd) = Ok i ->
      exists regs0 sub0, i = Inst 0 (init_hists nd) regs0 (repeat flip_default (n_flips nd)) (map sub0 (seq 0 (length (n_blocks nd)))) /\
        agree (calls_op call sub0) (nilouts_op idle) F N (n_blocks nd).
    Proof.
      intros i Hi. simpl in Hi. rewrite String.eqb_refl in Hi. inv_ok. rename r into regs0, r0 into subs.
      set (d := Inst 0 [] [] [] []). set (sub0 := fun id => nth id subs d). exists regs0, sub0.
      pose proof (mapM_forall2 _ _ _ E0) as Fs.
      assert (Ls : length subs = length (n_blocks nd)) by (eapply mapM_length; eauto).
      split.
      - f_equal. rewrite <- Ls. clear. unfold sub0. induction subs as [|s l IH]; simpl; auto. f_equal. rewrite <- seq_shift, map_map. auto.
      - intros id g Eg. destruct (forall2_nth_l _ _ _ Fs _ _ Eg) as (s0 & Ex & Ig). pose proof (nth_error_In _ _ Eg) as Ing.
        assert (Esub : sub0 id = s0) by (exact (nth_error_nth _ _ _ Ex)).
        assert (X : forall i args, iter (call id) i args = run mode glob P g i args).
        { intros. rewrite run_iter. apply iter_ext. intros. unfold call, callee. rewrite Eg. auto. }
        split.
        + intros args w. unfold calls_op. rewrite Esub, (HF g s0 Ing Ig). split; intros (os & i1 & A); exists os, i1; rewrite X in *; auto.
        + intros w. unfold nilouts_op, idle, callee_nil. rewrite (HN g s0 Ing Ig), Eg. cbn [of_option bind]. tauto.
    Qed.

    Lemma instants_iff : forall sub0 rho, agree (calls_op call sub0) (nilouts_op idle) F N (n_blocks nd) ->
      forall T v ot, instant mode glob call idle sub0 nd rho T v ot <->
        (declared (s_inputs sn) = [] \/ row (rho T) (declared (s_inputs sn)) v) /\
        (forall i, In i (s_defs sn) -> sstmt_holds mode glob (node_vars sn) rho F N T i /\
                                       stmt_settled mode glob (node_vars sn) rho F N T i) /\
        row (rho T) (declared (s_outputs sn)) ot.
    Proof.
      intros sub0 rho A T v ot. destruct (compiled_passed _ _ _ C) as (nd0 & stmts & Pa).
      pose proof (compiled_plain _ _ _ C U) as Pl. destruct (passed_names _ _ _ _ _ Pa) as (N1 & N2 & N3 & N4 & N5).
      rewrite <- N1, <- N2. unfold instant. split.
      - intros (In1 & Hs & Out). split; [apply inputs_row; auto|]. split; [|apply outputs_row; auto].
        intros i J. destruct (passed_source _ _ _ _ _ Pa _ J) as (i' & J' & Tr). rewrite U in Tr. destruct (Hs _ J') as [H1 H2]. split.
        + eapply translates_holds; eauto.
        + eapply translates_settled; eauto.
      - intros (In1 & Hs & Out). split; [apply row_inputs; auto|]. split; [|apply row_outputs; auto].
        intros i' J'. destruct (passed_target _ _ _ _ _ Pa Pl _ J') as (i & J & Tr). rewrite U in Tr. destruct (Hs _ J) as [H1 H2].
        assert (H1' : stmt_holds mode glob rho nok (calls_op call sub0) (nilouts_op idle) T i') by (eapply translates_holds; eauto).
        split; auto. eapply translates_settled; eauto.
    Qed.

    Lemma one_run : forall i ins outs, init_inst (nd :: P) (n_name nd) = Ok i -> Forall present ins ->
      ((exists i', run mode glob (nd :: P) (n_name nd) i ins = Ok (outs, i')) -> node_settles mode glob F N sn ins outs) /\
      (node_settles mode glob F N sn ins outs -> (exists i', run mode glob (nd :: P) (n_name nd) i ins = Ok (outs, i')) \/ bad (run mode glob (nd :: P) (n_name nd) i ins)).
    Proof.
      intros i ins outs Hi Pr. destruct (one_start i Hi) as (regs0 & sub0 & Ei & A).
      destruct (compiled_passed _ _ _ C) as (nd0 & stmts & Pa). pose proof (passed_wf _ _ _ _ _ Pa) as W.
      pose proof (compiled_plain _ _ _ C U) as Pl.
      assert (X : run mode glob (nd :: P) (n_name nd) i ins = iter (node_step mode glob call idle nd) i ins).
      { rewrite run_iter. apply iter_ext. intros i0 v. simpl. rewrite String.eqb_refl. reflexivity. }
      rewrite X. split.
      - intros (i' & R). rewrite Ei in R. destruct (run_keeps mode glob call idle sub0 nd W Pl _ _ _ _ R Pr) as (rho & L & H).
        split; auto. exists rho. intros T v ot Hv Ho. apply (instants_iff sub0 rho A). auto.
      - intros (L & rho & H). rewrite Ei. apply (run_complete mode glob call idle sub0 nd W Pl rho ins outs 0); auto; [apply inv_start; auto|].
        intros k v ot Hv Ho. cbn [Nat.add]. apply (instants_iff sub0 rho A). auto.
    Qed.
  End One.

  Lemma init_found : forall P g i, init_inst P g = Ok i -> exists n' P', find_node P g = Some (n', P').
  Proof.
    induction P as [|nd P IH]; intros g i H; cbn in *; [discriminate|]. destruct (String.eqb g (n_name nd)); eauto.
  Qed.

  Lemma absent_exact : forall P, Forall (from_source nodes) P -> forall g i0, init_inst P g = Ok i0 ->
    forall v, no_input nodes g v <-> nil_outputs P g = Ok v.
  Proof.
    intros P Src g i0 Hi v. destruct (init_found _ _ _ Hi) as (n' & P' & Fg). unfold nil_outputs. rewrite Fg. cbn [of_option bind].
    apply find_node_in in Fg. destruct Fg as [Ig Ng]. rewrite Forall_forall in Src. destruct (Src _ Ig) as (o & sn & C & _ & I).
    destruct (compiled_passed _ _ _ C) as (nd0 & stmts & Pa). destruct (passed_names _ _ _ _ _ Pa) as (_ & N2 & _ & N4 & _).
    rewrite vars_nil_names, N2. split.
    - intros (sn' & I' & E' & ->). assert (sn' = sn) by (apply Uniq; auto; congruence). subst. auto.
    - intros E. inversion E; subst v. exists sn. split; auto. split; auto. congruence.
  Qed.

  Lemma prog_exact : forall P, Forall (from_source nodes) P -> Forall (reading_node glob) P ->
    forall f i ins outs, init_inst P f = Ok i ->
    ((exists i', run mode glob P f i ins = Ok (outs, i')) -> settles mode glob nodes (length P) f ins outs) /\
    (forall n, settles mode glob nodes n f ins outs -> exists i', run mode glob P f i ins = Ok (outs, i')).
  Proof.
    induction P as [|nd P IH]; intros Src Rd f i ins outs Hi; [discriminate|].
    pose proof (run_fine mode glob _ Rd f (filter (fun v => negb (first_is_nil v)) ins) i (init_sized glob _ Rd _ _ Hi)) as Fine.
    inversion Src as [|? ? S1 S2]; subst. inversion Rd as [|? ? R1 R2]; subst. specialize (IH S2 R2).
    destruct (String.eqb f (n_name nd)) eqn:E.
    - apply String.eqb_eq in E. subst f.
      assert (Fn : find_node (nd :: P) (n_name nd) = Some (nd, P)) by (simpl; rewrite String.eqb_refl; auto).
      rewrite (stutter _ _ _ _ _ _ ins i Fn). destruct S1 as (o & sn & C & U & I).
      destruct (compiled_passed _ _ _ C) as (nd0 & stmts & Pa). destruct (passed_names _ _ _ _ _ Pa) as (N1 & N2 & N3 & N4 & N5).
      assert (Pr : Forall present (filter (fun v => negb (first_is_nil v)) ins)).
      { apply Forall_forall. intros v J. apply filter_In in J. destruct J as [_ J]. unfold present. destruct (first_is_nil v); auto. }
      rewrite vars_nil_names, N2. set (pins := filter (fun v => negb (first_is_nil v)) ins) in *.
      set (F := fun g args v => exists n os, settles mode glob nodes n g args (os ++ [v])).
      assert (HF : forall g i0, In g (n_blocks nd) -> init_inst P g = Ok i0 -> forall args v, F g args v <-> exists os i', run mode glob P g i0 args = Ok (os ++ [v], i')).
      { intros g i0 _ Ig args v. unfold F. split.
        - intros (n & os & H). exists os. eapply (IH g i0 args _ Ig); eauto.
        - intros (os & H). exists (length P), os. apply (IH g i0 args _ Ig). auto. }
      assert (HN : forall g i0, In g (n_blocks nd) -> init_inst P g = Ok i0 -> forall v, no_input nodes g v <-> nil_outputs P g = Ok v).
      { intros g i0 _ Ig v. eapply absent_exact; eauto. }
      pose proof (one_run nd P o sn C U F (no_input nodes) HF HN i pins) as One.
      split.
      + intros (i' & R). apply bind_ok in R. destruct R as ([os i1] & R & R3). inversion R3; subst. clear R3.
        cbn [length settles]. exists sn, os. split; auto. split; [congruence|]. split; auto.
        (* the callees at level [length P] *)
        set (Fl := fun g args v => exists os, settles mode glob nodes (length P) g args (os ++ [v])).
        assert (HF' : forall g i0, In g (n_blocks nd) -> init_inst P g = Ok i0 -> forall args v, Fl g args v <-> exists os i', run mode glob P g i0 args = Ok (os ++ [v], i')).
        { intros g i0 _ Ig args v. unfold Fl. split; intros (os' & H); exists os'; [eapply (IH g i0 args _ Ig); eauto|apply (IH g i0 args _ Ig); auto]. }
        apply (one_run nd P o sn C U Fl (no_input nodes) HF' HN i pins os Hi Pr). eauto.
      + intros [|n] H; [destruct H|]. cbn [settles] in H. destruct H as (sn' & pouts & I' & E' & M & ->).
        assert (sn' = sn) by (apply Uniq; auto; congruence). subst sn'.
        destruct (proj2 (One pouts Hi Pr)) as [(i' & R)|B].
        { eapply node_settles_mono; [| |exact M]; auto. intros g args v (os & D). exists n, os. auto. }
        * rewrite R. cbn. eauto.
        * exfalso. destruct B as [B|B]; rewrite B in Fine; cbn in Fine; tauto.
    - assert (Hi' : init_inst P f = Ok i) by (simpl in Hi; rewrite E in Hi; auto).
      assert (X : run mode glob (nd :: P) f i ins = run mode glob P f i ins).
      { rewrite !run_iter. apply iter_ext. intros. simpl. rewrite E. auto. }
      rewrite X. destruct (IH f i ins outs Hi') as [A B]. split; auto.
      intros H. apply (settles_mono _ _ _ (length P)); [simpl; lia|]. auto.
  Qed.
End Runs.

Theorem program_exact : forall mode glob p l, result (pipeline p) = Some l ->
  (forall a sn, In (a, XNode sn) p -> ~ In "universal_pre"%string (map a_action a)) ->
  (forall x t, constant p x t -> glob x <> None) ->
  forall f i ins outs, init_inst (nodes_of l) f = Ok i ->
  (exists i', run mode glob (nodes_of l) f i ins = Ok (outs, i')) <-> means_strictly mode glob (source_nodes p) f ins outs.
Proof.
  intros mode glob p l H D Hc f i ins outs Hi.
  assert (Rd : Forall (reading_node glob) (nodes_of l)).
  { apply (program_reading glob p l H Hc). intros a sn I J. exfalso. eapply D; eauto. }
  destruct (prog_exact mode glob (source_nodes p) (source_node_unique _ _ H) _ (pipeline_default _ _ H D) Rd f i ins outs Hi) as [A B].
  split; [intros R; exists (length (nodes_of l)); auto|intros (n & S); eauto].
Qed.

Lemma strictly_means : forall mode glob nodes f ins outs, means_strictly mode glob nodes f ins outs -> means mode glob nodes f ins outs.
Proof. intros mode glob nodes f ins outs (n & H). exists n. apply settles_denotes. auto. Qed.

Theorem program_fails : forall mode glob p l, result (pipeline p) = Some l ->
  (forall a sn, In (a, XNode sn) p -> ~ In "universal_pre"%string (map a_action a)) ->
  (forall x t, constant p x t -> glob x <> None) ->
  forall f i ins, init_inst (nodes_of l) f = Ok i ->
  (exists e, run mode glob (nodes_of l) f i ins = Panic e) <->
  ~ exists outs, means_strictly mode glob (source_nodes p) f ins outs.
Proof.
  intros mode glob p l H D Hc f i ins Hi. split.
  - intros (e & R) (outs & M). apply (program_exact mode glob p l H D Hc f i ins outs Hi) in M. destruct M as (i' & M). congruence.
  - intros Q. destruct (run mode glob (nodes_of l) f i ins) as [[outs i']|e] eqn:R; eauto. exfalso. apply Q. exists outs.
    apply (program_exact mode glob p l H D Hc f i ins outs Hi). eauto.
Qed.

Lemma unchained_settled : forall mode glob locals rho F N e t, unchained e -> settled mode glob locals rho F N e t.
Proof.
  intros mode glob locals rho F N.
  assert (L : forall l, Forall (fun e => forall t, unchained e -> settled mode glob locals rho F N e t) l ->
    forall t, (fix all l := match l with [] => True | e :: l => unchained e /\ all l end) l -> all_settled mode glob locals rho F N l t).
  { induction 1; intros t A; cbn in *; auto. destruct A. split; auto. }
  assert (P : forall O (l : list (O * sexpr)), Forall (fun p => forall t, unchained (snd p) -> settled mode glob locals rho F N (snd p) t) l ->
    forall t, (fix all (l : list (O * sexpr)) := match l with [] => True | (_, e) :: l => unchained e /\ all l end) l -> pairs_settled mode glob locals rho F N l t).
  { induction 1 as [|[op e] l H _ IH]; intros t A; cbn in *; auto. destruct A. split; auto. }
  intros e. induction e using sexpr_ind'; intros t U; try exact Logic.I; try (destruct U; fail).
  - rewrite st_paren. apply L; auto.
  - rewrite st_call. intros _. apply L; auto.
  - cbn. auto.
  - cbn. auto.
  - cbn. auto.
  - destruct U as (U1 & U2 & U3). cbn. auto.
  - destruct U as (U1 & U2 & U3). cbn. auto.
  - rewrite st_bin. destruct U. split; auto.
  - rewrite st_cmp. destruct U. split; auto.
  - rewrite st_clock. destruct U. split; auto.
Qed.

Lemma unchained_settles : forall mode glob nodes, (forall sn i, In sn nodes -> In i (s_defs sn) -> unchained (stmt_body i)) ->
  forall n f ins outs, denotes mode glob nodes n f ins outs -> settles mode glob nodes n f ins outs.
Proof.
  intros mode glob nodes Un. induction n as [|n IH]; intros f ins outs H; [destruct H|].
  destruct H as (sn & pouts & I & E & (L & rho & M) & W). exists sn, pouts. repeat split; auto.
  exists rho. intros T v o Hv Ho. destruct (M T v o Hv Ho) as (A & B & C). repeat split; auto.
  - eapply sstmt_mono; [| |apply B; auto]; auto. intros g args w (os & D). exists os. apply IH. auto.
  - match goal with J : In ?i (s_defs sn) |- _ => specialize (Un _ _ I J); destruct i; apply unchained_settled; exact Un end.
Qed.

Theorem unchained_exact : forall mode glob p l, result (pipeline p) = Some l ->
  (forall a sn, In (a, XNode sn) p -> ~ In "universal_pre"%string (map a_action a)) ->
  (forall x t, constant p x t -> glob x <> None) ->
  (forall a sn i, In (a, XNode sn) p -> In i (s_defs sn) -> unchained (stmt_body i)) ->
  forall f i ins outs, init_inst (nodes_of l) f = Ok i ->
  (exists i', run mode glob (nodes_of l) f i ins = Ok (outs, i')) <-> means mode glob (source_nodes p) f ins outs.
Proof.
  intros mode glob p l H D Hc Un f i ins outs Hi. rewrite (program_exact mode glob p l H D Hc f i ins outs Hi). split.
  - apply strictly_means.
  - intros (n & M). exists n. apply unchained_settles; auto. intros sn j I J. destruct (source_node_in _ _ I) as (a & Ia). eauto.
Qed.
