(** Consequences of the clock and depth analyses for accepted programs. *)
From Coq Require Import String List ZArith Bool Arith Lia Permutation.
From Verif Require Import Model.Base Model.Scalar Model.Value Model.Ast Model.Errors Model.Options Model.Interp Model.Surface Model.Translate
  Model.Graph Model.Causality Model.Typecheck Model.Clockcheck Model.Positivity Model.Pipeline
  Spec.StepSpec Spec.SurfaceSem Spec.ProgramSem Spec.ClockSpec Spec.SafetySpec Spec.TypeSpec Proofs.AstInd Proofs.OutBasics Proofs.TranslateSem Proofs.TranslateStruct Proofs.NodeWf
  Proofs.PipelineProofs Proofs.ProgramProofs Proofs.Unique Proofs.DepthPipeline Proofs.Paces Proofs.PaceNode Proofs.Presence Proofs.TraceInd Proofs.NilFree Proofs.Positive.
Import ListNotations.

(** ** Subexpressions of an expression with a clock have a clock *)
Lemma meets_some : forall l o k, meets l o = Some k -> o <> None /\ forall a, In a l -> a <> None.
Proof.
  unfold meets. induction l as [|a l IH]; intros o k H; cbn [fold_left] in H.
  - split; [congruence|]. intros a [].
  - destruct (IH _ _ H) as [A B]. destruct o as [x|]; [|exfalso; apply A; reflexivity].
    destruct a as [y|]; [|exfalso; apply A; reflexivity].
    split; [discriminate|]. intros b [<-|I]; [discriminate|auto].
Qed.

Lemma uniform_some : forall l k, uniform l = Some k -> forall a, In a l -> a <> None.
Proof.
  intros l k H a I. destruct l as [|[g|] l]; [destruct I| |discriminate]. cbn [uniform pbind] in H.
  destruct (forallb _ _) eqn:F; [|discriminate]. rewrite forallb_forall in F. specialize (F a I). destruct a; [discriminate|discriminate].
Qed.

Lemma part_pace : forall env e k, pace_of env e = Some k -> forall c, In c (parts e) -> pace_of env c <> None.
Proof.
  intros env e k H c I. destruct e; cbn [parts] in I.
  - destruct I.
  - destruct I.
  - cbn in H. apply (uniform_some _ _ H). apply in_map. auto.
  - cbn in H. apply (uniform_some _ _ H). apply in_map. auto.
  - destruct I as [<-|[]]. cbn in H. congruence.
  - destruct I as [<-|[]]. cbn in H. congruence.
  - destruct I as [<-|[]]. cbn in H. destruct (pace_of env e); [discriminate|discriminate].
  - cbn [pace_of] in H. apply meets_some in H. destruct H as [A B]. destruct I as [<-|[<-|[<-|[]]]]; auto; apply B; cbn; auto.
  - cbn [pace_of] in H. destruct (driver env e1) as [x|] eqn:D; [|discriminate]. cbn [pbind] in H.
    destruct (pace_of env e2) eqn:E2; [|discriminate]. cbn [pbind] in H. destruct (meet _ _); [|discriminate]. cbn [pbind] in H.
    destruct (pace_of env e3) eqn:E3; [|discriminate].
    destruct I as [<-|[<-|[<-|[]]]]; try congruence. destruct (driver_pace env _ _ D) as [-> _]. discriminate.
  - cbn [pace_of] in H. apply meets_some in H. destruct H as [A B]. destruct I as [<-|I]; auto.
    apply in_map_iff in I. destruct I as (p & <- & I). apply B. apply in_map_iff. exists p. auto.
  - cbn [pace_of] in H. apply meets_some in H. destruct H as [A B]. destruct I as [<-|I]; auto.
    apply in_map_iff in I. destruct I as (p & <- & I). apply B. apply in_map_iff. exists p. auto.
  - cbn [pace_of] in H.
    assert (G : forall l o, fold_left (sample env) l o = Some k -> o <> None /\ forall p, In p l -> pace_of env (snd p) <> None).
    { clear. induction l as [|p l IH]; intros o H; cbn [fold_left] in H; [split; [congruence|intros q []]|].
      destruct (IH _ H) as [A B]. unfold sample in A. destruct o as [a|]; [|exfalso; apply A; reflexivity]. cbn [pbind] in A.
      destruct (driver env (snd p)) as [x|] eqn:D; [|exfalso; apply A; reflexivity].
      split; [discriminate|]. intros q [<-|I]; auto. destruct (driver_pace env _ _ D) as [-> _]. discriminate. }
    destruct (G _ _ H) as [A B]. destruct I as [<-|I]; auto. apply in_map_iff in I. destruct I as (p & <- & I). auto.
  - change (pace_of env (XFby e l)) with (chain_pace env e l) in H. destruct (chain_operands _ _ _ _ H) as [A B].
    destruct I as [<-|I]; [congruence|]. destruct B as [->|[_ B]]; [destruct I|]. destruct (B _ I) as (k' & -> & _). discriminate.
  - change (pace_of env (XThen e l)) with (chain_pace env e l) in H. destruct (chain_operands _ _ _ _ H) as [A B].
    destruct I as [<-|I]; [congruence|]. destruct B as [->|[_ B]]; [destruct I|]. destruct (B _ I) as (k' & -> & _). discriminate.
Qed.

Lemma within_pace : forall env e a, within a e -> pace_of env e <> None -> pace_of env a <> None.
Proof.
  intros env e a W. induction W as [|c e I W IH]; intros H; auto. apply IH. destruct (pace_of env e) eqn:E; [|congruence]. eapply part_pace; eauto.
Qed.

Lemma temporal_pace : forall env a e, temporal_operand a e -> pace_of env e <> None -> exists k, pace_of env a = Some k /\ slow k = false.
Proof.
  intros env a e T H. destruct e; try (destruct T; fail); cbn [temporal_operand] in T.
  - subst. cbn in H. destruct (never_slow (pace_of env e)) eqn:N; [|congruence]. apply never_slow_some; auto.
  - destruct T as [Ne I]. change (pace_of env (XFby e l)) with (chain_pace env e l) in H. destruct (chain_pace env e l) as [k|] eqn:E; [|congruence].
    destruct (chain_operands _ _ _ _ E) as [A [B|[S B]]]; [congruence|]. destruct I as [<-|I]; eauto.
  - destruct T as [Ne I]. change (pace_of env (XThen e l)) with (chain_pace env e l) in H. destruct (chain_pace env e l) as [k|] eqn:E; [|congruence].
    destruct (chain_operands _ _ _ _ E) as [A [B|[S B]]]; [congruence|]. destruct I as [<-|I]; eauto.
Qed.

Theorem temporal_operands : forall p l ws, pipeline p = Out (Some l) [] ws -> default_mode p ->
  forall sn i e a, In sn (source_nodes p) -> In i (s_defs sn) -> within e (stmt_expr i) -> temporal_operand a e ->
  exists k, pace_of (declared_pace sn) a = Some k /\ slow k = false.
Proof.
  intros p l ws H D sn i e a Is Ii W T. destruct (program_paced _ _ _ H D _ Is) as [_ P].
  eapply temporal_pace; [exact T|]. eapply within_pace; [exact W|].
  specialize (P _ Ii). destruct i as [t e0|e0]; cbn in P; cbn [stmt_expr].
  - destruct P as (k & kt & -> & _). discriminate.
  - destruct P as (k & -> & _). discriminate.
Qed.

(** ** Depth analysis *)
Lemma pos_stmts_in : forall l m m', result (pos_stmts l m) = Some m' -> forall i, In i l -> exists m1 m2, result (pos_stmt i m1) = Some m2.
Proof.
  induction l as [|j l IH]; intros m m' H i I; [destruct I|]. cbn [pos_stmts] in H. apply obind_some in H. destruct H as (m1 & A & B).
  destruct I as [->|I]; eauto.
Qed.

Theorem ready_default : forall p l, result (pipeline p) = Some l -> default_mode p ->
  forall sn i, In sn (source_nodes p) -> In i (s_defs sn) -> ready false (node_vars sn) 0 (stmt_expr i).
Proof.
  intros p l H D sn i Is Ii. destruct (default_compiled _ _ H D _ Is) as (o & nd & C & U).
  pose proof C as (nd0 & nd1 & nd2 & nd3 & gl & fn & gens & H0 & H1 & H2 & H3 & H4).
  destruct (compiled_passed _ _ _ C) as (nd0' & stmts & Pa).
  destruct (passed_source _ _ _ _ _ Pa _ Ii) as (i' & I' & Tr). rewrite U in Tr.
  unfold pos_node in H4. apply obind_some in H4. destruct H4 as (m & P & E). cbn in E. injection E as <-. cbn [n_stmts n_blocks] in *.
  destruct (pos_stmts_in _ _ _ P _ I') as (m1 & m2 & Q).
  destruct Tr as (s & s' & e' & bl & Tr & _). 
  destruct i as [t e|e]; destruct Tr as [Tr ->]; cbn [stmt_expr pos_stmt] in *;
    apply (tr_fit (node_vars sn) e 0 s e' s' Tr 0 m1); eauto.
Qed.

(** ** Strict readiness *)
Lemma part_free : forall e c, call_free e -> In c (parts e) -> call_free c.
Proof. intros e c C I f l b W. eapply C. eapply wi_part; eauto. Qed.
Lemma part_undelayed : forall e c, calls_undelayed e -> In c (parts e) -> calls_undelayed c.
Proof. intros e c C I a b W. apply C. eapply wi_part; eauto. Qed.

Lemma all_of_impl : forall {A} (P Q : A -> Prop) l, (forall a, In a l -> P a -> Q a) -> all_of P l -> all_of Q l.
Proof. induction l as [|a l IH]; cbn; auto. intros H [A1 A2]. split; auto. Qed.
Lemma all_from_impl : forall {A} (P Q : Z -> A -> Prop) l i, (forall j a, In a l -> P j a -> Q j a) -> all_from P i l -> all_from Q i l.
Proof. induction l as [|a l IH]; cbn; auto. intros i H [A1 A2]. split; auto. Qed.

Lemma ready_call_free : forall vars e n, call_free e -> ready false vars n e -> ready true vars n e.
Proof.
  intros vars e. induction e using sexpr_ind'; intros n C R; pose proof part_free as P; cbn [ready] in *; auto;
    try (rewrite Forall_forall in H).
  - eapply all_of_impl; [|exact R]. intros a I. apply H; auto. apply (P _ a C). auto.
  - exfalso. eapply C. apply wi_here.
  - apply IHe; auto. apply (P _ e C). cbn; auto.
  - apply IHe; auto. apply (P _ e C). cbn; auto.
  - apply IHe; auto. apply (P _ e C). cbn; auto.
  - destruct R as (R1 & R2 & R3). repeat split; [apply IHe1|apply IHe2|apply IHe3]; auto; apply (P _ _ C); cbn; auto.
  - destruct R as (R1 & R2 & R3). repeat split; [apply IHe1|apply IHe2|apply IHe3]; auto; apply (P _ _ C); cbn; auto.
  - destruct R as [R1 R2]. split; [apply IHe; auto; apply (P _ _ C); cbn; auto|]. eapply all_of_impl; [|exact R2].
    intros a I. apply (H a); auto. apply (P _ _ C). right. apply in_map. auto.
  - destruct R as [R1 R2]. split; [apply IHe; auto; apply (P _ _ C); cbn; auto|]. eapply all_of_impl; [|exact R2].
    intros a I. apply (H a); auto. apply (P _ _ C). right. apply in_map. auto.
  - destruct R as [R1 R2]. split; [apply IHe; auto; apply (P _ _ C); cbn; auto|]. eapply all_of_impl; [|exact R2].
    intros a I. apply (H a); auto. apply (P _ _ C). right. apply in_map. auto.
  - destruct R as [R1 R2]. split; [apply IHe; auto; apply (P _ _ C); cbn; auto|]. eapply all_of_impl; [|exact R2].
    intros a I. apply (H a); auto. apply (P _ _ C). right. auto.
  - destruct R as [R1 R2]. split; [apply IHe; auto; apply (P _ _ C); cbn; auto|]. eapply all_from_impl; [|exact R2].
    intros j a I. apply (H a); auto. apply (P _ _ C). right. auto.
Qed.

Lemma ready_undelayed : forall vars e, calls_undelayed e -> ready false vars 0 e -> ready true vars 0 e.
Proof.
  intros vars e. induction e using sexpr_ind'; intros C R; pose proof part_undelayed as P; cbn [ready] in *; auto;
    try (rewrite Forall_forall in H).
  - eapply all_of_impl; [|exact R]. intros a I. apply H; auto. apply (P _ a C). auto.
  - split; [lia|]. eapply all_of_impl; [|exact R]. intros a I. apply H; auto. apply (P _ a C). auto.
  - apply IHe; auto. apply (P _ e C). cbn; auto.
  - apply IHe; auto. apply (P _ e C). cbn; auto.
  - apply ready_call_free; auto. apply (C e (XPre e)); auto. apply wi_here.
  - destruct R as (R1 & R2 & R3). repeat split; [apply IHe1|apply IHe2|apply IHe3]; auto; apply (P _ _ C); cbn; auto.
  - destruct R as (R1 & R2 & R3). repeat split; [apply IHe1|apply IHe2|apply IHe3]; auto; apply (P _ _ C); cbn; auto.
  - destruct R as [R1 R2]. split; [apply IHe; auto; apply (P _ _ C); cbn; auto|]. eapply all_of_impl; [|exact R2].
    intros a I. apply (H a); auto. apply (P _ _ C). right. apply in_map. auto.
  - destruct R as [R1 R2]. split; [apply IHe; auto; apply (P _ _ C); cbn; auto|]. eapply all_of_impl; [|exact R2].
    intros a I. apply (H a); auto. apply (P _ _ C). right. apply in_map. auto.
  - destruct R as [R1 R2]. split; [apply IHe; auto; apply (P _ _ C); cbn; auto|]. eapply all_of_impl; [|exact R2].
    intros a I. apply (H a); auto. apply (P _ _ C). right. apply in_map. auto.
  - destruct R as [R1 R2]. split; [apply IHe; auto; apply (P _ _ C); cbn; auto|]. eapply all_of_impl; [|exact R2].
    intros a I. apply (H a); auto. apply (P _ _ C). right. auto.
  - destruct R as [R1 R2]. split; [apply IHe; auto; apply (P _ _ C); cbn; auto|]. eapply all_from_impl; [|exact R2].
    intros j a I. apply ready_call_free. apply (C a (XThen e l)); auto. apply wi_here.
Qed.

(** ** Runs *)
(** A run on defined inputs. *)
Theorem run_nil_free : forall mode glob floats p l ws, pipeline p = Out (Some l) [] ws -> default_mode p ->
  (forall x s, glob x = Some s -> allowed floats s) ->
  (forall sn, In sn (source_nodes p) -> plain_clocks sn /\ clear floats sn) ->
  forall f i ins outs i', init_inst (nodes_of l) f = Ok i -> run mode glob (nodes_of l) f i ins = Ok (outs, i') ->
  Forall (full (allowed floats)) ins -> Forall (full (allowed floats)) outs.
Proof.
  intros mode glob floats p l ws H D G Cl f i ins outs i' Hi R Fi.
  assert (Rs : result (pipeline p) = Some l) by (rewrite H; auto).
  pose proof (program_sound mode glob p l f i ins outs i' Rs D Hi R) as M.
  assert (F2 : Forall2 (answers_well (allowed floats)) ins outs).
  { eapply means_nil_free; eauto. eapply Forall_impl; [|exact Fi]. auto. }
  clear - F2 Fi. induction F2 as [|v o ins outs A _ IH]; constructor; inversion Fi; subst; auto. apply A. auto.
Qed.

Theorem run_nil_free_plain : forall mode glob floats p l ws, pipeline p = Out (Some l) [] ws -> default_mode p ->
  (forall x s, glob x = Some s -> allowed floats s) ->
  (forall sn i, In sn (source_nodes p) -> plain_clocks sn /\ (In i (s_defs sn) ->
     calls_undelayed (stmt_expr i) /\ steady (declared_pace sn) (stmt_expr i) = true /\ tame floats (stmt_expr i) = true)) ->
  forall f i ins outs i', init_inst (nodes_of l) f = Ok i -> run mode glob (nodes_of l) f i ins = Ok (outs, i') ->
  Forall (full (allowed floats)) ins -> Forall (full (allowed floats)) outs.
Proof.
  intros mode glob floats p l ws H D G Cl. eapply run_nil_free; eauto.
  intros sn Is. split; [apply (Cl sn (XAssert (XLit (SLBool true))) Is)|].
  intros i Ii. destruct (Cl sn i Is) as [_ X]. destruct (X Ii) as (A & B & C). split; auto.
  apply ready_undelayed; auto. apply (ready_default p l); auto. rewrite H. auto.
Qed.

(** ** Streams *)
Theorem streams_clocked : forall mode glob floats p l ws, pipeline p = Out (Some l) [] ws -> default_mode p ->
  (forall x s, glob x = Some s -> allowed floats s) ->
  (forall sn, In sn (source_nodes p) -> plain_clocks sn /\ clear floats sn) ->
  forall sn rho k, In sn (source_nodes p) ->
  (forall T, T < k -> forall i, In i (s_defs sn) ->
     sstmt_holds mode glob (node_vars sn) rho (fun g args v => exists os, means mode glob (source_nodes p) g args (os ++ [v]))
       (no_input (source_nodes p)) T i) ->
  (forall T, T < k -> forall x n, In x (declared (s_inputs sn)) -> rho T x = Some n -> exists s, n = Defined s /\ allowed floats s) ->
  forall T x n kx, T < k -> In x (node_vars sn) -> declared_pace sn x = Some kx -> rho T x = Some n ->
  (active rho kx (Z.of_nat T) -> exists s, n = Defined s /\ allowed floats s) /\ (~ active rho kx (Z.of_nat T) -> n = Nil).
Proof.
  intros mode glob floats p l ws H D G Cl sn rho k Is Hs Hin T x n kx L Ix Ek En.
  assert (R : result (pipeline p) = Some l) by (rewrite H; auto).
  destruct (default_compiled _ _ R D _ Is) as (o & nd & C & U). destruct (compiled_passed _ _ _ C) as (nd0 & stmts & Pa).
  destruct (Cl _ Is) as [Pl Cn]. pose proof (program_paced _ _ _ H D _ Is) as Pn.
  apply pres_scalar. eapply streams_present; eauto.
  intros g args w v (os & Dn) Ha. pose proof (means_nil_free mode glob floats G p l ws H D Cl _ _ _ Dn) as Q.
  assert (G' : Forall2 (answers_well (allowed floats)) (args ++ [w]) (os ++ [v])) by (apply Q; apply Forall_forall; auto).
  apply Forall2_app_inv_l in G'. destruct G' as (l1 & l2 & _ & G2 & Eq). inversion G2 as [|? b ? ? G3 G4]; subst. inversion G4; subst.
  apply app_inj_tail in Eq. destruct Eq as [_ ->]. exact G3.
Qed.

Theorem presence_same : forall mode glob locals env rho (F : ident -> list val -> val -> Prop) N floats,
  (forall x, In x locals -> exists k, env x = Some k /\ k <> Free) ->
  (forall x, ~ In x locals -> env x = None) ->
  (forall x s, glob x = Some s -> allowed floats s) ->
  (forall t x n k, In x locals -> rho t x = Some n -> env x = Some k ->
     (active rho k (Z.of_nat t) -> full (allowed floats) (VS n)) /\ (~ active rho k (Z.of_nat t) -> empty (VS n))) ->
  (forall f args w v, F f (args ++ [w]) v -> (forall u, In u (args ++ [w]) -> full (allowed floats) u \/ empty u) ->
     (full (allowed floats) w -> full (allowed floats) v) /\ (empty w -> empty v)) ->
  forall e n t v k, ready true locals n e -> (n <= t)%Z -> steady env e = true -> tame floats e = true -> pace_of env e = Some k ->
  sem mode glob locals rho F N e t v ->
  (active rho k t -> full (allowed floats) v) /\ (~ active rho k t -> empty v).
Proof.
  intros mode glob locals env rho F N floats A B C D E. apply (presence mode glob locals env rho rho F N floats A B C); auto.
  intros t x n k I R K. split; auto. apply (D t x n k I R K).
Qed.

Theorem run_instants : forall mode glob floats p l ws, pipeline p = Out (Some l) [] ws -> default_mode p ->
  (forall x s, glob x = Some s -> allowed floats s) ->
  (forall sn, In sn (source_nodes p) -> plain_clocks sn /\ clear floats sn) ->
  forall f i ins outs i', init_inst (nodes_of l) f = Ok i -> run mode glob (nodes_of l) f i ins = Ok (outs, i') ->
  Forall (fun v => full (allowed floats) v \/ empty v) ins ->
  Forall2 (fun v o => (full (allowed floats) v -> full (allowed floats) o) /\ (empty v -> empty o)) ins outs.
Proof.
  intros mode glob floats p l ws H D G Cl f i ins outs i' Hi R Fi.
  assert (Rs : result (pipeline p) = Some l) by (rewrite H; auto).
  pose proof (program_sound mode glob p l f i ins outs i' Rs D Hi R) as M.
  exact (means_nil_free mode glob floats G p l ws H D Cl f ins outs M Fi).
Qed.

Theorem depth_exact : forall locals e s e' s', result (tr false locals e 0 s) = Some (e', s') ->
  forall m, (exists m', result (pos e' 0 m) = Some m') <-> ready false locals 0 e.
Proof. intros locals e s e' s' H m. exact (tr_fit locals e 0 s e' s' H 0 m). Qed.
