(** Diagnostics of the whole compiler. *)
From Coq Require Import String List ZArith Bool Arith Lia Permutation.
From Verif Require Import Model.Base Model.Scalar Model.Value Model.Ast Model.Errors Model.Interp Model.Options Model.Surface Model.Translate
  Model.Graph Model.Causality Model.Typecheck Model.Clockcheck Model.Positivity Model.Pipeline
  Spec.DiagSpec Proofs.AstInd Proofs.OutBasics Proofs.NodeWf Proofs.TranslateStruct Proofs.PipelineProofs Proofs.CausalityProofs Proofs.Fair.
Import ListNotations.

Section Later.
  Variable u : bool.
  Variable locals : list ident.
  Let ok (e : sexpr) : Prop := u = true \/ arrow_free e = true.
  Let freed (e : sexpr) : Prop := forall d s e' s', ok e -> result (tr u locals e d s) = Some (e', s') -> later_free e' = true.

  Lemma freed_elems : forall l, Forall freed l -> Forall ok l -> forall d s es s',
    result (tr_elems (tr u locals) l d s) = Some (es, s') -> forallb later_free es = true.
  Proof.
    induction 1 as [|e l He _ IH]; intros O d s es s' R; cbn [tr_elems] in R; inv_out; auto. inversion O; subst.
    cbn [forallb]. rewrite (He _ _ _ _ H1 E). eauto.
  Qed.
  Lemma freed_paren : forall es b, forallb later_free es = true -> later_free (paren es b) = true.
  Proof. intros [|e [|e' es]] b H; cbn in *; auto. rewrite andb_true_r in H. destruct b; cbn; rewrite H; auto. Qed.
  Lemma freed_left : forall O (compose : O -> expr -> expr -> expr), (forall op a b, later_free a = true -> later_free b = true -> later_free (compose op a b) = true) ->
    forall l, Forall (fun p => freed (snd p)) l -> Forall (fun p => ok (snd p)) l -> forall acc d s r s', later_free acc = true ->
    result (tr_left (tr u locals) compose acc l d s) = Some (r, s') -> later_free r = true.
  Proof.
    intros O compose C. induction 1 as [|[op e] l He _ IH]; intros K acc d s r s' A R; cbn [tr_left] in R; inv_out; auto. inversion K; subst.
    eapply IH; [auto| |eauto]. apply C; auto. eapply He; eauto.
  Qed.
  Lemma freed_right : u = true -> forall bump compose, (forall d i a b s r s', compose d i a b s = (r, s') -> later_free a = true -> later_free b = true -> later_free r = true) ->
    forall l, Forall freed l -> forall i d s r s',
    result (tr_right (tr u locals) bump compose i l d s) = Some (r, s') -> match r with Some e => later_free e = true | None => True end.
  Proof.
    intros U bump compose C. induction 1 as [|e l He _ IH]; intros i d s r s' R; cbn [tr_right] in R; inv_out; auto.
    destruct o as [after|]; inv_out.
    - eapply C; [eassumption| |].
      + eapply He; [left; auto|eauto].
      + apply (IH _ _ _ _ _ E).
    - eapply He; [left; auto|eauto].
  Qed.

  Lemma tr_later_free : forall e, freed e.
  Proof.
    assert (Fa : forall l, u = true \/ forallb arrow_free l = true -> Forall ok l).
    { intros l [U|A]; apply Forall_forall; intros e I; [left; auto|right]. exact (proj1 (forallb_forall _ _) A e I). }
    assert (Fb : forall O (l : list (O * sexpr)), u = true \/ forallb (fun p => arrow_free (snd p)) l = true -> Forall (fun p => ok (snd p)) l).
    { intros O l [U|A]; apply Forall_forall; intros e I; [left; auto|right]. exact (proj1 (forallb_forall _ _) A e I). }
    Ltac tol := match goal with H : _ = true \/ _ |- _ \/ _ => destruct H as [H|H]; [left; exact H|right; cbn in H; rewrite ?andb_true_iff in H; first [tauto | discriminate]] end.
    induction e using sexpr_ind'; intros d s e' s' A R; cbn [tr] in R; unfold ok in A.
    - inv_out. unfold tr_lit in E. destruct l; [destruct (in_i64 _)|..]; inv_out; auto.
    - inv_out. unfold tr_var. destruct (existsb _ _); auto.
    - inv_out. apply freed_paren. eapply freed_elems; eauto.
    - inv_out. cbn [later_free]. apply freed_paren. eapply freed_elems; eauto.
    - inv_out. cbn [later_free]. eapply IHe; eauto.
    - inv_out. cbn [later_free]. eapply IHe; eauto.
    - destruct u; inv_out; cbn [later_free].
      + rewrite (IHe _ _ _ _ (or_introl eq_refl) E). auto.
      + eapply IHe; eauto.
    - inv_out. cbn [later_free]. rewrite (IHe1 _ _ _ _ ltac:(red; tol) E), (IHe2 _ _ _ _ ltac:(red; tol) E0), (IHe3 _ _ _ _ ltac:(red; tol) E1). auto.
    - inv_out. cbn [later_free]. rewrite (IHe1 _ _ _ _ ltac:(red; tol) E), (IHe2 _ _ _ _ ltac:(red; tol) E0), (IHe3 _ _ _ _ ltac:(red; tol) E1). auto.
    - inv_out. refine (freed_left _ EBin _ l H (Fb _ l _) _ _ _ _ _ _ R).
      + intros. cbn. rewrite H0, H1. auto.
      + tol.
      + eapply IHe; [red; tol|eauto].
    - inv_out. destruct l as [|[op e1] [|[op2 e2] l]]; inv_out.
      + eapply IHe; [red; tol|eauto].
      + inversion H; subst. cbn [later_free snd] in *. rewrite (IHe _ _ _ _ ltac:(red; tol) E).
        apply (H2 _ _ _ _ ltac:(red; tol) E0).
    - inv_out. refine (freed_left _ EClock _ l H (Fb _ l _) _ _ _ _ _ _ R).
      + intros. cbn. rewrite H0, H1. auto.
      + tol.
      + eapply IHe; [red; tol|eauto].
    - destruct l as [|e1 l].
      { cbn [tr_right] in R. inv_out. eapply IHe; eauto. }
      destruct A as [A|A]; [|discriminate]. inv_out.
      assert (C : forall d i a b s r s', (if u then fby_registers else later) d i a b s = (r, s') -> later_free a = true -> later_free b = true -> later_free r = true).
      { intros d0 i0 a0 b0 s0 r0 s0' K Ha Hb. rewrite A in K. unfold fby_registers in K. inversion K; subst. cbn. rewrite Ha, Hb. auto. }
      pose proof (freed_right A (if u then fun d _ => d else fun d i => d + i) _ C _ H _ _ _ _ _ E) as X. assert (Y : later_free e0 = true) by (eapply IHe; [left; auto|eauto]).
      destruct o; inv_out; auto. eapply C; eauto.
    - destruct l as [|e1 l].
      { cbn [tr_right] in R. inv_out. eapply IHe; eauto. }
      destruct A as [A|A]; [|discriminate]. inv_out.
      assert (C : forall d i a b s r s', (if u then then_flips else later) d i a b s = (r, s') -> later_free a = true -> later_free b = true -> later_free r = true).
      { intros d0 i0 a0 b0 s0 r0 s0' K Ha Hb. rewrite A in K. unfold then_flips in K. inversion K; subst. cbn. rewrite Ha, Hb. auto. }
      pose proof (freed_right A (fun d _ => d) _ C _ H _ _ _ _ _ E) as X. assert (Y : later_free e0 = true) by (eapply IHe; [left; auto|eauto]).
      destruct o; inv_out; auto. eapply C; eauto.
  Qed.
End Later.

Lemma tc_node_stmts : forall gl fn o nd nd' gens, result (tc_node gl fn o nd) = Some (nd', gens) -> n_stmts nd' = n_stmts nd.
Proof.
  intros gl fn o nd nd' gens H2. unfold tc_node in H2.
  apply obind_some in H2. destruct H2 as (u1 & X1 & Y2).
  apply obind_some in Y2. destruct Y2 as (u2 & X2 & Y2).
  apply obind_some in Y2. destruct Y2 as ((ok, vars) & X3 & Y2).
  apply obind_some in Y2. destruct Y2 as (u3 & X4 & Y2).
  apply obind_some in Y2. destruct Y2 as (bl & Xb & Y2).
  apply obind_some in Y2. destruct Y2 as (sr & Xs & Y2). apply obind_some in Y2. destruct Y2 as (sr' & Xn & Y2).
  inversion Y2; subst. auto.
Qed.

Lemma universal_mode : forall a d o, result (with_attrs no_opts a) = Some d -> result (for_node d) = Some o ->
  marked_universal a -> o_universal o = true.
Proof.
  intros a d o W F M. rewrite (node_opts_universal _ _ _ W F). apply existsb_exists. apply in_map_iff in M. destruct M as (x & E & I).
  exists x. split; auto. apply String.eqb_eq. auto.
Qed.

(** A node reaches the clock check with the translation of its statements. *)
Lemma reaches_clocks : forall p l l1 l2, result (tr_prog p) = Some l -> result (causality l) = Some l1 -> result (typecheck l1) = Some l2 ->
  forall o nd, In (DNode o nd) l2 -> exists a d sn, In (a, XNode sn) p /\
    result (with_attrs no_opts a) = Some d /\ result (for_node d) = Some o /\
    exists nd0, translated (o_universal o) sn nd0 /\ Permutation (n_stmts nd) (n_stmts nd0).
Proof.
  intros p l l1 l2 T C Y o nd I.
  destruct (forall2_in_r _ _ _ (typecheck_some _ _ Y) _ I) as (d1 & I1 & D). inversion D as [gl fn o' nd1 nd1' gens N|d' Nn]; subst.
  2: { discriminate. }
  destruct (causality_some _ _ C) as (l1' & F & P & _). apply (Permutation_in _ P) in I1.
  destruct (forall2_in_r _ _ _ F _ I1) as (d0 & I0 & D0). destruct d0; cbn [decl_causality] in D0; try discriminate.
  destruct (node_causality nd0) as [x|] eqn:Nc; [|discriminate]. inversion D0; subst. clear D0.
  apply omap_some in T. destruct (forall2_in_r _ _ _ T _ I0) as ((a & sd) & Ia & A). unfold tr_attrdecl in A. cbn [fst snd] in A.
  apply obind_some in A. destruct A as (d & W & A). destruct sd as [? ? e|sn| |]; cbn [tr_decl] in A; inv_out.
  - destruct (t_stmts t0), (t_blocks t0); discriminate.
  - exists a, d, sn. split; auto. split; auto. split; auto. exists nd0. split; [apply tr_node_translated; auto|].
    rewrite (tc_node_stmts _ _ _ _ _ _ N). apply (node_stmts_perm _ _ Nc).
Qed.

Lemma settled_tolerated : forall E p l l1 l2, E EClkTooSlow \/ arrows_universal p ->
  result (tr_prog p) = Some l -> result (causality l) = Some l1 -> result (typecheck l1) = Some l2 ->
  Forall (decl_tolerated E) l2.
Proof.
  intros E p l l1 l2 A T C Y. apply Forall_forall. intros d I. destruct d as [|o nd| |]; cbn; auto.
  destruct A as [A|A].
  { intros i s _. apply fair_kc_stmt. destruct i; cbn; auto; left; auto. }
  destruct (reaches_clocks _ _ _ _ T C Y _ _ I) as (a & d & sn & Ia & W & F & nd0 & Tr & P).
  intros i r Ii. apply fair_kc_stmt. apply (Permutation_in _ P) in Ii.
  destruct (sourced i) eqn:S; [|destruct i; cbn; auto; discriminate].
  assert (If : In i (filter sourced (n_stmts nd0))) by (apply filter_In; auto).
  destruct (forall2_in_r _ _ _ (td_sourced _ _ _ Tr) _ If) as (j & Ij & (s & s' & e' & bl & J & _)).
  assert (K : o_universal o = true \/ arrow_free (sstmt_expr j) = true).
  { destruct (A _ _ Ia) as [U|U]; [left; eapply universal_mode; eauto|right; auto]. }
  destruct j; destruct J as [J ->]; cbn; right; eapply tr_later_free; eauto.
Qed.

(** ** Claims *)
Theorem rejection_reports : forall p es ws, pipeline p = Out None es ws -> es <> [].
Proof.
  intros p es ws H. pose proof (fair_pipeline (fun e => True) p) as F. rewrite H in F. apply F.
  intros. eapply settled_tolerated; eauto.
Qed.

Theorem only_clock_errors : forall p l es ws, pipeline p = Out (Some l) es ws -> forall e, In e es -> e = EClkTooSlow.
Proof.
  intros p l es ws H. pose proof (fair_pipeline (fun e => e = EClkTooSlow) p) as F. rewrite H in F. cbn in F. apply Forall_forall. apply F.
  intros. eapply settled_tolerated; eauto.
Qed.

Theorem universal_no_error : forall p l es ws, arrows_universal p -> pipeline p = Out (Some l) es ws -> es = [].
Proof.
  intros p l es ws U H. pose proof (fair_pipeline (fun e => False) p) as F. rewrite H in F. cbn in F.
  destruct es as [|e es]; auto. exfalso. assert (K : Forall (fun _ : error => False) (e :: es)) by (apply F; intros; eapply settled_tolerated; eauto).
  inversion K; auto.
Qed.

Theorem rejection_shown : forall p shown, compile p = Expanded None shown -> shown <> [].
Proof.
  intros p shown. unfold compile. destruct (pipeline p) as [[l|] es ws|]; try discriminate.
  destruct es; [discriminate|]. intros E; inversion E. discriminate.
Qed.
