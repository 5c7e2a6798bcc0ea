(** * Executable nodes have neither inputs nor outputs. *)
From Coq Require Import String List ZArith Bool Arith Lia Permutation.
From Verif Require Import Model.Base Model.Scalar Model.Value Model.Ast Model.Errors Model.Interp Model.Options Model.Surface Model.Translate
  Model.Graph Model.Causality Model.Typecheck Model.Clockcheck Model.Positivity Model.Pipeline
  Spec.ProgramSem Spec.AttrSpec
  Proofs.OutBasics Proofs.CausalityProofs Proofs.TranslateStruct Proofs.PipelineProofs Proofs.ProgramProofs Proofs.Attrs Proofs.DeclOrder.
Import ListNotations.
Local Open Scope string_scope.
Local Open Scope list_scope.

Lemma tc_decls_all : forall l g f ds, result (tc_decls g f l) = Some (true, ds) -> Forall (fun d => exists g f d', result (tc_one g f d) = Some d') l.
Proof.
  induction l as [|d l IH]; intros g f ds H; constructor; rewrite tc_decls_one in H; apply obind_some in H; destruct H as (r & E & H);
    apply obind_some in H; destruct H as ((g', f') & _ & H); apply obind_some in H; destruct H as ((ok, ds') & T & H); inversion H as [[A B]];
    apply andb_true_iff in A; destruct A as [A ->].
  - apply attempt_some in E. destruct r as [d'|]; [|discriminate]. eauto.
  - eapply IH; eauto.
Qed.
Lemma executable_empty : forall b i o u, result (tc_executable b i o) = Some u -> b = true -> i = [] /\ o = [].
Proof. intros b i o u H ->. destruct i, o; cbn in H; try discriminate. auto. Qed.
Lemma latest_in : forall {A} (l : list A) a, In a l -> latest l <> None.
Proof. induction l as [|x l IH]; intros a J; [destruct J|]. destruct l as [|y l]; [cbn; discriminate|]. cbn [latest]. apply (IH y). cbn. auto. Qed.
Lemma empty_decls : forall l, tr_decls l = [] -> declared l = [].
Proof. intros l H. rewrite <- tr_decls_names, H. auto. Qed.

Theorem main_interface : forall p l a s x, result (pipeline p) = Some l -> In (a, s) p -> In x a -> a_action x = "main" \/ a_action x = "test" ->
  match s with
  | XNode sn => declared (s_inputs sn) = [] /\ declared (s_outputs sn) = []
  | XExtNode _ i o => declared i = [] /\ declared o = []
  | _ => False
  end.
Proof.
  intros p l a s x H J Jx Ax. unfold pipeline, tr_prog, analyse in H.
  apply obind_some in H. destruct H as (l0 & E0 & H). apply obind_some in H. destruct H as (l1 & E1 & H). apply obind_some in H. destruct H as (l2 & E2 & _).
  apply omap_result in E0. apply causality_some in E1. destruct E1 as (l1' & F1 & P & _). apply typecheck_true in E2. apply tc_decls_all in E2.
  destruct (forall2_in_l _ _ _ E0 _ J) as (d0 & J0 & T0). destruct (forall2_in_l _ _ _ F1 _ J0) as (d1 & J1 & T1).
  apply (Permutation_in _ (Permutation_sym P)) in J1. rewrite Forall_forall in E2. destruct (E2 _ J1) as (g & f & d' & T2).
  pose proof (tr_attributed _ _ T0) as (es & M & A & C). cbn [fst snd] in *.
  destruct (forall2_in_l _ _ _ M _ Jx) as (e & Je & Me). rewrite Forall_forall in A. specialize (A _ Je).
  assert (K : (exists n, In n (mains es)) \/ (exists n, In n (tests es)) /\ exists nd, s = XNode nd).
  { destruct Ax as [Ax|Ax]; inversion Me; subst; cbn in Ax; try discriminate Ax.
    - left. exists 100%Z. apply in_flat_map. exists (Main 100). cbn. auto.
    - left. exists n. apply in_flat_map. exists (Main n). cbn. auto.
    - right. split; [exists 100%Z; apply in_flat_map; exists (Test 100); cbn; auto|]. inversion A; subst; eauto.
    - right. split; [exists n; apply in_flat_map; exists (Test n); cbn; auto|]. inversion A; subst; eauto. }
  inversion C as [sn o nd O Nm|x0 t v o v' O|x0 t o O|x0 i o' o vi vo O]; subst.
  - cbn [decl_causality] in T1. destruct (node_causality nd) as [nd1|] eqn:Cn; inversion T1; subst. cbn [tc_one] in T2.
    apply obind_some in T2. destruct T2 as ((nd2, gens) & T2 & _). unfold tc_node in T2. apply obind_some in T2. destruct T2 as (u & T2 & _).
    apply executable_empty in T2.
    + unfold tr_attrdecl in T0. cbn [fst snd tr_decl] in T0. apply obind_some in T0. destruct T0 as (oo & _ & T0). apply obind_some in T0. destruct T0 as (o2 & _ & T0).
      apply obind_some in T0. destruct T0 as (nd0 & T0 & Ei). inversion Ei; subst. apply tr_node_translated in T0.
      unfold node_causality in Cn. destruct (schedule _ _ _ _ _ _ _ _); inversion Cn; subst. cbn in T2. destruct T2 as [I O'].
      rewrite (td_inputs _ _ _ T0) in I. rewrite (td_outputs _ _ _ T0) in O'. split; apply empty_decls; auto.
    + rewrite (no_main _ _ O), (no_test _ _ O). destruct K as [(n & K)|[(n & K) _]]; apply latest_in in K; destruct (latest _); try (exfalso; apply K; reflexivity); cbn; rewrite ?orb_true_r; auto.
  - inversion A; subst; inversion Me; subst; destruct Ax; discriminate.
  - inversion A; subst; inversion Me; subst; destruct Ax; discriminate.
  - cbn [decl_causality] in T1. inversion T1; subst. cbn [tc_one] in T2. apply obind_some in T2. destruct T2 as (u & T2 & _). unfold tc_ext_node in T2.
    apply obind_some in T2. destruct T2 as (u' & T2 & _). destruct K as [(n & K)|[_ (nd & K)]]; [|discriminate]. apply executable_empty in T2.
    + unfold tr_attrdecl in T0. cbn [fst snd tr_decl] in T0. apply obind_some in T0. destruct T0 as (oo & _ & T0). apply obind_some in T0. destruct T0 as (o2 & _ & T0).
      inversion T0; subst. destruct T2. split; apply empty_decls; auto.
    + rewrite (eo_main _ _ O). apply latest_in in K. destruct (latest _); [auto|exfalso; auto].
Qed.
