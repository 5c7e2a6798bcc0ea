(** The checks of constants and extern declarations. *)
From Coq Require Import String List ZArith Bool Arith Lia.
From Verif Require Import Model.Base Model.Scalar Model.Value Model.Ast Model.Errors Model.Interp Model.Options Model.Surface Model.Translate
  Model.Typecheck Spec.TypeSpec Spec.ProgramSem Spec.RangeSpec Spec.ClockSpec Spec.CrashSpec Spec.ConstSpec Spec.SourceCausal Spec.Static
  Proofs.AstInd Proofs.OutBasics Proofs.TranslateSem Proofs.ProgramProofs Proofs.Unify Proofs.CallTypes
  Proofs.StaticTypes Proofs.StaticStmts Proofs.StaticNode Proofs.Range.
Import ListNotations.

Lemma const_two : forall a b, result (l <~ attempt (is_const a);; r <~ attempt (is_const b);; _ <~ need l;; need r) = Some tt <->
  result (is_const a) = Some tt /\ result (is_const b) = Some tt.
Proof.
  intros a b. destruct (is_const a) as [[[]|] es ws|]; cbn; try (split; [discriminate|intros [? _]; discriminate]);
  destruct (is_const b) as [[[]|] es' ws'|]; cbn; split; try discriminate; auto; intros [? ?]; discriminate.
Qed.
Lemma const_three : forall a b c, result (is_const (EIf a b c)) = Some tt <->
  result (is_const a) = Some tt /\ result (is_const b) = Some tt /\ result (is_const c) = Some tt.
Proof.
  intros a b c. cbn [is_const]. destruct (is_const a) as [[[]|] es ws|]; cbn; try (split; [discriminate|intros (? & ? & ?); discriminate]);
  destruct (is_const b) as [[[]|] es' ws'|]; cbn; try (split; [discriminate|intros (? & ? & ?); discriminate]);
  destruct (is_const c) as [[[]|] es'' ws''|]; cbn; split; try discriminate; auto; intros (? & ? & ?); discriminate.
Qed.

Section Const.
  Variable locals : list ident.
  Definition folds (e : sexpr) : Prop := forall d s e' s', result (tr false locals e d s) = Some (e', s') ->
    (result (is_const e') = Some tt <-> constant_expr e) /\ (constant_expr e -> s' = s).

  Lemma folds_bins : forall l, Forall (fun p => folds (snd p)) l -> forall acc d s r s', result (tr_left (tr false locals) EBin acc l d s) = Some (r, s') ->
    (result (is_const r) = Some tt <-> result (is_const acc) = Some tt /\ all_of (fun p => constant_expr (snd p)) l) /\
    (all_of (fun p => constant_expr (snd p)) l -> s' = s).
  Proof.
    induction 1 as [|[op e] l H F IH]; intros acc d s r s' E; cbn in E; cbn [all_of].
    - inv_out. tauto.
    - apply obind_some in E. destruct E as ((e1, s1) & E1 & E). destruct (H _ _ _ _ E1) as [A B]. cbn [snd] in *. destruct (IH _ _ _ _ _ E) as [C D].
      split; [|intros [X Y]; rewrite (D Y); auto]. rewrite C. cbn [is_const]. rewrite const_two, A. tauto.
  Qed.
  Lemma clocks_not : forall l acc d s r s', result (tr_left (tr false locals) EClock acc l d s) = Some (r, s') -> result (is_const acc) <> Some tt -> result (is_const r) <> Some tt.
  Proof.
    induction l as [|[op e] l IH]; intros acc d s r s' E N; cbn in E; [inv_out; auto|].
    apply obind_some in E. destruct E as ((e1, s1) & E1 & E). eapply IH; eauto. discriminate.
  Qed.
  Lemma right_some : forall bump compose e l i d s o s', result (tr_right (tr false locals) bump compose i (e :: l) d s) = Some (o, s') -> o <> None.
  Proof.
    intros bump compose e l i d s o s' E. cbn in E. apply obind_some in E. destruct E as ((o1, s1) & _ & E). apply obind_some in E. destruct E as ((e1, s2) & _ & E).
    destruct o1; [destruct (compose _ _ _ _ _)|]; cbn in E; inversion E; discriminate.
  Qed.
End Const.

Lemma tr_folds : forall locals e, folds locals e.
Proof.
  intros locals. 
  assert (No : forall e' (s s' : tst) (P : Prop), result (is_const e') <> Some tt -> ~ P -> (result (is_const e') = Some tt <-> P) /\ (P -> s' = s)) by (intros; tauto).
  induction e using sexpr_ind'; intros d s e' s' E; cbn [tr] in E.
  - inv_out. destruct l; cbn [tr_lit] in E0; [destruct (in_i64 z)| | |]; inv_out; cbn; try tauto; discriminate.
  - inv_out. unfold tr_var. match goal with |- context [if ?c then _ else _] => destruct c end; cbn; tauto.
  - apply obind_some in E. destruct E as ((es, s1) & E1 & E). inv_out. destruct l as [|e [|e2 l]].
    + cbn in E1. inv_out. cbn. split; [split; [discriminate|tauto]|auto].
    + cbn in E1. apply obind_some in E1. destruct E1 as ((e1, s2) & E2 & E1). cbn in E1. inversion E1; subst. inversion H; subst. destruct b; [cbn; split; [split; [discriminate|tauto]|tauto]|]. apply (H2 _ _ _ _ E2).
    + assert (X : exists a b r, es = a :: b :: r).
      { cbn in E1. inv_out. do 3 eexists. reflexivity. }
      destruct X as (a & c & r & ->). cbn. split; [split; [discriminate|tauto]|tauto].
  - apply obind_some in E. destruct E as ((es, s1) & E1 & E). inv_out. cbn. split; [split; [discriminate|tauto]|tauto].
  - apply obind_some in E. destruct E as ((e1, s1) & E1 & E). inv_out. apply (IHe _ _ _ _ E1).
  - apply obind_some in E. destruct E as ((e1, s1) & E1 & E). inv_out. apply (IHe _ _ _ _ E1).
  - apply obind_some in E. destruct E as ((e1, s1) & E1 & E). inv_out. cbn. split; [split; [discriminate|tauto]|tauto].
  - apply obind_some in E. destruct E as ((a, s1) & E1 & E). apply obind_some in E. destruct E as ((b, s2) & E2 & E). apply obind_some in E. destruct E as ((c, s3) & E3 & E). inv_out.
    rewrite const_three. destruct (IHe1 _ _ _ _ E1) as [A1 B1]. destruct (IHe2 _ _ _ _ E2) as [A2 B2]. destruct (IHe3 _ _ _ _ E3) as [A3 B3].
    rewrite A1, A2, A3. cbn [constant_expr]. split; [tauto|]. intros (X & Y & Z). rewrite B3, B2, B1; auto.
  - apply obind_some in E. destruct E as ((a, s1) & E1 & E). apply obind_some in E. destruct E as ((b, s2) & E2 & E). apply obind_some in E. destruct E as ((c, s3) & E3 & E). inv_out.
    cbn. split; [split; [discriminate|tauto]|tauto].
  - apply obind_some in E. destruct E as ((e1, s1) & E1 & E). destruct (IHe _ _ _ _ E1) as [A B]. destruct (folds_bins _ _ H _ _ _ _ _ E) as [C D].
    cbn [constant_expr]. rewrite C, A. split; [tauto|]. intros [X Y]. rewrite D, B; auto.
  - apply obind_some in E. destruct E as ((e1, s1) & E1 & E). destruct (IHe _ _ _ _ E1) as [A B]. destruct l as [|[op e2] [|[op2 e3] l]].
    + inv_out. cbn. rewrite A. tauto.
    + apply obind_some in E. destruct E as ((e2', s2) & E2 & E). inv_out. inversion H; subst. cbn [snd] in *. destruct (H2 _ _ _ _ E2) as [A2 B2].
      cbn [constant_expr all_of is_const snd]. rewrite const_two, A, A2. split; [tauto|]. intros (X & Y & _). rewrite B2, B; auto.
    + apply obind_some in E. destruct E as ((e2', s2) & _ & E). apply obind_some in E. destruct E as ((e3', s3) & _ & E). discriminate.
  - apply obind_some in E. destruct E as ((e1, s1) & E1 & E). destruct (IHe _ _ _ _ E1) as [A B]. destruct l as [|[op e2] l]; [cbn in E; inv_out; auto|].
    cbn in E. apply obind_some in E. destruct E as ((e2', s2) & E2 & E). apply No; [|cbn; auto]. eapply clocks_not; eauto. discriminate.
  - cbv zeta in E. apply obind_some in E. destruct E as ((o, s1) & E1 & E). apply obind_some in E. destruct E as ((e1, s2) & E2 & E).
    destruct l as [|e2 l]; [cbn in E1; inv_out; apply (IHe _ _ _ _ E2)|]. apply right_some in E1. destruct o; [|congruence]. cbn in E. inv_out.
    apply No; [cbn; discriminate|cbn; auto].
  - cbv zeta in E. apply obind_some in E. destruct E as ((o, s1) & E1 & E). apply obind_some in E. destruct E as ((e1, s2) & E2 & E).
    destruct l as [|e2 l]; [cbn in E1; inv_out; apply (IHe _ _ _ _ E2)|]. apply right_some in E1. destruct o; [|congruence]. cbn in E. inv_out.
    apply No; [cbn; discriminate|cbn; auto].
Qed.

Lemma bounded_tr : forall u locals e d s r, result (tr u locals e d s) = Some r -> bounded e.
Proof.
  intros u locals e d s r E z I. assert (L : in_i64 z = true) by (eapply tr_small; eauto). unfold in_i64, i64_min, i64_max in L. lia.
Qed.

Lemma const_fits : forall gl consts t e, (forall x, lookup x gl = consts x) ->
  forall e' s', result (tr false [] e 0 tst0) = Some (e', s') ->
  (exists u, result (tc_const gl t e') = Some u) <-> constant_expr e /\ typed (fun _ => None) consts (fun _ => None) e (TSingle t).
Proof.
  intros gl consts t e Hg e' s' E. destruct (tr_folds [] e _ _ _ _ E) as [F S]. unfold tc_const.
  assert (K : constant_expr e -> infers (mkTctx gl [] []) e' (typed (fun _ => None) consts (fun _ => None) e)).
  { intros C. eapply (tr_fit (mkTctx gl [] []) false [] (fun _ => None) consts (fun _ => None)); eauto.
    - intros x [].
    - rewrite (S C). intros i f N. destruct i; discriminate. }
  split.
  - intros (u & H). apply obind_some in H. destruct H as ([] & H1 & H). apply F in H1. split; auto. prims. apply (K H1 tyst0). eauto.
  - intros [C T]. apply (K C tyst0) in T. destruct T as (y & T). apply F in C. rewrite (obind_ok _ _ _ C), (obind_ok _ _ _ T), (obind_ok _ _ _ (identical_refl _)). cbn. eauto.
Qed.
Lemma ext_node_fits : forall o i o', (exists u, result (tc_ext_node o (tr_decls i) (tr_decls o')) = Some u) <->
  runnable (is_set (oe_main o) = true) i o' /\ well_parametrised (oe_generics o) i o' /\ well_declared (i ++ o').
Proof.
  intros o i o'. unfold tc_ext_node. destruct (declared_fits (i ++ o')) as (ok & Ev & Hv). unfold tr_decls in Ev. rewrite flat_map_app in Ev. fold (tr_decls i) (tr_decls o') in Ev.
  rewrite <- executable_fits, <- generics_fits, <- Hv. split.
  - intros (u & H). apply obind_some in H. destruct H as (u1 & H1 & H). apply obind_some in H. destruct H as (u2 & H2 & H).
    apply obind_some in H. destruct H as ((ok', vars') & H3 & H). split; [eauto|]. split; [eauto|]. assert (X : ok' = ok) by congruence. subst. destruct ok; [auto|discriminate].
  - intros ((u1 & H1) & (u2 & H2) & ->). rewrite (obind_ok _ _ _ H1), (obind_ok _ _ _ H2), (obind_ok _ _ _ Ev). cbn. eauto.
Qed.
