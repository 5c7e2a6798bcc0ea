(** The order of declarations: acceptance and code. *)
From Coq Require Import String List ZArith Bool Arith Lia Permutation.
From Verif Require Import Model.Base Model.Scalar Model.Value Model.Ast Model.Errors Model.Interp Model.Options Model.Surface Model.Translate
  Model.Graph Model.Causality Model.Typecheck Model.Clockcheck Model.Positivity Model.Pipeline
  Spec.TranslateSpec Spec.GraphSpec
  Proofs.OutBasics Proofs.AstInd Proofs.CausalityProofs Proofs.CoreProofs Proofs.TranslateStruct Proofs.NodeWf Proofs.PipelineProofs Proofs.TypePipeline Proofs.UniProgram.
Import ListNotations.

(** ** Lists *)
Lemma omap_result : forall {A B} (f : A -> out B) l l', result (omap f l) = Some l' <-> Forall2 (fun a b => result (f a) = Some b) l l'.
Proof.
  intros A B f l l'. split; [apply omap_some|]. induction 1 as [|a b l l' E F IH]; cbn [omap]; auto.
  destruct (f a) as [[b'|] es ws|]; cbn in *; try discriminate. inversion E; subst.
  destruct (omap f l) as [[l2|] es' ws'|]; cbn in *; try discriminate. inversion IH; subst. reflexivity.
Qed.
Lemma Forall2_weaken : forall {A B} (R R' : A -> B -> Prop), (forall a b, R a b -> R' a b) -> forall l m, Forall2 R l m -> Forall2 R' l m.
Proof. intros A B R R' H l m F. induction F; constructor; auto. Qed.
Lemma Forall2_functional : forall {A B} (R : A -> B -> Prop), (forall a b b', R a b -> R a b' -> b = b') ->
  forall l m m', Forall2 R l m -> Forall2 R l m' -> m = m'.
Proof. intros A B R F l m m' H. revert m'. induction H; intros m' H'; inversion H'; subst; auto. f_equal; eauto. Qed.
Lemma Forall2_permuted : forall {A B} (R : A -> B -> Prop), (forall a b b', R a b -> R a b' -> b = b') ->
  forall l l' m m', Permutation l l' -> Forall2 R l m -> Forall2 R l' m' -> Permutation m m'.
Proof.
  intros A B R Fn l l' m m' P H H'. destruct (Permutation_Forall2 P H) as (m2 & P2 & H2).
  rewrite <- (Forall2_functional R Fn _ _ _ H2 H'). auto.
Qed.

(** ** Scheduling *)
Section Sched.
  Context {Obj Unit : Type}.
  Variables provides requires : Obj -> list Unit.
  Lemma acyclic_perm : forall l l', Permutation l l' -> acyclic provides requires l -> acyclic provides requires l'.
  Proof.
    intros l l' P A. apply Permutation_nth_error in P. destruct P as (_ & f & _ & E).
    assert (D : forall i j, depends_on provides requires l' i j -> depends_on provides requires l (f i) (f j)).
    { intros i j (a & b & u & Ha & Hb & Hu). exists a, b, u. rewrite <- !E. auto. }
    assert (Dp : forall i j, depends_plus provides requires l' i j -> depends_plus provides requires l (f i) (f j)).
    { induction 1; [apply dp_one; auto|eapply dp_more; eauto]. }
    intros i H. apply (A (f i)). auto.
  Qed.
  Lemma single_perm : forall l l' ext, Permutation l l' -> single_assignment provides l ext -> single_assignment provides l' ext.
  Proof.
    intros l l' ext P [N E]. assert (Q : Permutation (flat_map provides l) (flat_map provides l')) by (apply Permutation_flat_map; auto).
    split; [eapply Permutation_NoDup; eauto|]. intros u J K. apply (E u J). eapply Permutation_in; [apply Permutation_sym, Q|auto].
  Qed.
  Lemma complete_perm : forall l l' must, Permutation l l' -> complete provides l must -> complete provides l' must.
  Proof.
    intros l l' must P C u J. eapply Permutation_in; [apply Permutation_flat_map, P|]. apply C. auto.
  Qed.
  Variable eqb : Unit -> Unit -> bool.
  Hypothesis eqb_spec : forall a b, eqb a b = true <-> a = b.
  Lemma schedule_permuted : forall ext must l l' out, Permutation l l' -> schedule Obj Unit eqb provides requires ext l must = inl out ->
    exists out', schedule Obj Unit eqb provides requires ext l' must = inl out' /\ Permutation out out'.
  Proof.
    intros ext must l l' out P H. assert (X : exists o, schedule Obj Unit eqb provides requires ext l must = inl o) by eauto.
    apply (schedule_iff eqb eqb_spec) in X. destruct X as (S & C & A).
    assert (X : exists o, schedule Obj Unit eqb provides requires ext l' must = inl o).
    { apply (schedule_iff eqb eqb_spec). split; [eapply single_perm; eauto|]. split; [eapply complete_perm; eauto|eapply acyclic_perm; eauto]. }
    destruct X as (out' & E'). exists out'. split; auto. apply (schedule_perm eqb eqb_spec) in H. apply (schedule_perm eqb eqb_spec) in E'.
    destruct H as [H _], E' as [E' _]. rewrite H, E'. auto.
  Qed.
End Sched.

Lemma decls_causality_iff : forall l l', decls_causality l = inl l' <-> Forall2 (fun d d' => decl_causality d = inl d') l l'.
Proof.
  intros l l'. split; [apply decls_causality_some|]. induction 1 as [|d d' l l' E F IH]; cbn; auto. rewrite E, IH. auto.
Qed.

(** ** Types *)
Lemma tc_ext : forall c c', c_vars c = c_vars c' -> c_blocks c = c_blocks c' ->
  forall e, (forall x, occurs (EGlobal x) e -> lookup x (c_global c) = lookup x (c_global c')) -> forall s, tc c e s = tc c' e s.
Proof.
  intros c c' Ev Eb. induction e using expr_ind'; intros G s0;
    (assert (Gc : forall a, In a (TranslateSpec.children _) -> forall x, occurs (EGlobal x) a -> lookup x (c_global c) = lookup x (c_global c'))
      by (let J := fresh in let O := fresh in intros ? J ? O; apply G; eapply occ_child; [exact J|exact O]));
    cbn [TranslateSpec.children] in Gc; cbn [tc].
  - reflexivity.
  - rewrite Ev. reflexivity.
  - rewrite G by constructor. reflexivity.
  - assert (E : tcs c l s0 = tcs c' l s0); [|fold (tcs c) (tcs c'); rewrite E; reflexivity].
    clear G. revert s0. induction H as [|e l He H IHl]; intros s0; cbn [tcs]; auto. rewrite He by (apply Gc; cbn; auto).
    destruct (tc c' e s0) as [[[t s1]|] es ws|]; cbn; auto. rewrite IHl by (intros a J; apply Gc; cbn; auto). reflexivity.
  - apply IHe, Gc. cbn. auto.
  - apply IHe, Gc. cbn. auto.
  - rewrite IHe1 by (apply Gc; cbn; auto). destruct (attempt (primitive (tc c' e1 s0))) as [[r|] es ws|]; cbn; auto.
    rewrite IHe2 by (apply Gc; cbn; auto). reflexivity.
  - rewrite IHe by (apply Gc; cbn; auto). reflexivity.
  - rewrite IHe1 by (apply Gc; cbn; auto). destruct (attempt (primitive (tc c' e1 s0))) as [[r|] es ws|]; cbn; auto.
    rewrite IHe2 by (apply Gc; cbn; auto). reflexivity.
  - rewrite IHe2 by (apply Gc; cbn; auto). destruct (attempt (primitive (tc c' e2 s0))) as [[r|] es ws|]; cbn; auto.
    rewrite IHe1 by (apply Gc; cbn; auto). reflexivity.
  - rewrite IHe1 by (apply Gc; cbn; auto). destruct (attempt (tc c' e1 s0)) as [[r|] es ws|]; cbn; auto.
    rewrite IHe2 by (apply Gc; cbn; auto). reflexivity.
  - rewrite IHe by (apply Gc; cbn; apply in_app_iff; cbn; auto). destruct (tc c' e s0) as [[[t s1]|] es ws|]; cbn; auto.
    destruct i as [i|]; auto. cbn in H. rewrite H by (apply Gc; cbn; auto). reflexivity.
  - rewrite IHe1 by (apply Gc; cbn; auto). destruct (attempt (tc c' e1 s0)) as [[r|] es ws|]; cbn; auto.
    rewrite IHe2 by (apply Gc; cbn; auto). reflexivity.
  - rewrite IHe1 by (apply Gc; cbn; auto). destruct (attempt (primitive (tc c' e1 s0))) as [[r|] es ws|]; cbn; auto.
    rewrite IHe2 by (apply Gc; cbn; auto). destruct (attempt (tc c' e2 _)) as [[r'|] es' ws'|]; cbn; auto.
    rewrite IHe3 by (apply Gc; cbn; auto). reflexivity.
  - rewrite IHe1 by (apply Gc; cbn; auto). destruct (tc c' e1 s0) as [[[t s1]|] es ws|]; cbn; auto.
    rewrite IHe2 by (apply Gc; cbn; auto). destruct (tc c' e2 s1) as [[[t' s2]|] es' ws'|]; cbn; auto.
    rewrite IHe3 by (apply Gc; cbn; auto). reflexivity.
  - rewrite Eb, IHe by (apply Gc; cbn; auto). reflexivity.
Qed.

Lemma tc_target_ext : forall c c', c_vars c = c_vars c' -> forall t, tc_target c t = tc_target c' t.
Proof.
  intros c c' E. induction t using vartuple_ind'; cbn [tc_target]; [rewrite E; auto|].
  assert (X : omap (tc_target c) l = omap (tc_target c') l) by (induction H; cbn; auto; rewrite H, IHForall; auto). rewrite X. auto.
Qed.
Definition stmt_checked (i : stmt) : list expr := match i with SLet _ e | SAssert e => [e] | _ => [] end.
Lemma tc_stmt_ext : forall c c' i, c_vars c = c_vars c' -> c_blocks c = c_blocks c' ->
  (forall x e, In e (stmt_checked i) -> occurs (EGlobal x) e -> lookup x (c_global c) = lookup x (c_global c')) -> forall s, tc_stmt c i s = tc_stmt c' i s.
Proof.
  intros c c' [t e|e|id v k|id e] Ev Eb G s; cbn [tc_stmt]; auto; rewrite (tc_ext c c' Ev Eb) by (intros; apply (G _ e); cbn; auto); auto.
  rewrite (tc_target_ext c c' Ev). reflexivity.
Qed.
Lemma tc_stmts_ext : forall c c' l, c_vars c = c_vars c' -> c_blocks c = c_blocks c' ->
  (forall x e, In e (flat_map stmt_checked l) -> occurs (EGlobal x) e -> lookup x (c_global c) = lookup x (c_global c')) -> forall s, tc_stmts c l s = tc_stmts c' l s.
Proof.
  intros c c' l Ev Eb. induction l as [|i l IH]; intros G s; cbn [tc_stmts]; auto.
  rewrite (tc_stmt_ext c c' i Ev Eb) by (intros; eapply G; eauto; cbn; apply in_app_iff; auto).
  assert (IH' : forall s, tc_stmts c l s = tc_stmts c' l s) by (apply IH; intros; eapply G; eauto; cbn; apply in_app_iff; auto).
  destruct (attempt (tc_stmt c' i s)) as [[[s'|]|] es ws|]; cbn; auto; rewrite IH'; auto.
Qed.
Lemma tc_blocks_ext : forall f f' l, (forall g, In g l -> lookup g f = lookup g f') -> tc_blocks f l = tc_blocks f' l.
Proof.
  intros f f'. induction l as [|g l IH]; intros H; cbn [tc_blocks]; auto. rewrite H, IH by (intros; try apply H; cbn; auto). auto.
Qed.

Definition tc_one (g : list (ident * base)) (f : list (ident * fsig)) (d : decl) : out decl :=
  match d with
  | DConst o x t e => _ <~ tc_const g t e;; done d
  | DNode o nd => '(nd, _) <~ tc_node g f o nd;; done (DNode o nd)
  | DExtConst o x t => done d
  | DExtNode o x i o' => _ <~ tc_ext_node o i o';; done d
  end.
Lemma tc_node_ext : forall g g' f f' o nd,
  (forall x e, In e (flat_map stmt_checked (n_stmts nd)) -> occurs (EGlobal x) e -> lookup x g = lookup x g') ->
  (forall h, In h (n_blocks nd) -> lookup h f = lookup h f') -> tc_node g f o nd = tc_node g' f' o nd.
Proof.
  intros g g' f f' o nd Hg Hf. unfold tc_node. rewrite (tc_blocks_ext f f') by auto.
  destruct (tc_executable _ _ _) as [[u|] es ws|]; cbn; auto. destruct (tc_generics _ _ _) as [[u1|] es1 ws1|]; cbn; auto.
  destruct (tc_vars _ _) as [[[ok vars]|] es2 ws2|]; cbn; auto. destruct (scope_close ok) as [[u2|] es3 ws3|]; cbn; auto.
  destruct (tc_blocks f' (n_blocks nd)) as [[bl|] es4 ws4|]; cbn; auto.
  rewrite (tc_stmts_ext (mkTctx g vars bl) (mkTctx g' vars bl)); auto.
Qed.
Lemma tc_const_ext : forall g g' t e, (forall x, In (RGlobal x) (expr_requires e) -> lookup x g = lookup x g') -> tc_const g t e = tc_const g' t e.
Proof.
  intros g g' t e H. unfold tc_const. destruct (is_const e) as [[u|] es ws|] eqn:E; cbn; auto.
  assert (C : result (is_const e) = Some u) by (rewrite E; reflexivity). clear E.
  assert (O : forall x, occurs (EGlobal x) e -> In (RGlobal x) (expr_requires e)).
  { clear -C. revert u C. induction e using expr_ind'; intros u C y O; cbn [is_const] in C; try discriminate C; inversion O as [|? ? J O']; subst; cbn [TranslateSpec.children In] in *; cbn [expr_requires];
      try (destruct J; fail); try (cbn; auto; fail); inv_out; rewrite ?in_app_iff.
    all: repeat destruct J as [<-|J]; try destruct J; subst; eauto 6. }
  rewrite (tc_ext (mkTctx g [] []) (mkTctx g' [] [])); auto.
Qed.

Definition fun_of (d : decl) : list (ident * fsig) :=
  match d with DNode o nd => [(n_name nd, node_sig o nd)] | DExtNode o x i o' => [(x, ext_sig o i o')] | _ => [] end.
Definition consts (l : list decl) : list (ident * base) := rev (flat_map const_of l).
Definition funs (l : list decl) : list (ident * fsig) := rev (flat_map fun_of l).

Lemma const_provided : forall l x b, In (x, b) (flat_map const_of l) -> In (RGlobal x) (flat_map decl_provides l).
Proof.
  intros l x t I. apply in_flat_map in I. destruct I as (d & I & J). apply in_flat_map. exists d. split; auto.
  destruct d; cbn in *; try tauto; destruct J as [J|[]]; inversion J; auto.
Qed.
Lemma fun_provided : forall l x b, In (x, b) (flat_map fun_of l) -> In (RFun x) (flat_map decl_provides l).
Proof.
  intros l x t I. apply in_flat_map in I. destruct I as (d & I & J). apply in_flat_map. exists d. split; auto.
  destruct d; cbn in *; try tauto; destruct J as [J|[]]; inversion J; auto.
Qed.
Lemma lookup_missing : forall {A} x (l : list (ident * A)), (forall a, ~ In (x, a) l) -> lookup x l = None.
Proof.
  intros A x l H. destruct (lookup x l) eqn:E; auto. apply lookup_found in E. exfalso. eapply H; eauto.
Qed.
Lemma lookup_skip : forall {A} x (a b : list (ident * A)), (forall y, ~ In (x, y) b) -> lookup x (rev (a ++ b)) = lookup x (rev a).
Proof.
  intros A x a b H. rewrite rev_app_distr. assert (N : forall y, ~ In (x, y) (rev b)) by (intros y J; apply in_rev in J; eapply H; eauto).
  clear H. induction (rev b) as [|[z w] l IH]; cbn; auto. destruct (String.eqb_spec x z); [subst; exfalso; eapply N; cbn; eauto|]. apply IH.
  intros y J. apply (N y). cbn. auto.
Qed.

Definition sorted (l : list decl) : Prop :=
  forall a d b, l = a ++ d :: b -> forall u, In u (decl_requires d) -> ~ In u (flat_map decl_provides (d :: b)).
Definition deep (d : decl) : Prop :=
  match d with
  | DNode _ nd => forall x e, In e (flat_map stmt_checked (n_stmts nd)) -> occurs (EGlobal x) e -> In (RGlobal x) (decl_requires d)
  | _ => True
  end.

Lemma tc_one_ext : forall g g' f f' d, deep d ->
  (forall x, In (RGlobal x) (decl_requires d) -> lookup x g = lookup x g') ->
  (forall x, In (RFun x) (decl_requires d) -> lookup x f = lookup x f') -> tc_one g f d = tc_one g' f' d.
Proof.
  intros g g' f f' [o x t e|o nd|o x t|o x i o'] D G F; cbn [tc_one]; auto.
  - rewrite (tc_const_ext g g'); auto.
  - rewrite (tc_node_ext g g' f f'); auto.
    + intros x e J O. apply G. eapply D; eauto.
    + intros h J. apply F. cbn. apply in_app_iff. left. apply in_map. auto.
Qed.
Lemma tc_one_same : forall g g' f f' d, (forall x, lookup x g = lookup x g') -> (forall x, lookup x f = lookup x f') -> tc_one g f d = tc_one g' f' d.
Proof.
  intros g g' f f' [o x t e|o nd|o x t|o x i o'] G F; cbn [tc_one]; auto; [rewrite (tc_const_ext g g')|rewrite (tc_node_ext g g' f f')]; auto.
Qed.
Lemma context_ext : forall a d b, sorted (a ++ d :: b) -> deep d ->
  tc_one (consts a) (funs a) d = tc_one (consts (a ++ d :: b)) (funs (a ++ d :: b)) d.
Proof.
  intros a d b S D. unfold consts, funs. rewrite !flat_map_app. apply tc_one_ext; auto; intros x J; symmetry; apply lookup_skip; intros y K.
  - apply const_provided in K. eapply S; eauto.
  - apply fun_provided in K. eapply S; eauto.
Qed.

Lemma tc_decls_one : forall g f d l, tc_decls g f (d :: l) =
  (r <~ attempt (tc_one g f d);;
   '(g', f') <~ match d with
        | DConst _ x t _ | DExtConst _ x t => match lookup x g with Some _ => Abort | None => done ((x, t) :: g, f) end
        | DNode o nd => match lookup (n_name nd) f with Some _ => Abort | None => done (g, (n_name nd, node_sig o nd) :: f) end
        | DExtNode o x i o' => match lookup x f with Some _ => Abort | None => done (g, (x, ext_sig o i o') :: f) end
        end;;
   '(ok, ds) <~ tc_decls g' f' l;;
   done (is_set r && ok, (match r with Some d => d | None => d end) :: ds)).
Proof. reflexivity. Qed.

Lemma tc_sorted : forall l pre ds, NoDup (flat_map decl_provides (pre ++ l)) -> sorted (pre ++ l) -> (forall d, In d l -> deep d) ->
  result (tc_decls (consts pre) (funs pre) l) = Some (true, ds) <->
  Forall2 (fun d d' => result (tc_one (consts (pre ++ l)) (funs (pre ++ l)) d) = Some d') l ds.
Proof.
  induction l as [|d l IH]; intros pre ds N S D.
  - cbn. split; [intros H; inversion H; constructor|intros H; inversion H; auto].
  - rewrite tc_decls_one, (context_ext pre d l S) by (apply D; cbn; auto).
    assert (E : pre ++ d :: l = (pre ++ [d]) ++ l) by (rewrite <- app_assoc; reflexivity).
    specialize (IH (pre ++ [d])). rewrite <- E in IH.
    assert (Nx : forall u, In u (decl_provides d) -> ~ In u (flat_map decl_provides pre)).
    { intros u J K. rewrite flat_map_app in N. apply NoDup_app_remove_r in N || idtac. revert N K. cbn [flat_map]. clear -J.
      induction (flat_map decl_provides pre) as [|v m IHm]; intros N K; [destruct K|]. inversion N; subst. destruct K as [->|K]; auto.
      apply H1. rewrite !in_app_iff. auto. }
    assert (X : match d with
        | DConst _ x t _ | DExtConst _ x t => match lookup x (consts pre) with Some _ => Abort | None => done ((x, t) :: consts pre, funs pre) end
        | DNode o nd => match lookup (n_name nd) (funs pre) with Some _ => Abort | None => done (consts pre, (n_name nd, node_sig o nd) :: funs pre) end
        | DExtNode o x i o' => match lookup x (funs pre) with Some _ => Abort | None => done (consts pre, (x, ext_sig o i o') :: funs pre) end
        end = done (consts (pre ++ [d]), funs (pre ++ [d]))).
    { unfold consts, funs. rewrite !flat_map_app, !rev_app_distr. destruct d; cbn [const_of fun_of flat_map rev app] in *; cbn [decl_provides In] in Nx;
        rewrite lookup_missing; auto; intros y K; apply in_rev in K.
      - apply const_provided in K. eapply Nx; eauto.
      - apply fun_provided in K. eapply Nx; eauto.
      - apply const_provided in K. eapply Nx; eauto.
      - apply fun_provided in K. eapply Nx; eauto. }
    rewrite X. clear X. split.
    + intros H. apply obind_some in H. destruct H as (r & E1 & H). apply attempt_some in E1. cbn [obind done] in H.
      destruct (tc_decls (consts (pre ++ [d])) (funs (pre ++ [d])) l) as [[[ok ds']|] es ws|] eqn:T; cbn in H; try discriminate.
      inversion H. destruct r as [d'|]; [|discriminate]. cbn in *. subst ok ds. constructor; [auto|]. apply IH; auto.
    + intros H. inversion H as [|? d' ? ds' E1 F0]; subst. assert (Dl : forall d, In d l -> deep d) by (intros; apply D; cbn; auto).
      pose proof (proj2 (IH ds' N S Dl) F0) as F.
      destruct (tc_one _ _ d) as [[d2|] es ws|]; cbn in E1; try discriminate. inversion E1; subst. cbn.
      destruct (tc_decls (consts (pre ++ [d])) (funs (pre ++ [d])) l) as [[[ok ds2]|] es' ws'|]; cbn in *; try discriminate. inversion F; subst. reflexivity.
Qed.

(** ** The passes *)
Lemma schedule_sorted : forall l l', schedule decl reference reference_eqb decl_provides decl_requires [] l [] = inl l' ->
  sorted l' /\ NoDup (flat_map decl_provides l').
Proof.
  intros l l' H. split.
  - intros a d b E u R J. apply in_flat_map in J. destruct J as (d' & J & P). apply In_nth_error in J. destruct J as (k & J).
    assert (L : length a + k < length a).
    { eapply (schedule_before _ reference_eqb_spec _ _ _ _ _ _ H (length a) d u); eauto.
      - rewrite E, nth_error_app2, Nat.sub_diag by lia. reflexivity.
      - rewrite E, nth_error_app2 by lia. replace (length a + k - length a) with k by lia. exact J. }
    lia.
  - assert (X : exists out, schedule decl reference reference_eqb decl_provides decl_requires [] l [] = inl out) by eauto.
    apply (schedule_iff _ reference_eqb_spec) in X. destruct X as ([ND _] & _).
    apply (schedule_perm _ reference_eqb_spec) in H. destruct H as [P _].
    eapply Permutation_NoDup; [|exact ND]. apply Permutation_sym, Permutation_flat_map. auto.
Qed.

Lemma node_globals : forall u sn nd0, translated u sn nd0 ->
  forall s e x, In s (n_stmts nd0) -> In e (stmt_exprs s) -> occurs (EGlobal x) e ->
  In (RGlobal x) (flat_map stmt_requires (n_stmts nd0)).
Proof.
  intros u sn nd0 T s e x Js Je O. set (R := flat_map stmt_requires (n_stmts nd0)).
  assert (A : forall s, In s (n_stmts nd0) -> incl (stmt_requires s) R) by (intros s0 J y K; apply in_flat_map; eauto).
  assert (K : forall e, occurs (EGlobal x) e -> read_ok nd0 e -> incl (expr_requires e) R -> In (RGlobal x) R).
  { clear s e Js Je O. intros e O. induction O as [|e c J O IH]; intros Ro I; [apply I; cbn; auto|].
    apply IH; [eapply read_child; eauto|]. destruct e; cbn [TranslateSpec.children] in J; try (destruct J; fail); intros y Y;
      try (apply I; cbn [expr_requires]; cbn [In] in J; repeat destruct J as [<-|J]; try destruct J; rewrite ?in_app_iff; auto; fail).
    - apply I. cbn [expr_requires]. apply in_flat_map. eauto.
    - destruct (Ro id init e) as [U Z]; [cbn; auto|]. apply in_app_iff in J. destruct J as [J|[<-|[]]].
      + destruct init as [i|]; [|destruct J]. destruct J as [<-|[]]. apply (A _ Z). cbn. auto.
      + apply (A _ U). cbn. auto. }
  apply (K e); auto; [eapply read_stmt; eauto|]. intros y Y. apply (A s Js).
  destruct s as [t a|a|id v k|id a]; cbn [stmt_exprs In] in Je; try (destruct Je as [<-|[]]; cbn; auto; fail).
  apply in_app_iff in Je. destruct k as [k|]; [|destruct Je as [[]|Je]; destruct v as [v|]; [destruct Je as [<-|[]]; exact Y|destruct Je]].
  exfalso. pose proof (translated_init_none _ _ _ T _ _ _ Js) as X. discriminate X.
Qed.

Lemma accepted_deep : forall a d0 d, result (tr_attrdecl a) = Some d0 -> decl_causality d0 = inl d -> deep d.
Proof.
  intros [at_ sd] d0 d H D. destruct d as [|o nd| |]; cbn [deep]; auto. intros x e J O.
  destruct d0 as [|o0 nd0| |]; cbn [decl_causality] in D; try discriminate D.
  destruct (node_causality nd0) as [nd1|] eqn:N; inversion D; subst. apply node_stmts_perm in N. destruct N as [Pm En].
  unfold tr_attrdecl in H. cbn [fst snd] in H. apply obind_some in H. destruct H as (od & _ & H).
  destruct sd as [y t e'|sn|y t|y i o']; cbn [tr_decl] in H; apply obind_some in H; destruct H as (oo & _ & H); try (inversion H; fail).
  - apply obind_some in H. destruct H as ((e2, s) & E & H). destruct (t_stmts s), (t_blocks s); discriminate.
  - apply obind_some in H. destruct H as (nd2 & E & H). inversion H; subst. apply tr_node_translated in E.
    apply in_flat_map in J. destruct J as (s & Js & Je). cbn [decl_requires]. apply in_app_iff. right.
    eapply Permutation_in; [apply Permutation_flat_map, Permutation_sym, Pm|].
    eapply node_globals; eauto; [eapply Permutation_in; eauto|]. destruct s; cbn in *; auto; destruct Je.
Qed.

(** Context of a permuted list of declarations. *)
Lemma lookup_perm : forall {A} (l l' : list (ident * A)) x, Permutation l l' -> (forall y a b, In (y, a) l -> In (y, b) l -> a = b) -> lookup x l = lookup x l'.
Proof.
  intros A l l' x P U. destruct (lookup x l) eqn:E.
  - apply lookup_found in E. symmetry. apply lookup_unique; [eapply Permutation_in; eauto|]. intros t' J. eapply U; [|exact E].
    eapply Permutation_in; [apply Permutation_sym, P|exact J].
  - symmetry. apply lookup_missing. intros a J. apply (Permutation_in _ (Permutation_sym P)) in J.
    rewrite (lookup_unique l x a J) in E; [discriminate|]. intros t' K. eapply U; eauto.
Qed.
Lemma provided_funs : forall l x t t', NoDup (flat_map decl_provides l) ->
  In (x, t) (flat_map fun_of l) -> In (x, t') (flat_map fun_of l) -> t = t'.
Proof.
  induction l as [|d l IH]; intros x t t' N I J; cbn [flat_map] in *; [destruct I|].
  apply in_app_iff in I. apply in_app_iff in J. 
  assert (N' : NoDup (flat_map decl_provides l)) by (destruct d; cbn in N; inversion N; auto).
  assert (D : forall t, In (x, t) (fun_of d) -> ~ In (RFun x) (flat_map decl_provides l)).
  { intros s K. destruct d; cbn in *; try tauto; destruct K as [K|[]]; inversion K; subst; inversion N; auto. }
  destruct I as [I|I], J as [J|J]; eauto.
  - destruct d; cbn in *; try tauto; destruct I as [I|[]], J as [J|[]]; congruence.
  - exfalso. apply (D _ I). eapply fun_provided; eauto.
  - exfalso. apply (D _ J). eapply fun_provided; eauto.
Qed.
Lemma context_perm : forall l l', Permutation l l' -> NoDup (flat_map decl_provides l) ->
  (forall x, lookup x (consts l) = lookup x (consts l')) /\ (forall x, lookup x (funs l) = lookup x (funs l')).
Proof.
  intros l l' P N. unfold consts, funs. split; intros x; apply lookup_perm.
  - rewrite <- !Permutation_rev. apply Permutation_flat_map. auto.
  - intros y a b I J. apply in_rev in I. apply in_rev in J. eapply provided_consts; eauto.
  - rewrite <- !Permutation_rev. apply Permutation_flat_map. auto.
  - intros y a b I J. apply in_rev in I. apply in_rev in J. eapply provided_funs; eauto.
Qed.

Lemma typecheck_true : forall l l', result (typecheck l) = Some l' <-> result (tc_decls [] [] l) = Some (true, l').
Proof.
  intros l l'. unfold typecheck. destruct (tc_decls [] [] l) as [[[[|] r]|] es ws|]; cbn; split; intros H; try discriminate; inversion H; auto.
Qed.
Lemma causality_true : forall l l', result (causality l) = Some l' <-> prog_causality l = inl l'.
Proof.
  intros l l'. unfold causality. destruct (prog_causality l) as [r|[]]; cbn; split; intros H; try discriminate; inversion H; auto.
Qed.

Theorem declarations_permuted : forall p p' l, Permutation p p' -> result (pipeline p) = Some l ->
  exists l', result (pipeline p') = Some l' /\ Permutation l l'.
Proof.
  intros p p' l P H. unfold pipeline, tr_prog, analyse in H.
  apply obind_some in H. destruct H as (l0 & E0 & H). apply obind_some in H. destruct H as (l1 & E1 & H).
  apply obind_some in H. destruct H as (l2 & E2 & H). apply obind_some in H. destruct H as (l3 & E3 & E4).
  apply omap_result in E0. apply causality_true in E1. apply typecheck_true in E2. unfold clockcheck in E3. apply omap_result in E3. unfold positivity in E4. apply omap_result in E4.
  (* translation *)
  destruct (Permutation_Forall2 P E0) as (l0' & P0 & E0').
  (* order *)
  unfold prog_causality in E1. destruct (decls_causality l0) as [m|] eqn:D; [|discriminate]. apply decls_causality_iff in D.
  destruct (Permutation_Forall2 P0 D) as (m' & Pm & D').
  destruct (schedule_permuted _ _ _ reference_eqb_spec _ _ _ _ _ Pm E1) as (l1' & E1' & P1).
  destruct (schedule_sorted _ _ E1) as [S1 N1]. destruct (schedule_sorted _ _ E1') as [S1' N1'].
  assert (Dp : forall d, In d l1 -> deep d).
  { intros d J. apply (schedule_perm _ reference_eqb_spec) in E1. destruct E1 as [E1 _]. apply (Permutation_in _ E1) in J.
    destruct (forall2_in_r _ _ _ D _ J) as (d0 & J0 & D0). destruct (forall2_in_r _ _ _ E0 _ J0) as (a & Ja & T). eapply accepted_deep; eauto. }
  (* types *)
  apply (tc_sorted l1 [] l2) in E2; auto. cbn [app] in E2.
  destruct (context_perm _ _ P1 N1) as [Cg Cf].
  assert (E2' : exists l2', Permutation l2 l2' /\ result (tc_decls [] [] l1') = Some (true, l2')).
  { destruct (Permutation_Forall2 P1 E2) as (l2' & P2 & F2). exists l2'. split; auto. apply (tc_sorted l1' [] l2'); auto.
    - intros d J. apply Dp. eapply Permutation_in; [apply Permutation_sym, P1|auto].
    - cbn [app]. eapply Forall2_weaken; [|exact F2]. cbn. intros d d' Hd. rewrite <- (tc_one_same _ _ _ _ d Cg Cf). auto. }
  destruct E2' as (l2' & P2 & E2').
  destruct (Permutation_Forall2 P2 E3) as (l3' & P3 & E3'). destruct (Permutation_Forall2 P3 E4) as (l4' & P4 & E4').
  exists l4'. split; auto. unfold pipeline, tr_prog, analyse.
  apply omap_result in E0'. apply decls_causality_iff in D'. apply typecheck_true in E2'. apply omap_result in E3'. apply omap_result in E4'.
  assert (C : result (causality l0') = Some l1') by (apply causality_true; unfold prog_causality; rewrite D'; auto).
  unfold clockcheck, positivity.
  destruct (omap tr_attrdecl p') as [[x0|] es0 ws0|]; cbn in E0'; try discriminate; inversion E0'; subst x0. cbn.
  destruct (causality l0') as [[x1|] es1 ws1|]; cbn in C; try discriminate; inversion C; subst x1. cbn.
  destruct (typecheck l1') as [[x2|] es2 ws2|]; cbn in E2'; try discriminate; inversion E2'; subst x2. cbn.
  destruct (omap kc_decl l2') as [[x3|] es3 ws3|]; cbn in E3'; try discriminate; inversion E3'; subst x3. cbn.
  destruct (omap pos_decl l3') as [[x4|] es4 ws4|]; cbn in E4'; try discriminate; inversion E4'; subst x4. reflexivity.
Qed.
