(** Constants. *)
From Coq Require Import String List ZArith Bool Arith Lia Permutation.
From Verif Require Import Model.Base Model.Scalar Model.Value Model.Ast Model.Errors Model.Interp Model.Options Model.Surface Model.Translate
  Model.Graph Model.Causality Model.Typecheck Model.Clockcheck Model.Positivity Model.Pipeline Model.Constexpr
  Spec.TypeSpec Spec.SafetySpec Spec.SurfaceSem Spec.ProgramSem Spec.ConstSpec
  Proofs.OutBasics Proofs.AstInd Proofs.NodeWf Proofs.Unify Proofs.TypeInfer Proofs.TypeEval Proofs.PipelineProofs Proofs.TypePipeline Proofs.TranslateSem Proofs.DepthPipeline.
Import ListNotations.
Local Open Scope string_scope.
Local Open Scope list_scope.

(** ** Constant expressions are well typed *)
Lemma is_const_two : forall a b u, result (l <~ attempt (is_const a);; r <~ attempt (is_const b);; _ <~ need l;; need r) = Some u ->
  result (is_const a) <> None /\ result (is_const b) <> None.
Proof.
  intros a b u H. apply obind_some in H. destruct H as (x & E & H). apply attempt_some in E.
  apply obind_some in H. destruct H as (y & F & H). apply attempt_some in F.
  apply obind_some in H. destruct H as (z & G & H). apply need_some in G. apply need_some in H. split; congruence.
Qed.
Lemma is_const_three : forall a b c u, result (x <~ attempt (is_const a);; y <~ attempt (is_const b);; z <~ attempt (is_const c);; _ <~ need x;; _ <~ need y;; need z) = Some u ->
  result (is_const a) <> None /\ result (is_const b) <> None /\ result (is_const c) <> None.
Proof.
  intros a b c u H. apply obind_some in H. destruct H as (x & E & H). apply attempt_some in E.
  apply obind_some in H. destruct H as (y & F & H). apply attempt_some in F.
  apply obind_some in H. destruct H as (z & G & H). apply attempt_some in G.
  apply obind_some in H. destruct H as (? & K & H). apply need_some in K.
  apply obind_some in H. destruct H as (? & L & H). apply need_some in L. apply need_some in H. repeat split; congruence.
Qed.

(** The constant expressions of the analysis AST. *)
Inductive cexpr : expr -> Prop :=
| ce_lit : forall l, cexpr (ELit l)
| ce_var : forall x d, cexpr (EVar x d)
| ce_global : forall x, cexpr (EGlobal x)
| ce_paren : forall e, cexpr e -> cexpr (EParen e)
| ce_un : forall op e, cexpr e -> cexpr (EUn op e)
| ce_bin : forall op a b, cexpr a -> cexpr b -> cexpr (EBin op a b)
| ce_cmp : forall op a b, cexpr a -> cexpr b -> cexpr (ECmp op a b)
| ce_if : forall c a b, cexpr c -> cexpr a -> cexpr b -> cexpr (EIf c a b).

Lemma is_const_cexpr : forall e, result (is_const e) <> None -> cexpr e.
Proof.
  intros e. induction e using expr_ind'; cbn [is_const]; intros N; try (cbn in N; congruence); try constructor; auto.
  all: match type of N with result ?x <> None => destruct (result x) eqn:E; [|congruence] end;
    try (apply is_const_two in E); try (apply is_const_three in E); tauto.
Qed.

Lemma const_state : forall ctx e, cexpr e -> forall s t s', result (tc ctx e s) = Some (t, s') -> s' = s.
Proof.
  intros ctx e H. induction H; intros s t0 s' E; cbn [tc] in E.
  - inv_out. auto.
  - destruct (lookup x (c_vars ctx)); inv_out; auto.
  - destruct (lookup x (c_global ctx)); inv_out; auto.
  - eauto.
  - apply obind_some in E. destruct E as ([b s1] & E1 & E). apply primitive_some in E1. apply obind_some in E. destruct E as (u & _ & E).
    inversion E; subst. eauto.
  - apply obind_some in E. destruct E as (l & E1 & E). apply attempt_some in E1.
    apply obind_some in E. destruct E as (r & E2 & E). apply attempt_some in E2.
    destruct l as [[l s1]|]; [|discriminate]. destruct r as [[r s2]|]; [|cbn in E; discriminate].
    cbn [next_st] in E2. apply primitive_some in E1, E2. apply IHcexpr1 in E1. apply IHcexpr2 in E2. subst.
    inv_out. auto.
  - apply obind_some in E. destruct E as (l & E1 & E). apply attempt_some in E1.
    apply obind_some in E. destruct E as (r & E2 & E). apply attempt_some in E2.
    destruct l as [[l s1]|]; [|discriminate]. destruct r as [[r s2]|]; [|cbn in E; discriminate].
    cbn [next_st] in E2. apply primitive_some in E1, E2. apply IHcexpr1 in E1. apply IHcexpr2 in E2. subst.
    inv_out. auto.
  - apply obind_some in E. destruct E as (x & E1 & E). apply attempt_some in E1.
    apply obind_some in E. destruct E as (y & E2 & E). apply attempt_some in E2.
    apply obind_some in E. destruct E as (n & E3 & E). apply attempt_some in E3.
    destruct x as [[x s1]|]; [|discriminate]. cbn [next_st] in *. apply primitive_some in E1. apply IHcexpr1 in E1. subst s1.
    apply obind_some in E. destruct E as ((?, ?) & _ & E). apply obind_some in E. destruct E as (u & _ & E).
    apply obind_some in E. destruct E as (p & Ey & E). apply need_some in Ey. destruct y as [[y s2]|]; [|discriminate]. inversion Ey; subst p. cbn [next_st] in *.
    apply IHcexpr2 in E2. subst s2.
    apply obind_some in E. destruct E as (p & En & E). apply need_some in En. destruct n as [[n s3]|]; [|discriminate]. inversion En; subst p.
    apply IHcexpr3 in E3. subst s3. inv_out. auto.
Qed.

Definition const_ctx (gl : list (ident * base)) : context :=
  mkCtx (fun _ => None) (fun x => lookup x gl) (fun _ => None) (fun _ => None).

Lemma tc_const_typed : forall gl t e u, result (tc_const gl t e) = Some u -> cexpr e /\ has_type (const_ctx gl) e (TSingle t).
Proof.
  intros gl t e u H. unfold tc_const in H. apply obind_some in H. destruct H as (? & E1 & H).
  apply obind_some in H. destruct H as ((r, s) & E2 & H). apply obind_some in H. destruct H as (? & E3 & _).
  assert (C : cexpr e) by (apply is_const_cexpr; rewrite E1; discriminate). split; auto.
  pose proof (const_state _ _ C _ _ _ E2). subst s. apply identical_eq in E3. destruct E3 as [_ <-].
  apply (tc_infers (mkTctx gl [] []) (const_ctx gl)) in E2; cbn; auto.
  apply E2. split; cbn; tauto.
Qed.

(** Their evaluation only fails because of arithmetic. *)
Definition arith (p : panic) : Prop := p = POverflow \/ p = PDivZero.
Definition typed_env (gl : list (ident * base)) (g : ident -> option scalar) : Prop :=
  forall x b, lookup x gl = Some b -> exists s, g x = Some s /\ forall theta, sty_of s = kind_of theta b.

Lemma bin_arith : forall op b x y, bin_type op b -> (forall theta, sty_of x = kind_of theta b) -> (forall theta, sty_of y = kind_of theta b) ->
  match scalar_bin Checked op x y with Ok s => forall theta, sty_of s = kind_of theta b | Panic p => arith p end.
Proof.
  intros op b x y T X Y. specialize (X (fun _ => TUnit)) as X0. specialize (Y (fun _ => TUnit)) as Y0.
  destruct op, x, y, b; cbn in T, X0, Y0; try discriminate; try (destruct T; discriminate); cbn; auto; try (intuition discriminate);
    unfold i64_result, i64_div, i64_rem; repeat match goal with |- context [if ?c then _ else _] => destruct c end; cbn; unfold arith; auto.
Qed.
Lemma un_arith : forall op b x, un_type op b -> (forall theta, sty_of x = kind_of theta b) ->
  match scalar_un Checked op x with Ok s => forall theta, sty_of s = kind_of theta b | Panic p => arith p end.
Proof.
  intros op b x T X. specialize (X (fun _ => TUnit)) as X0.
  destruct op, x, b; cbn in T, X0; try discriminate; try (destruct T; discriminate); cbn; auto; try (intuition discriminate);
    unfold i64_result; repeat match goal with |- context [if ?c then _ else _] => destruct c end; cbn; unfold arith; auto.
Qed.
Lemma cmp_arith : forall op b x y, cmp_type op b -> (forall theta, sty_of x = kind_of theta b) -> (forall theta, sty_of y = kind_of theta b) ->
  exists r, rust_cmp op x y = Ok (SBool r).
Proof.
  intros op b x y T X Y. specialize (X (fun _ => TUnit)) as X0. specialize (Y (fun _ => TUnit)) as Y0.
  destruct op, x, y, b; cbn in T, X0, Y0; try discriminate; try (intuition discriminate); cbn; eauto.
Qed.

Lemma const_safe : forall gl g, typed_env gl g -> forall e, cexpr e -> forall t, has_type (const_ctx gl) e t -> exists b, t = TSingle b /\
  match const_eval g e with Ok s => forall theta, sty_of s = kind_of theta b | Panic p => arith p end.
Proof.
  intros gl g T e C. induction C; intros t0 H; inversion H; subst; cbn [const_eval].
  - eexists. split; eauto; reflexivity.
  - eexists. split; eauto; reflexivity.
  - eexists. split; eauto; reflexivity.
  - discriminate.
  - eexists. split; eauto. destruct (T _ _ H1) as (s & -> & K). cbn. auto.
  - auto.
  - destruct (IHC _ H2) as (b & E & K). inversion E; subst. eexists. split; eauto.
    destruct (const_eval g e); cbn; auto. apply un_arith; auto.
  - destruct (IHC1 _ H3) as (b1 & E1 & K1). inversion E1; subst. destruct (IHC2 _ H5) as (b2 & E2 & K2). inversion E2; subst.
    eexists. split; eauto. destruct (const_eval g a); cbn; auto. destruct (const_eval g b); cbn; auto. apply bin_arith; auto.
  - destruct (IHC1 _ H3) as (b1 & E1 & K1). inversion E1; subst. destruct (IHC2 _ H5) as (b2 & E2 & K2). inversion E2; subst.
    eexists. split; eauto. destruct (const_eval g a) as [x|]; cbn; auto. destruct (const_eval g b) as [y|]; cbn; auto.
    destruct (cmp_arith op _ _ _ H6 K1 K2) as (r & ->). reflexivity.
  - destruct (IHC1 _ H3) as (b1 & E1 & K1). inversion E1; subst. destruct (IHC2 _ H5) as (b2 & -> & K2). destruct (IHC3 _ H6) as (b3 & E3 & K3). inversion E3; subst.
    eexists. split; eauto. destruct (const_eval g c) as [x|]; cbn; auto. specialize (K1 (fun _ => TUnit)). destruct x as [| |[]|]; try discriminate; auto.
Qed.

(** ** The constants of a program *)
Inductive const_seq : list (ident * base) -> list decl -> Prop :=
| cs_nil : forall gl, const_seq gl []
| cs_const : forall gl o x t e l, cexpr e -> has_type (const_ctx gl) e (TSingle t) -> lookup x gl = None -> const_seq ((x, t) :: gl) l ->
    const_seq gl (DConst o x t e :: l)
| cs_ext : forall gl o x t l, lookup x gl = None -> const_seq ((x, t) :: gl) l -> const_seq gl (DExtConst o x t :: l)
| cs_node : forall gl o nd l, const_seq gl l -> const_seq gl (DNode o nd :: l)
| cs_ext_node : forall gl o x i o' l, const_seq gl l -> const_seq gl (DExtNode o x i o' :: l).

Lemma const_seq_passes : forall l1 globals funs l2 l3 l,
  result (tc_decls globals funs l1) = Some (true, l2) ->
  Forall2 (fun d d' => result (kc_decl d) = Some d') l2 l3 ->
  Forall2 (fun d d' => result (pos_decl d) = Some d') l3 l ->
  const_seq globals l.
Proof.
  induction l1 as [|d l1 IH]; intros globals funs l2 l3 l H F3 F4; cbn [tc_decls] in H.
  - inv_out. inversion F3; subst. inversion F4; subst. constructor.
  - apply obind_some in H. destruct H as (r & E & H). apply attempt_some in E.
    apply obind_some in H. destruct H as ((gl', fn') & E1 & H).
    apply obind_some in H. destruct H as ((ok, ds) & E2 & H).
    destruct r as [d'|]; cbn in H; inversion H; subst; clear H.
    inversion F3 as [|? d3 ? l3' K3 F3']; subst. inversion F4 as [|? d4 ? l4' K4 F4']; subst.
    destruct d as [o x t e|o nd1|o x t|o x i o'].
    + apply obind_some in E. destruct E as (u & Tc & E). inversion E; subst d'. cbn [kc_decl] in K3. inversion K3; subst d3.
      cbn [pos_decl] in K4. inversion K4; subst d4.
      destruct (lookup x globals) eqn:L; [discriminate|]. inversion E1; subst gl' fn'.
      apply tc_const_typed in Tc. destruct Tc. constructor; eauto.
    + apply obind_some in E. destruct E as ((nd2, gens) & Tc & E). inversion E; subst d'.
      cbn [kc_decl] in K3. apply obind_some in K3. destruct K3 as (nd3 & Kc & K3). inversion K3; subst d3.
      cbn [pos_decl] in K4. apply obind_some in K4. destruct K4 as (nd & Po & K4). inversion K4; subst d4.
      destruct (lookup (n_name nd1) funs); [discriminate|]. inversion E1; subst gl' fn'. constructor. eauto.
    + inversion E; subst d'. cbn [kc_decl] in K3. inversion K3; subst d3.
      cbn [pos_decl] in K4. inversion K4; subst d4.
      destruct (lookup x globals) eqn:L; [discriminate|]. inversion E1; subst gl' fn'. constructor; eauto.
    + apply obind_some in E. destruct E as (u & Tc & E). inversion E; subst d'. cbn [kc_decl] in K3. inv_out.
      cbn [pos_decl] in K4. inv_out. destruct (lookup x funs); [discriminate|]. inversion E1; subst gl' fn'. constructor. eauto.
Qed.

Lemma program_consts : forall p l, result (pipeline p) = Some l -> const_seq [] l.
Proof.
  intros p l H. destruct (pipeline_typecheck _ _ H) as (l0 & l1 & l1' & l2 & l3 & _ & _ & _ & _ & F2 & F3 & F4).
  eapply const_seq_passes; eauto.
Qed.

(** More constants do not change a value. *)
Lemma const_mono : forall g g', (forall x s, g x = Some s -> g' x = Some s) -> forall e s, const_eval g e = Ok s -> const_eval g' e = Ok s.
Proof.
  intros g g' M e. induction e using expr_ind'; intros v E; cbn [const_eval] in *; auto; try discriminate.
  - destruct (g x) eqn:G; cbn in E; [|discriminate]. inversion E; subst. rewrite (M _ _ G). auto.
  - destruct (const_eval g e1); cbn in E; [|discriminate]. destruct (const_eval g e2); cbn in E; [|discriminate].
    rewrite (IHe1 _ eq_refl), (IHe2 _ eq_refl). auto.
  - destruct (const_eval g e); cbn in E; [|discriminate]. rewrite (IHe _ eq_refl). auto.
  - destruct (const_eval g e1); cbn in E; [|discriminate]. destruct (const_eval g e2); cbn in E; [|discriminate].
    rewrite (IHe1 _ eq_refl), (IHe2 _ eq_refl). auto.
  - destruct (const_eval g e1) as [c|]; cbn in E; [|discriminate]. rewrite (IHe1 _ eq_refl). cbn. destruct c as [| |[]|]; auto.
Qed.

Lemma const_env_sound : forall ext l gl g, const_seq gl l -> typed_env gl (fun x => lookup x g) ->
  (forall x, lookup x gl = None -> lookup x g = None) ->
  (forall o x t, In (DExtConst o x t) l -> exists s, ext x = Some s /\ forall theta, sty_of s = kind_of theta t) ->
  match const_env ext l g with
  | Panic p => arith p
  | Ok g' => (forall x s, lookup x g = Some s -> lookup x g' = Some s) /\
      (forall o x t e, In (DConst o x t e) l -> exists s, lookup x g' = Some s /\ (forall theta, sty_of s = kind_of theta t) /\
         const_eval (fun y => lookup y g') e = Ok s) /\
      (forall o x t, In (DExtConst o x t) l -> exists s, lookup x g' = Some s /\ ext x = Some s /\ forall theta, sty_of s = kind_of theta t)
  end.
Proof.
  intros ext. induction l as [|d l IH]; intros gl g Cs T D X; cbn [const_env].
  - repeat split; auto; intros; contradiction.
  - inversion Cs as [|? o x t e ? Ce Ht H0 H6|? o x t ? H0 H4|? o nd ? H2|? o x i o' ? H2]; subst.
    + destruct (const_safe gl _ T e Ce _ Ht) as (b & E & K). inversion E; subst b.
      destruct (const_eval (fun y => lookup y g) e) as [s|] eqn:Ev; cbn [bind]; auto.
      specialize (IH ((x, t) :: gl) ((x, s) :: g) H6).
      assert (Lx : lookup x g = None) by auto.
      assert (Ext : forall y v, lookup y g = Some v -> lookup y ((x, s) :: g) = Some v).
      { intros y v L. cbn. destruct (String.eqb_spec y x); auto. subst. congruence. }
      destruct (const_env ext l ((x, s) :: g)) as [g'|]; [|apply IH].
      * destruct IH as (A & B & C).
        { intros y b. cbn. destruct (String.eqb_spec y x); [|apply T]. intros Q. inversion Q; subst. eauto. }
        { intros y. cbn. destruct (String.eqb_spec y x); [discriminate|auto]. }
        { intros. apply (X o0). cbn. auto. }
        assert (Gx : lookup x g' = Some s) by (apply A; cbn; rewrite String.eqb_refl; auto).
        repeat split; auto.
        -- intros o0 y t0 e0 [I|I]; [inversion I; subst|eauto]. exists s. repeat split; auto.
           eapply const_mono; [|exact Ev]. cbn. auto.
        -- intros o0 y t0 [I|I]; [inversion I|eauto].
      * intros y b. cbn. destruct (String.eqb_spec y x); [|apply T]. intros Q. inversion Q; subst. eauto.
      * intros y. cbn. destruct (String.eqb_spec y x); [discriminate|auto].
      * intros. apply (X o0). cbn. auto.
    + destruct (X o x t (or_introl eq_refl)) as (s & Es & K). rewrite Es. cbn [of_option bind].
      specialize (IH ((x, t) :: gl) ((x, s) :: g) H4).
      assert (Lx : lookup x g = None) by auto.
      assert (Ext : forall y v, lookup y g = Some v -> lookup y ((x, s) :: g) = Some v).
      { intros y v L. cbn. destruct (String.eqb_spec y x); auto. subst. congruence. }
      destruct (const_env ext l ((x, s) :: g)) as [g'|]; [|apply IH].
      * destruct IH as (A & B & C).
        { intros y b. cbn. destruct (String.eqb_spec y x); [|apply T]. intros Q. inversion Q; subst. eauto. }
        { intros y. cbn. destruct (String.eqb_spec y x); [discriminate|auto]. }
        { intros. apply (X o0). cbn. auto. }
        assert (Gx : lookup x g' = Some s) by (apply A; cbn; rewrite String.eqb_refl; auto).
        repeat split; auto.
        -- intros o0 y t0 e0 [I|I]; [inversion I|eauto].
        -- intros o0 y t0 [I|I]; [inversion I; subst; eauto|eauto].
      * intros y b. cbn. destruct (String.eqb_spec y x); [|apply T]. intros Q. inversion Q; subst. eauto.
      * intros y. cbn. destruct (String.eqb_spec y x); [discriminate|auto].
      * intros. apply (X o0). cbn. auto.
    + specialize (IH gl g H2 T D). destruct (const_env ext l g) as [g'|].
      * destruct IH as (A & B & C); [intros; apply (X o0); cbn; auto|]. repeat split; auto; intros.
        -- destruct H as [H|H]; [inversion H|eauto].
        -- destruct H as [H|H]; [inversion H|eauto].
      * apply IH. intros; apply (X o0); cbn; auto.
    + specialize (IH gl g H2 T D). destruct (const_env ext l g) as [g'|].
      * destruct IH as (A & B & C); [intros; apply (X o0); cbn; auto|]. repeat split; auto; intros.
        -- destruct H as [H|H]; [inversion H|eauto].
        -- destruct H as [H|H]; [inversion H|eauto].
      * apply IH. intros; apply (X o0); cbn; auto.
Qed.

(** ** Value of a constant expression inside a node *)
Lemma bin_any_mode : forall mode op a b s, scalar_bin Checked op a b = Ok s -> scalar_bin mode op a b = Ok s.
Proof.
  intros mode op a b s H. destruct a, b, op; cbn in *; auto; unfold i64_result, i64_div, i64_rem in *; destruct (in_i64 _); auto; discriminate.
Qed.
Lemma un_any_mode : forall mode op a s, scalar_un Checked op a = Ok s -> scalar_un mode op a = Ok s.
Proof. intros mode op a s H. destruct a, op; cbn in *; auto; unfold i64_result in *; destruct (in_i64 _); auto; discriminate. Qed.
Lemma bin_float : forall mode op a b s, scalar_bin mode op a b = Ok s -> sty_of a <> TFloat -> sty_of s <> TFloat.
Proof.
  intros mode op a b s H N. destruct a, b, op; cbn in *; try discriminate; try congruence; unfold i64_result, i64_div, i64_rem in *;
    repeat match goal with H : context [if ?c then _ else _] |- _ => destruct c end; inversion H; subst; cbn; congruence.
Qed.
Lemma un_float : forall mode op a s, scalar_un mode op a = Ok s -> sty_of a <> TFloat -> sty_of s <> TFloat.
Proof.
  intros mode op a s H N. destruct a, op; cbn in *; try discriminate; try congruence; unfold i64_result in *;
    repeat match goal with H : context [if ?c then _ else _] |- _ => destruct c end; inversion H; subst; cbn; congruence.
Qed.
Lemma cmp_dynamic : forall op a b s v, rust_cmp op a b = Ok s -> do_cmp op (Defined a) (Defined b) = Ok v ->
  (v = Defined s \/ v = Nil) /\ (sty_of a <> TFloat -> v = Defined s) /\ sty_of s = TBool.
Proof.
  intros op a b s v R D.
  destruct op, a, b; cbn in *; try discriminate; inversion R; subst; clear R;
    unfold cmp_ord, cmp_eq in D; cbn in D;
    try match type of D with context [Z.compare ?x ?y] => destruct (Z.compare x y) end;
    try match type of D with context [SpecFloat.SFcompare ?x ?y] => destruct (SpecFloat.SFcompare x y) as [[]|] end;
    try match type of D with context [bool_compare ?x ?y] => destruct (bool_compare x y) end;
    try match type of D with context [Z.eqb ?x ?y] => destruct (Z.eqb x y) end;
    try match type of D with context [SpecFloat.SFeqb ?x ?y] => destruct (SpecFloat.SFeqb x y) end;
    try match type of D with context [Bool.eqb ?x ?y] => destruct (Bool.eqb x y) end;
    cbn in D; inversion D; subst; cbn; repeat split; auto; intros; congruence.
Qed.

Definition agrees (s : scalar) (v : val) : Prop := v = VS (Defined s) \/ v = VS Nil.

Section Node.
  Variable mode : ovf.
  Variable g : ident -> option scalar.
  Variable locals : list ident.
  Variable rho : nat -> ident -> option nillable.
  Variable F : ident -> list val -> val -> Prop.
  Variable N : ident -> val -> Prop.
  Notation semantics := (sem mode g locals rho F N).

  Definition outside (e : sexpr) : Prop := forall x, In x (names e) -> ~ In x locals.
  Definition no_float (e : sexpr) : Prop := float_free e = true /\ forall x s, In x (names e) -> g x = Some s -> sty_of s <> TFloat.

  (** [w] is the value of [e'] in a node, [e'] is the translation of an expression which has no floats if [nf]. *)
  Definition valued (nf : Prop) (e' : expr) (w : val) : Prop := cexpr e' -> (exists n, w = VS n) /\ forall s, const_eval g e' = Ok s ->
    agrees s w /\ (nf -> w = VS (Defined s) /\ sty_of s <> TFloat).

  Lemma valued_weak : forall (a b : Prop) e w, (b -> a) -> valued a e w -> valued b e w.
  Proof. intros a b e w I V C. destruct (V C) as [S W]. split; auto. intros s E. destruct (W s E). split; auto. Qed.

  Lemma valued_bin : forall nf op a b x y v, valued nf a x -> valued nf b y -> val_bin mode op x y = Ok v -> valued nf (EBin op a b) v.
  Proof.
    intros nf op a b x y v A B V C. inversion C as [| | | | |? ? ? Ca Cb| |]; subst. destruct (A Ca) as [(n & ->) A']. destruct (B Cb) as [(m & ->) B'].
    split.
    { unfold val_bin in V. cbn in V. destruct (nil_bin mode op n m); cbn in V; inversion V; eauto. }
    intros s E. cbn [const_eval] in E.
    destruct (const_eval g a) as [sa|]; cbn in E; [|discriminate]. destruct (const_eval g b) as [sb|]; cbn in E; [|discriminate].
    destruct (A' sa eq_refl) as [A1 A2]. destruct (B' sb eq_refl) as [B1 B2].
    split.
    - destruct A1 as [A1|A1], B1 as [B1|B1]; rewrite A1, B1 in V; cbn in V; try (inversion V; subst; right; reflexivity).
      rewrite (bin_any_mode mode _ _ _ _ E) in V. inversion V; subst. left. auto.
    - intros nn. destruct (A2 nn) as [Ea Fa]. destruct (B2 nn) as [Eb Fb]. rewrite Ea, Eb in V. cbn in V. rewrite (bin_any_mode mode _ _ _ _ E) in V. inversion V; subst.
      split; auto. eapply bin_float; eauto.
  Qed.
  Lemma valued_un : forall nf op a x v, valued nf a x -> val_un mode op x = Ok v -> valued nf (EUn op a) v.
  Proof.
    intros nf op a x v A V C. inversion C as [| | | |? ? Ca| | |]; subst. destruct (A Ca) as [(n & ->) A']. split.
    { unfold val_un in V. cbn in V. destruct (nil_un mode op n); cbn in V; inversion V; eauto. }
    intros s E. cbn [const_eval] in E.
    destruct (const_eval g a) as [sa|]; cbn in E; [|discriminate].
    destruct (A' sa eq_refl) as [A1 A2]. split.
    - destruct A1 as [A1|A1]; rewrite A1 in V; cbn in V; try (inversion V; subst; right; reflexivity).
      rewrite (un_any_mode mode _ _ _ E) in V. inversion V; subst. left. auto.
    - intros nn. destruct (A2 nn) as [Ea Fa]. rewrite Ea in V. cbn in V. rewrite (un_any_mode mode _ _ _ E) in V. inversion V; subst.
      split; auto. eapply un_float; eauto.
  Qed.
  Lemma valued_cmp : forall nf op a b x y v, valued nf a x -> valued nf b y -> val_cmp op x y = Ok v -> valued nf (ECmp op a b) v.
  Proof.
    intros nf op a b x y v A B V C. inversion C as [| | | | | |? ? ? Ca Cb|]; subst. destruct (A Ca) as [(n & ->) A']. destruct (B Cb) as [(m & ->) B'].
    assert (K : exists r, do_cmp op n m = Ok r /\ v = VS r).
    { unfold val_cmp in V. cbn in V. destruct (do_cmp op n m); cbn in V; inversion V; eauto. }
    destruct K as (r & K & ->). split; eauto.
    intros s E. cbn [const_eval] in E.
    destruct (const_eval g a) as [sa|]; cbn in E; [|discriminate]. destruct (const_eval g b) as [sb|]; cbn in E; [|discriminate].
    destruct (A' sa eq_refl) as [A1 A2]. destruct (B' sb eq_refl) as [B1 B2].
    assert (Z : forall m, do_cmp op Nil m = Ok Nil) by (intros; destruct op; reflexivity).
    assert (Z' : forall m, do_cmp op m Nil = Ok Nil) by (intros []; destruct op; reflexivity).
    split.
    - destruct A1 as [A1|A1], B1 as [B1|B1]; inversion A1; inversion B1; subst; rewrite ?Z, ?Z' in K; try (inversion K; subst; right; reflexivity).
      destruct (cmp_dynamic _ _ _ _ _ E K) as ([->| ->] & _); [left|right]; auto.
    - intros nn. destruct (A2 nn) as [Ea Fa]. destruct (B2 nn) as [Eb Fb]. inversion Ea; inversion Eb; subst.
      destruct (cmp_dynamic _ _ _ _ _ E K) as (_ & Q & R). rewrite Q by auto. rewrite R. split; auto. discriminate.
  Qed.
  Lemma valued_if : forall nf c a b x y z v, valued nf c x -> valued nf a y -> valued nf b z -> val_ifx x y z = Ok v -> valued nf (EIf c a b) v.
  Proof.
    intros nf c a b x y z v X Y Z V C. inversion C as [| | | | | | |? ? ? Cc Ca Cb]; subst.
    destruct (X Cc) as [(n & ->) X']. destruct (Y Ca) as [(m & ->) Y']. destruct (Z Cb) as [(k & ->) Z'].
    split. { unfold val_ifx in V. cbn in V. destruct (as_bool n) as [[[]|]|]; cbn in V; inversion V; eauto. }
    intros s E. cbn [const_eval] in E.
    destruct (const_eval g c) as [sc|]; cbn in E; [|discriminate].
    destruct (X' sc eq_refl) as [A1 A2]. destruct sc as [| |[]|]; try discriminate.
    - destruct (Y' s E) as [Y1 Y2]. destruct A1 as [A1|A1]; inversion A1; subst; cbn in V; inversion V; subst.
      + split; auto.
      + split; [right; auto|]. intros nn. destruct (A2 nn) as [A _]. discriminate.
    - destruct (Z' s E) as [Y1 Y2]. destruct A1 as [A1|A1]; inversion A1; subst; cbn in V; inversion V; subst.
      + split; auto.
      + split; [right; auto|]. intros nn. destruct (A2 nn) as [A _]. discriminate.
  Qed.

  Definition constant_in_node (e : sexpr) : Prop := forall d s0 e' s1, result (tr false [] e d s0) = Some (e', s1) -> outside e ->
    forall t v, semantics e t v -> valued (no_float e) e' v.

  Lemma left_cexpr : forall f l acc d s r s', result (tr_left f EBin acc l d s) = Some (r, s') -> cexpr r -> cexpr acc.
  Proof.
    intros f. induction l as [|[op e] l IH]; intros acc d s r s' E C; cbn [tr_left] in E.
    - cbn in E. inversion E; subst; auto.
    - apply obind_some in E. destruct E as ([e2 s2] & _ & E). apply IH in E; auto. inversion E; auto.
  Qed.
  Lemma left_clock : forall f l acc d s r s', result (tr_left f EClock acc l d s) = Some (r, s') -> cexpr r -> l = [] .
  Proof.
    intros f l acc d s r s' E C. destruct l as [|[op e] l]; auto. exfalso.
    cbn [tr_left] in E. apply obind_some in E. destruct E as ([e2 s2] & _ & E).
    assert (G : forall l a b c d s, result (tr_left f EClock (EClock a b c) l d s) = Some (r, s') -> False).
    { clear -C. induction l as [|[op e] l IH]; intros a b c d s E; cbn [tr_left] in E.
      - cbn in E. inversion E; subst. inversion C.
      - apply obind_some in E. destruct E as ([e2 s2] & _ & E). eauto. }
    eapply G; eauto.
  Qed.
  Lemma right_some : forall f bump compose l i d s r s', result (tr_right f bump compose i l d s) = Some (r, s') -> r = None -> l = [].
  Proof.
    intros f bump compose [|e l] i d s r s' E ->; auto. cbn [tr_right] in E.
    apply obind_some in E. destruct E as ([acc s2] & _ & E). apply obind_some in E. destruct E as ([e2 s3] & _ & E).
    destruct acc; [destruct compose|]; discriminate.
  Qed.

  Lemma left_valued : forall (nf : Prop) d l acc s r s', (forall op e, In (op, e) l -> constant_in_node e /\ outside e /\ (nf -> no_float e)) ->
    result (tr_left (tr false []) EBin acc l d s) = Some (r, s') ->
    forall t w v, valued nf acc w -> bins mode g locals rho F N w l t v -> valued nf r v.
  Proof.
    intros nf d. induction l as [|[op e] l IH]; intros acc s r s' H E t w v V B; cbn [tr_left] in E.
    - cbn in E. inversion E; subst. inversion B; subst. auto.
    - apply obind_some in E. destruct E as ([e2 s2] & Ee & E). inversion B; subst.
      destruct (H op e (or_introl eq_refl)) as (H1 & H2 & H3).
      eapply IH; eauto. { intros. eapply H. right. eauto. }
      eapply valued_bin; eauto. eapply valued_weak; [|eapply H1; eauto]. auto.
  Qed.

  Definition included (e0 e : sexpr) : Prop := incl (names e0) (names e) /\ (float_free e = true -> float_free e0 = true).
  Lemma included_outside : forall e0 e, included e0 e -> outside e -> outside e0.
  Proof. intros e0 e [I _] O x H. apply O. auto. Qed.
  Lemma included_float : forall e0 e, included e0 e -> no_float e -> no_float e0.
  Proof. intros e0 e [I J] [O Q]. split; auto. intros. eapply Q; eauto. Qed.

  Ltac sub := split; cbn [names float_free flat_map forallb fst snd];
    [ intros ?x ?H; repeat rewrite in_app_iff; auto
    | rewrite ?andb_true_iff; intuition ].

  (** The operand [e0] of [e]. *)
  Ltac operand IH e0 := eapply valued_weak; [apply (included_float e0); sub | eapply IH; [eassumption | eapply (included_outside e0); [|eassumption]; sub | eassumption]].

  Lemma position_one : forall t, position 0 t = 0.
  Proof. intros. unfold position. cbn. lia. Qed.

  Lemma const_in_node : forall e, constant_in_node e.
  Proof.
    intros e. induction e using sexpr_ind'; intros dd s0 e' s1 E O t v S; cbn [tr] in E.
    - apply obind_some in E. destruct E as (x & E & E1). cbn in E1. inversion E1; subst; clear E1.
      intros C. split; [inversion S; eauto|]. intros s Q.
      inversion S; subst; unfold tr_lit in E.
      + match type of E with context [if ?c then _ else _] => destruct c end; [|discriminate E]. cbn in E. inversion E; subst. cbn in Q. inversion Q; subst. split; [left; auto|]. intros. split; auto. discriminate.
      + inversion E; subst. cbn in Q. inversion Q; subst. split; [left; auto|]. intros [H _]. discriminate H.
      + inversion E; subst. cbn in Q. inversion Q; subst. split; [left; auto|]. intros. split; auto. discriminate.
    - cbn in E. inversion E; subst; clear E. intros C. split; [inversion S; eauto|]. intros s Q.
      inversion S; subst; try (exfalso; eapply O; [left; reflexivity|assumption]).
      cbn in Q. rewrite H1 in Q. cbn in Q. inversion Q; subst. split; [left; auto|]. intros [_ H]. split; auto. eapply H; eauto. left; auto.
    - apply obind_some in E. destruct E as ([es s2] & E & E1). cbn in E1. inversion E1; subst; clear E1. intros C.
      destruct l as [|e [|e2 l]].
      + cbn in E. inversion E; subst. inversion C.
      + destruct b.
        { unfold paren in C. destruct es as [|? []]; inversion C. }
        cbn [tr_elems] in E. apply obind_some in E. destruct E as ([e1 s3] & E & E2). cbn in E2. inversion E2; subst; clear E2.
        cbn in C. inversion C as [| | |? Ce| | | |]; subst. inversion S; subst.
        match goal with X : sems _ _ _ _ _ _ _ _ _ |- _ => inversion X; subst; clear X end.
        match goal with X : sems _ _ _ _ _ _ _ _ _ |- _ => inversion X; subst; clear X end. cbn [tuple_val].
        inversion H as [|? ? H1 ?]; subst.
        match goal with X : sem _ _ _ _ _ _ e _ ?w |- _ => assert (V : valued (no_float (XParen [e] false)) e1 w) by operand H1 e end.
        apply V in Ce. exact Ce.
      + cbn [tr_elems] in E. apply obind_some in E. destruct E as ([e1 s3] & _ & E).
        apply obind_some in E. destruct E as ([l2 s4] & E & E2). apply obind_some in E. destruct E as ([e3 s5] & _ & E).
        apply obind_some in E. destruct E as ([l3 s6] & _ & E). cbn in E, E2. inversion E; inversion E2; subst. destruct b; inversion C.
    - apply obind_some in E. destruct E as ([es s2] & E & E1). cbn in E1. inversion E1; subst. intros C. inversion C.
    - apply obind_some in E. destruct E as ([es s2] & E & E1). cbn in E1. inversion E1; subst. inversion S; subst.
      eapply valued_un; [operand IHe e|eassumption].
    - apply obind_some in E. destruct E as ([es s2] & E & E1). cbn in E1. inversion E1; subst. inversion S; subst.
      eapply valued_un; [operand IHe e|eassumption].
    - apply obind_some in E. destruct E as ([es s2] & E & E1). cbn in E1. inversion E1; subst. intros C. inversion C.
    - apply obind_some in E. destruct E as ([c2 s2] & Ec & E). apply obind_some in E. destruct E as ([a2 s3] & Ea & E).
      apply obind_some in E. destruct E as ([b2 s4] & Eb & E). cbn in E. inversion E; subst; clear E. inversion S; subst.
      eapply valued_if; [operand IHe1 e1|operand IHe2 e2|operand IHe3 e3|eassumption].
    - apply obind_some in E. destruct E as ([c2 s2] & Ec & E). apply obind_some in E. destruct E as ([a2 s3] & Ea & E).
      apply obind_some in E. destruct E as ([b2 s4] & Eb & E). cbn in E. inversion E; subst; clear E. intros C. inversion C.
    - apply obind_some in E. destruct E as ([e2 s2] & Ee & E). inversion S; subst.
      eapply left_valued; [|eassumption|operand IHe e|eassumption].
      intros op e0 I. rewrite Forall_forall in H. specialize (H _ I). cbn in H. split; auto.
      assert (J : included e0 (XBin e l)).
      { split; cbn [names float_free].
        - intros x Hx. apply in_app_iff. right. apply in_flat_map. exists (op, e0). auto.
        - rewrite andb_true_iff, forallb_forall. intros [_ A]. apply (A _ I). }
      split; [eapply included_outside|eapply included_float]; eauto.
    - apply obind_some in E. destruct E as ([e2 s2] & Ee & E). destruct l as [|[op e0] [|[op' e0'] l]].
      + cbn in E. inversion E; subst. inversion S; subst. operand IHe e.
      + apply obind_some in E. destruct E as ([e3 s3] & Ee0 & E). cbn in E. inversion E; subst. inversion S; subst.
        inversion H as [|? ? H2 ?]; subst. cbn in H2. eapply valued_cmp; [operand IHe e|operand H2 e0|eassumption].
      + apply obind_some in E. destruct E as ([e3 s3] & _ & E). apply obind_some in E. destruct E as ([e4 s4] & _ & E). discriminate.
    - apply obind_some in E. destruct E as ([e2 s2] & Ee & E). intros C. pose proof (left_clock _ _ _ _ _ _ _ E C) as ->.
      cbn in E. inversion E; subst. inversion S; subst. match goal with X : clocks _ _ _ _ _ _ _ _ _ _ |- _ => inversion X; subst end. revert C. operand IHe e.
    - apply obind_some in E. destruct E as ([acc s2] & Er & E). apply obind_some in E. destruct E as ([e2 s3] & Ee & E).
      destruct acc.
      + cbn in E. inversion E; subst. intros C. inversion C.
      + apply right_some in Er; auto. subst. cbn in E. inversion E; subst. inversion S; subst. match goal with X : nth_error _ _ = Some _ |- _ => cbn [length] in X; rewrite position_one in X; cbn in X; inversion X; subst end.
        operand IHe e'0.
    - apply obind_some in E. destruct E as ([acc s2] & Er & E). apply obind_some in E. destruct E as ([e2 s3] & Ee & E).
      destruct acc.
      + cbn in E. inversion E; subst. intros C. inversion C.
      + apply right_some in Er; auto. subst. cbn in E. inversion E; subst. inversion S; subst. match goal with X : nth_error _ _ = Some _ |- _ => cbn [length] in X; rewrite position_one in X; cbn in X; inversion X; subst end.
        operand IHe e'0.
  Qed.
End Node.

(** ** The constants of a program *)
Lemma const_compiled : forall p l, result (pipeline p) = Some l -> forall a x t e, In (a, XConst x t e) p ->
  exists o e' s, In (DConst o x t e') l /\ result (tr false [] e 0 tst0) = Some (e', s).
Proof.
  intros p l H a x t e I. destruct (pipeline_inv _ _ H) as (l0 & l1 & l1' & l2 & l3 & F0 & F1 & P & _ & F2 & F3 & F4).
  destruct (forall2_in_l _ _ _ F0 _ I) as (d0 & I0 & X0). unfold tr_attrdecl in X0. cbn [fst snd] in X0.
  apply obind_some in X0. destruct X0 as (o & _ & X0). cbn [tr_decl] in X0. apply obind_some in X0. destruct X0 as (o' & _ & X0).
  apply obind_some in X0. destruct X0 as ([e' s] & T & X0). destruct (t_stmts s), (t_blocks s); try discriminate. cbn in X0. inversion X0; subst d0.
  destruct (forall2_in_l _ _ _ F1 _ I0) as (d1 & I1 & X1). cbn in X1. inversion X1; subst d1.
  apply (Permutation_in _ (Permutation_sym P)) in I1.
  destruct (forall2_in_l _ _ _ F2 _ I1) as (d2 & I2 & X2). inversion X2; subst.
  destruct (forall2_in_l _ _ _ F3 _ I2) as (d3 & I3 & X3). cbn in X3. inversion X3; subst d3.
  destruct (forall2_in_l _ _ _ F4 _ I3) as (d4 & I4 & X4). cbn in X4. inversion X4; subst d4. eauto.
Qed.
Lemma ext_compiled : forall p l, result (pipeline p) = Some l -> forall a x t, In (a, XExtConst x t) p -> exists o, In (DExtConst o x t) l.
Proof.
  intros p l H a x t I. destruct (pipeline_inv _ _ H) as (l0 & l1 & l1' & l2 & l3 & F0 & F1 & P & _ & F2 & F3 & F4).
  destruct (forall2_in_l _ _ _ F0 _ I) as (d0 & I0 & X0). unfold tr_attrdecl in X0. cbn [fst snd] in X0.
  apply obind_some in X0. destruct X0 as (o & _ & X0). cbn [tr_decl] in X0. apply obind_some in X0. destruct X0 as (o' & _ & X0).
  cbn in X0. inversion X0; subst d0.
  destruct (forall2_in_l _ _ _ F1 _ I0) as (d1 & I1 & X1). cbn in X1. inversion X1; subst d1.
  apply (Permutation_in _ (Permutation_sym P)) in I1.
  destruct (forall2_in_l _ _ _ F2 _ I1) as (d2 & I2 & X2). inversion X2; subst.
  destruct (forall2_in_l _ _ _ F3 _ I2) as (d3 & I3 & X3). cbn in X3. inversion X3; subst d3.
  destruct (forall2_in_l _ _ _ F4 _ I3) as (d4 & I4 & X4). cbn in X4. inversion X4; subst d4. eauto.
Qed.
Lemma ext_origin : forall p l, result (pipeline p) = Some l -> forall o x t, In (DExtConst o x t) l -> exists a, In (a, XExtConst x t) p.
Proof.
  intros p l H o x t I. destruct (pipeline_inv _ _ H) as (l0 & l1 & l1' & l2 & l3 & F0 & F1 & P & _ & F2 & F3 & F4).
  destruct (forall2_in_r _ _ _ F4 _ I) as (d3 & I3 & X3). destruct d3; cbn [pos_decl] in X3; inv_out.
  destruct (forall2_in_r _ _ _ F3 _ I3) as (d2 & I2 & X2). destruct d2; cbn [kc_decl] in X2; inv_out.
  destruct (forall2_in_r _ _ _ F2 _ I2) as (d1 & I1 & X1). inversion X1; subst.
  apply (Permutation_in _ P) in I1.
  destruct (forall2_in_r _ _ _ F1 _ I1) as (d0 & I0 & X0). destruct d0; cbn in X0; try discriminate; inversion X0; subst.
  - destruct (node_causality nd); discriminate.
  - destruct (forall2_in_r _ _ _ F0 _ I0) as ([a y] & Ia & Xa). exists a. unfold tr_attrdecl in Xa. cbn [fst snd] in Xa.
    apply obind_some in Xa. destruct Xa as (? & _ & Xa). destruct y; cbn [tr_decl] in Xa; inv_out; auto.
    destruct (t_stmts t1), (t_blocks t1); inv_out.
Qed.

(** The values of the constants of an accepted program. *)
Theorem constants_values : forall ext p l, result (pipeline p) = Some l -> externs_ok p ext ->
  match constants ext l with
  | Panic c => arith c
  | Ok g => constants_ok p g /\ (forall a x t, In (a, XExtConst x t) p -> g x = ext x) /\
      forall a x t e, In (a, XConst x t e) p -> exists s e' s1, g x = Some s /\ cexpr e' /\
        result (tr false [] e 0 tst0) = Some (e', s1) /\ const_eval g e' = Ok s
  end.
Proof.
  intros ext p l H X. pose proof (program_consts _ _ H) as Cs.
  pose proof (const_env_sound ext l [] [] Cs) as S. unfold constants.
  assert (Y : forall o x t, In (DExtConst o x t) l -> exists s, ext x = Some s /\ (forall theta, sty_of s = kind_of theta t)).
  { intros o x t I. destruct (ext_origin _ _ H _ _ _ I) as (a & J). eapply X; eauto. }
  destruct (const_env ext l []) as [g|c]; cbn [bind].
  2:{ apply S; auto. intros x b. cbn. discriminate. }
  destruct S as (_ & A & B); auto. { intros x b. cbn. discriminate. }
  assert (Ce : forall gl m, const_seq gl m -> forall o x t e, In (DConst o x t e) m -> cexpr e).
  { clear. induction 1; intros o2 x2 t2 e2 I; [destruct I| | | |]; destruct I as [I|I]; eauto; inversion I; subst; auto. }
  split; [|split].
  - intros x t (a & [(e & I)|I]).
    + destruct (const_compiled _ _ H _ _ _ _ I) as (o & e' & s & J & _). destruct (A _ _ _ _ J) as (v & Lv & Tv & _). eauto.
    + destruct (ext_compiled _ _ H _ _ _ I) as (o & J). destruct (B _ _ _ J) as (v & Lv & _ & Tv). eauto.
  - intros a x t I. destruct (ext_compiled _ _ H _ _ _ I) as (o & J). destruct (B _ _ _ J) as (v & Lv & Ev & Tv). congruence.
  - intros a x t e I. destruct (const_compiled _ _ H _ _ _ _ I) as (o & e' & s & J & T). destruct (A _ _ _ _ J) as (v & Lv & Tv & Ev).
    exists v, e', s. repeat split; auto. eapply Ce; eauto.
Qed.

Theorem constants_same : forall ext p l g, result (pipeline p) = Some l -> externs_ok p ext -> constants ext l = Ok g ->
  forall a x t e, In (a, XConst x t e) p -> exists s, g x = Some s /\
    forall mode locals rho F N T v, (forall y, In y (names e) -> ~ In y locals) -> sem mode g locals rho F N e T v ->
      (v = VS (Defined s) \/ v = VS Nil) /\
      (float_free e = true -> (forall y r, In y (names e) -> g y = Some r -> sty_of r <> TFloat) -> v = VS (Defined s)).
Proof.
  intros ext p l g H X G a x t e I. pose proof (constants_values ext p l H X) as V. rewrite G in V. destruct V as (_ & _ & V).
  destruct (V _ _ _ _ I) as (s & e' & s1 & Gx & Ce & Tr & Ev). exists s. split; auto. intros mode locals rho F N T v O S.
  destruct (const_in_node mode g locals rho F N e _ _ _ _ Tr O _ _ S Ce) as (_ & W). destruct (W _ Ev) as (W1 & W2). split; auto.
  intros Ff Fg. apply W2. split; auto.
Qed.

Theorem program_runs : forall ext p l g, result (pipeline p) = Some l -> closed p -> default_mode p -> externs_ok p ext -> constants ext l = Ok g ->
  forall mode sn, In sn (source_nodes p) ->
  exists i, init_inst (nodes_of l) (s_name sn) = Ok i /\
    forall theta ins, Forall (of_type theta (declared_type (s_inputs sn))) ins ->
    match run mode g (nodes_of l) (s_name sn) i ins with
    | Ok (outs, _) => Forall (of_type theta (declared_type (s_outputs sn))) outs
    | Panic e => e = POverflow \/ e = PDivZero \/ e = PAssert \/ e = PAssertNil
    end.
Proof.
  intros ext p l g H Cl D X G mode. apply default_program_errors; auto.
  pose proof (constants_values ext p l H X) as V. rewrite G in V. tauto.
Qed.

Lemma constants_typed : forall ext p l, result (pipeline p) = Some l -> externs_ok p ext ->
  match constants ext l with
  | Ok glob => constants_ok p glob /\ forall a x t, In (a, XExtConst x t) p -> glob x = ext x
  | Panic e => e = POverflow \/ e = PDivZero
  end.
Proof. intros ext p l H X. pose proof (constants_values ext p l H X) as V. destruct (constants ext l); auto. tauto. Qed.
Lemma constants_agree : forall ext p l g, result (pipeline p) = Some l -> externs_ok p ext -> constants ext l = Ok g ->
  forall a x t e, In (a, XConst x t e) p -> exists s, g x = Some s /\
    forall mode locals rho F N T v, (forall y, In y (names e) -> ~ In y locals) ->
      sem mode g locals rho F N e T v -> v = VS (Defined s) \/ v = VS Nil.
Proof.
  intros ext p l g H X G a x t e I. destruct (constants_same _ _ _ _ H X G _ _ _ _ I) as (s & Gx & A). exists s. split; auto.
  intros mode locals rho F N T v O S. apply (A mode locals rho F N T v O S).
Qed.
Lemma constants_exact : forall ext p l g, result (pipeline p) = Some l -> externs_ok p ext -> constants ext l = Ok g ->
  forall a x t e, In (a, XConst x t e) p ->
    float_free e = true -> (forall y r, In y (names e) -> g y = Some r -> sty_of r <> TFloat) ->
    exists s, g x = Some s /\
    forall mode locals rho F N T v, (forall y, In y (names e) -> ~ In y locals) ->
      sem mode g locals rho F N e T v -> v = VS (Defined s).
Proof.
  intros ext p l g H X G a x t e I Ff Fg. destruct (constants_same _ _ _ _ H X G _ _ _ _ I) as (s & Gx & A). exists s. split; auto.
  intros mode locals rho F N T v O S. apply (A mode locals rho F N T v O S); auto.
Qed.
